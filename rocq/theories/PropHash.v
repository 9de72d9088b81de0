(** * C92: the order in which hash sets and hash maps are iterated. *)
From Coq Require Import String Permutation.
From Verif Require Import Base Serde Typing SerdeFacts Std SpecStd StdFacts SpecHash HashFacts ExSerde ExStd ExHash.
Local Open Scope list_scope.
Local Open Scope N_scope.

(** ** C92 *)
(** Whatever the order of members and entries, at any depth: written without error, as many bytes, read
    back as the same value. *)
Theorem C92_order : forall c t v v' u rest, wf_cfg c -> 4096 <= heap_limit c -> proper t -> wf_dty (wire t) = true -> strict c t ->
  comes_back c t v v' -> shuffled t v u ->
  wresult (ser (std_sval u)) = WeOk /\ lenN (wbytes (ser (std_sval u))) = lenN (wbytes (ser (std_sval v))) /\
  run c (std_de c t) (wbytes (ser (std_sval u)) ++ rest) = OOk v' rest.
Proof.
  intros c t v v' u rest Hc Hh P W K B S. destruct (shuffled_good c Hc Hh t P W K v v' u B S) as (F & [R _] & L).
  split; [exact F|]. split; [unfold lenN; f_equal; exact L|apply R].
Qed.
Theorem C92_truncated : forall c t v v' u s x s', wf_cfg c -> 4096 <= heap_limit c -> proper t -> wf_dty (wire t) = true -> strict c t ->
  comes_back c t v v' -> shuffled t v u -> wbytes (ser (std_sval u)) = s ++ x :: s' -> run c (std_de c t) s = OErr ERead.
Proof.
  intros c t v v' u s x s' Hc Hh P W K B S. destruct (shuffled_good c Hc Hh t P W K v v' u B S) as (_ & [_ R] & _). exact (R s x s').
Qed.
(** The bytes are not the same. *)
Theorem C92_bytes_refuted : exists c t v v' u, wf_cfg c /\ 4096 <= heap_limit c /\ proper t /\ wf_dty (wire t) = true /\ strict c t /\
  comes_back c t v v' /\ shuffled t v u /\ wbytes (ser (std_sval u)) <> wbytes (ser (std_sval v)).
Proof.
  exists c64, (TMap (TPlain DU8)), (XDict [([97], XPlain (SU8 1)); ([98], XPlain (SU8 2))]), (XDict [([97], XPlain (SU8 1)); ([98], XPlain (SU8 2))]),
    (XDict [([98], XPlain (SU8 2)); ([97], XPlain (SU8 1))]).
  split; [split; [right; reflexivity|split; discriminate]|]. split; [discriminate|]. split; [exact I|]. split; [reflexivity|]. split; [exact I|].
  split; [|split; [|vm_compute; discriminate]].
  - apply cb_map; [reflexivity|reflexivity|repeat constructor|reflexivity|]. repeat (apply Forall2_cons; [apply cb_plain; reflexivity|]). constructor.
  - apply (sh_map _ _ [([97], XPlain (SU8 1)); ([98], XPlain (SU8 2))]); [reflexivity| |apply perm_swap].
    repeat (apply Forall2_cons; [apply sh_same|]). constructor.
Qed.
(** With members that are equal without being the same, the first one written is the one kept. *)
Theorem C92_equal_members_refuted : exists c t v v' u, wf_cfg c /\ 4096 <= heap_limit c /\ proper t /\ wf_dty (wire t) = true /\
  comes_back c t v v' /\ shuffled t v u /\ run c (std_de c t) (wbytes (ser (std_sval u))) <> OOk v' [].
Proof.
  exists c64, (TSet all_equal (TPlain DU8)), (XSeq [XPlain (SU8 1); XPlain (SU8 2)]), (XSeq [XPlain (SU8 1)]), (XSeq [XPlain (SU8 2); XPlain (SU8 1)]).
  split; [split; [right; reflexivity|split; discriminate]|]. split; [discriminate|].
  split; [split; [repeat split; discriminate|exact I]|]. split; [reflexivity|]. split; [|split; [|vm_compute; discriminate]].
  - apply (cb_set _ _ _ _ [XPlain (SU8 1); XPlain (SU8 2)]); [reflexivity| |].
    + repeat (apply Forall2_cons; [apply cb_plain; reflexivity|]). constructor.
    + split; [split; [constructor|exact I]|]. split.
      * intros x _. exists (XPlain (SU8 1)). split; [left; reflexivity|reflexivity].
      * intros y [<-|[]]. exists [], [XPlain (SU8 2)]. split; [reflexivity|constructor].
  - apply (sh_set _ _ _ [XPlain (SU8 1); XPlain (SU8 2)]); [|apply perm_swap]. repeat (apply Forall2_cons; [apply sh_same|]). constructor.
Qed.

Example C92_ex_order : proper ex_hash /\ wf_dty (wire ex_hash) = true /\ strict c64 ex_hash /\
  comes_back c64 ex_hash ex_hash_val ex_hash_val /\ shuffled ex_hash ex_hash_val ex_hash_other.
Proof.
  assert (K : strict c64 ex_ids).
  { split; [|exact I]. intros x y v w Hx Hy. inversion Hx as [? a Ha| | | | | | | | | | | | | | | | | | | | | | | | | | | | | |]; subst.
    inversion Hy as [? b Hb| | | | | | | | | | | | | | | | | | | | | | | | | | | | | |]; subst.
    destruct a; try discriminate Ha. destruct b; try discriminate Hb. unfold by_number. intros E. apply N.compare_eq in E. congruence. }
  assert (B : forall a b, a <? b = true -> b <? 2 ^ 16 = true -> comes_back c64 ex_ids (XSeq [XPlain (SU16 a); XPlain (SU16 b)]) (XSeq [XPlain (SU16 a); XPlain (SU16 b)])).
  { intros a b H1 H2. apply N.ltb_lt in H1, H2. assert (a < 2 ^ 16) by (eapply N.lt_trans; eassumption).
    apply (cb_set _ _ _ _ [XPlain (SU16 a); XPlain (SU16 b)]); [reflexivity| |].
    - repeat (apply Forall2_cons; [apply cb_plain; cbn [has_ty]; apply N.ltb_lt; assumption|]). constructor.
    - apply set_of_increasing; [exact by_number_lawful|]. split; [|split; [constructor|exact I]]. constructor; [|constructor].
      unfold by_number. apply N.compare_lt_iff, H1. }
  assert (S : forall x y, shuffled ex_ids (XSeq [x; y]) (XSeq [y; x])).
  { intros x y. apply (sh_set _ _ _ [x; y]); [repeat constructor|apply perm_swap]. }
  split; [|split; [reflexivity|split; [|split]]].
  - split; [apply nodupb_NoDup; reflexivity|]. cbn. pose proof by_number_lawful. tauto.
  - split; [exact K|]. split; [exact K|exact I].
  - apply cb_struct; [reflexivity|reflexivity|]. apply ab_cons; [apply B; reflexivity|]. apply ab_cons; [|constructor].
    apply cb_map; [reflexivity|reflexivity|repeat constructor|reflexivity|]. apply Forall2_cons; [apply cb_some, B; reflexivity|].
    apply Forall2_cons; [apply cb_none|constructor].
  - apply sh_struct; [reflexivity|]. apply ash_cons; [apply S|]. apply ash_cons; [|constructor].
    apply (sh_map _ _ [([97], XSome (XSeq [XPlain (SU16 2); XPlain (SU16 1)])); ([98], XNone)]); [reflexivity| |apply perm_swap].
    apply Forall2_cons; [apply sh_some, S|]. apply Forall2_cons; [apply sh_same|constructor].
Qed.
Example C92_ex_bytes : wbytes (ser (std_sval ex_hash_val)) = [2; 3; 172; 4; 2; 1; 97; 1; 2; 1; 2; 1; 98; 0] /\
  wbytes (ser (std_sval ex_hash_other)) = [2; 172; 4; 3; 2; 1; 98; 0; 1; 97; 1; 2; 2; 1] /\
  run c64 (std_de c64 ex_hash) (wbytes (ser (std_sval ex_hash_other)) ++ [9]) = OOk ex_hash_val [9] /\
  run c64 (std_de c64 ex_hash) [2; 172; 4; 3; 2; 1; 98; 0; 1; 97; 1; 2; 2] = OErr ERead.
Proof. repeat split; vm_compute; reflexivity. Qed.

Print Assumptions C92_order.
Print Assumptions C92_truncated.
Print Assumptions C92_bytes_refuted.
Print Assumptions C92_equal_members_refuted.
