(** * Inputs that end too early: C79. *)
From Coq Require Import String.
From Verif Require Import Base BaseFacts Serde ExSerde SpecVarint SpecUtf8 Utf8 Utf8Facts Header Body SpecAccept SpecReject SpecCut CutFacts.
Local Open Scope list_scope.
Local Open Scope N_scope.

(** ** C79 *)
(** On 64 bit targets, of the inputs rejected with Read, something appended makes exactly those decode
    that end inside a code of the type. *)
Theorem C79_value : forall c d s, wf_cfg c -> usize_bits c = 64 -> 4096 <= heap_limit c -> shaped d = true -> bytes_ok s ->
  (cut c d s <-> run c (de c d) s = OErr ERead /\ exists t v r, bytes_ok t /\ run c (de c d) (s ++ t) = OOk v r).
Proof. exact cut_value. Qed.
Theorem C79_body : forall c h s, wf_cfg c -> usize_bits c = 64 -> 4096 <= heap_limit c -> bytes_ok s ->
  (body_cut c h s <-> run c (bde c h) s = OErr ERead /\ exists t b r, bytes_ok t /\ run c (bde c h) (s ++ t) = OOk b r).
Proof. exact cut_body. Qed.

(** Two entries announced, the second begun: a part of a character. *)
Example C79_ex : cut c64 (DMap DU16) [2; 1; 98; 133; 0; 3; 226; 130].
Proof.
  apply C79_value; [first [split; [right; reflexivity|split; discriminate]|reflexivity|discriminate|apply bytes_okb_ok; reflexivity]..|].
  split; [vm_compute; reflexivity|]. exists [172; 7]. eexists. eexists. split; [apply bytes_okb_ok; reflexivity|]. vm_compute. reflexivity.
Qed.
(** Shorter than announced and yet beyond help: three bytes of a character do not fit in two. *)
Example C79_ex_misfit : run c64 (de c64 DString) [2; 226] = OErr ERead /\ ~ cut c64 DString [2; 226].
Proof.
  split; [vm_compute; reflexivity|]. intros H. inversion H as [| | | | | | | | | | | | | |s [X|X] E0| | | | | | | | | | | | | | | | | | |]; subst.
  { destruct X as [X|(p & t & E & X)]; [discriminate|]. injection E as <- <-. vm_compute in X. lia. }
  destruct X as (l & n & r & E & (p & t & -> & Ht & ->) & Hn & w & q & -> & Hw & Hq). cbn [app] in E. injection E as <- E. destruct t; [|discriminate]. cbn [app] in E.
  destruct w as [|x w]; [|injection E as <- E; symmetry in E; apply app_eq_nil in E as [-> ->]; apply utf8_valid_iff in Hw; discriminate].
  cbn [app] in E. subst q. destruct Hq as [Hq|(ch & u & _ & Hu & Hl)]; [discriminate|]. vm_compute in Hn. change (varint_value 8 2 []) with 2 in Hl. change (lenN (@nil N)) with 0 in Hl.
  revert Hu Hl. unfold utf8. destruct (N.ltb_spec ch 128); [intros Hu; injection Hu as Hu _; lia|]. destruct (N.ltb_spec ch 2048).
  - intros Hu _. assert (E : 192 + ch / 64 = 226) by (apply (f_equal (hd 0)) in Hu; exact Hu). assert (ch / 64 < 32) by (apply N.div_lt_upper_bound; lia). clear Hu. generalize dependent (ch / 64). intros. lia.
  - destruct (ch <? 65536); intros _ Hl; vm_compute in Hl; apply Hl; reflexivity.
Qed.
(** A variant number that cannot become one of three. *)
Example C79_ex_index : let e := HEnum [HUnit; HUnit; HString] in run c64 (bde c64 e) [130] = OErr ERead /\
  body_cut c64 e [130] /\ run c64 (bde c64 e) [133] = OErr ERead /\ run c64 (bde c64 e) [133; 1] = OErr ERead.
Proof.
  cbv zeta. split; [vm_compute; reflexivity|]. split; [|split; vm_compute; reflexivity].
  apply C79_body; [first [split; [right; reflexivity|split; discriminate]|reflexivity|discriminate|apply bytes_okb_ok; reflexivity]..|].
  split; [vm_compute; reflexivity|]. exists [0; 0]. eexists. eexists. split; [apply bytes_okb_ok; reflexivity|]. vm_compute. reflexivity.
Qed.

Print Assumptions C79_value.
Print Assumptions C79_body.
