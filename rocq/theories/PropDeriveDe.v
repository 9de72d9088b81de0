(** * Reading back derived types: C66. *)
From Coq Require Import String Permutation.
From Verif Require Import Base BaseFacts SpecVarint Serde Typing ExSerde ExDeriveDe Derive SpecDerive DeriveFacts DeriveDe SpecDeriveDe DeriveDeFacts.
Local Open Scope list_scope.
Local Open Scope N_scope.

(** What T::serialize writes, T::deserialize reads, for a type whose skip attributes agree; [dflt]
    is Default::default(), [omit] the predicates of skip_serializing_if. *)
Theorem C66_roundtrip : forall c dflt omit t v w sv rest,
  wf_cfg c -> 4096 <= heap_limit c -> readable t -> comes_back c dflt t v w -> rser c omit t v = Some sv ->
  wresult (ser sv) = WeOk /\ run c (rde c dflt t) (wbytes (ser sv) ++ rest) = OOk w rest.
Proof.
  intros c dflt omit t v w sv rest Hc Hh Ht Hb Hs. destruct (rde_rser c dflt omit t Hc Hh Ht v w sv Hb Hs) as [H1 [H2 _]]. auto.
Qed.
Theorem C66_truncated : forall c dflt omit t v w sv u x u',
  wf_cfg c -> 4096 <= heap_limit c -> readable t -> comes_back c dflt t v w -> rser c omit t v = Some sv ->
  wbytes (ser sv) = u ++ x :: u' -> run c (rde c dflt t) u = OErr ERead.
Proof.
  intros c dflt omit t v w sv u x u' Hc Hh Ht Hb Hs. destruct (rde_rser c dflt omit t Hc Hh Ht v w sv Hb Hs) as [_ [_ H]]. apply H.
Qed.
Example C66_ex : readable ex_de_struct /\ comes_back c64 ex_de_dflt ex_de_struct ex_de_value ex_de_back /\
  exists sv, rser c64 (fun _ _ => false) ex_de_struct ex_de_value = Some sv /\ wbytes (ser sv) = [7; 2; 0; 1; 172; 4; 1; 1] /\
  run c64 (rde c64 ex_de_dflt ex_de_struct) [7; 2; 0; 1; 172; 4; 1; 1; 99] = OOk ex_de_back [99].
Proof.
  split; [apply readable_b_ok; reflexivity|]. split; [|eexists; repeat split; vm_compute; reflexivity].
  assert (Hs : skipped (ex_attr "skip")) by (apply skip_iff; reflexivity).
  assert (Hn : ~ skipped []) by (apply skip_false; reflexivity).
  unfold ex_de_struct, ex_de_enum, ex_de_value, ex_de_back. cbn [comes_back map fst snd].
  do 2 eexists. split; [reflexivity|]. split; [reflexivity|]. cbn [pairwise]. split; [right; split; [exact Hn|split; reflexivity]|].
  split; [left; split; [exact Hs|reflexivity]|]. split; [right; split; [exact Hn|]|split; [right; split; [exact Hn|]|exact I]].
  - do 2 eexists. split; [reflexivity|]. split; [reflexivity|]. split; [reflexivity|].
    constructor; [left; auto|]. constructor; [right|constructor]. do 2 eexists. split; [reflexivity|]. split; [reflexivity|]. split; reflexivity.
  - do 4 eexists. split; [reflexivity|]. split; [reflexivity|]. split; [intros var E; injection E as <-; exact Hn|]. split; [reflexivity|]. cbn [pairwise].
    split; [right; split; [exact Hn|reflexivity]|]. split; [left; split; [exact Hs|reflexivity]|exact I].
Qed.

(** Whatever the attributes and whatever the input, only these panics. *)
Theorem C66_panics : forall c dflt t s q, wf_cfg c -> 4096 <= heap_limit c -> bytes_ok s ->
  run c (rde c dflt t) s = OPanic q -> exists l, reads_leaf l t /\ leaf_panics c l q.
Proof. intros c dflt t s q Hc Hh Hs H. pose proof (ends_rde c dflt t Hc Hh s Hs) as E. rewrite H in E. exact E. Qed.
(** A field of type &str or &[u8] can be written but never read. *)
Theorem C66_borrowed : forall c dflt s,
  run c (rde c dflt (RLeaf LStr)) s = OPanic PTodo /\ run c (rde c dflt (RLeaf LBytes)) s = OPanic PTodo.
Proof. split; reflexivity. Qed.
Example C66_ex_borrowed :
  let t := RTuple [RLeaf LU8; RLeaf LStr] in
  (exists sv, rser c64 (fun _ _ => false) t (VSeq [VU 1; VB [97]]) = Some sv /\ wbytes (ser sv) = [1; 1; 97]) /\
  run c64 (rde c64 ex_de_dflt t) [1; 1; 97] = OPanic PTodo /\ run c64 (rde c64 ex_de_dflt t) [] = OErr ERead.
Proof.
  cbv zeta. split; [exists (STuple [SU8 1; SStr [97]]); split; reflexivity|]. split; vm_compute; reflexivity.
Qed.

(** A variant declared after one that the reader skips: the number written counts all variants, the
    number read only those not skipped. Reading fails or gives a later variant. *)
Theorem C66_variant_moves : forall c dflt omit vs k b i l sv, k <= i -> pickN vs k = Some b -> skipped_de (fst b) -> lenN vs <= 16384 ->
  (forall var, pickN vs i = Some var -> ~ skipped (fst var)) ->
  rser c omit (REnum vs) (VVariant i l) = Some sv -> forall rest w r,
  run c (rde c dflt (REnum vs)) (wbytes (ser sv) ++ rest) = OOk w r -> exists j l', w = VVariant j l' /\ i < j.
Proof. exact variant_moves. Qed.
(** F::B(5) comes back as F::C(5). *)
Example C66_ex_moves : exists sv, rser c64 (fun _ _ => false) ex_moved (VVariant 1 [VU 5]) = Some sv /\ wbytes (ser sv) = [1; 5] /\
  run c64 (rde c64 ex_de_dflt ex_moved) [1; 5] = OOk (VVariant 2 [VU 5]) [] /\
  (exists sv, rser c64 (fun _ _ => false) ex_moved (VVariant 2 [VU 5]) = Some sv /\ wbytes (ser sv) = [2; 5]) /\
  run c64 (rde c64 ex_de_dflt ex_moved) [2; 5] = OErr EMsg.
Proof.
  exists (SNewtypeVariant 1 (SU8 5)). split; [reflexivity|]. split; [reflexivity|]. split; [vm_compute; reflexivity|].
  split; [exists (SNewtypeVariant 2 (SU8 5)); split; reflexivity|vm_compute; reflexivity].
Qed.

(** The number on the wire counts the variants the reader knows; the value is the variant at that
    place, and a number beyond them is an error. *)
Theorem C66_variant_number : forall c dflt vs i s, i < 2 ^ 16 ->
  (forall w r, run c (rde c dflt (REnum vs)) (varint_bytes 2 i ++ s) = OOk w r ->
    exists vs1 b vs2 l, vs = vs1 ++ b :: vs2 /\ read_variants vs1 i /\ ~ skipped_de (fst b) /\ w = VVariant (lenN vs1) l) /\
  (forall n, read_variants vs n -> n <= i -> run c (rde c dflt (REnum vs)) (varint_bytes 2 i ++ s) = OErr EMsg).
Proof. exact variant_number. Qed.
(** Two of the three variants of [ex_moved] are read. *)
Example C66_ex_number : match ex_moved with REnum vs => read_variants vs 2 | _ => False end.
Proof.
  unfold ex_moved. apply (rv_skip _ _ 2); [apply skip_de_iff; reflexivity|]. apply (rv_keep _ _ 1); [apply skip_de_false; reflexivity|].
  apply (rv_keep _ _ 0); [apply skip_de_false; reflexivity|]. constructor.
Qed.

(** A value of a skipped variant is refused with a message; nothing is written. *)
Theorem C66_skipped_variant : forall c omit vs i l b, pickN vs i = Some b -> skipped (fst b) ->
  exists sv, rser c omit (REnum vs) (VVariant i l) = Some sv /\ wbytes (ser sv) = [] /\ wresult (ser sv) = WeErr SEMsg.
Proof. exact skipped_variant_fails. Qed.
Example C66_ex_skipped : exists sv, rser c64 (fun _ _ => false) ex_skipped_variant (VSeq [VU 7; VVariant 1 []]) = Some sv /\
  wbytes (ser sv) = [7] /\ wresult (ser sv) = WeErr SEMsg.
Proof. eexists. repeat split. Qed.
(** Attributes that do not agree: the reader takes the next bytes of the stream for the value. *)
Theorem C66_skip_serializing_refuted : exists t v sv w rest,
  rser c64 (fun _ _ => false) t v = Some sv /\ t = ex_pair "skip_serializing" /\
  run c64 (rde c64 ex_de_dflt t) (wbytes (ser sv) ++ rest) = OOk w [] /\ rest <> [] /\ v = VSeq [VU 1; VU 2] /\ w = VSeq [VU 2; VU 9].
Proof.
  exists (ex_pair "skip_serializing"), (VSeq [VU 1; VU 2]), (SStruct [("b"%string, SU8 2)]), (VSeq [VU 2; VU 9]), [9].
  split; [reflexivity|]. split; [reflexivity|]. split; [vm_compute; reflexivity|]. split; [discriminate|]. split; reflexivity.
Qed.
(** The reader leaves the field's bytes for the field after it. *)
Theorem C66_skip_deserializing_refuted : exists t v sv w,
  rser c64 (fun _ _ => false) t v = Some sv /\ t = ex_pair "skip_deserializing" /\
  run c64 (rde c64 ex_de_dflt t) (wbytes (ser sv)) = OOk w [2] /\ v = VSeq [VU 1; VU 2] /\ w = VSeq [VU 0; VU 1].
Proof.
  exists (ex_pair "skip_deserializing"), (VSeq [VU 1; VU 2]), (SStruct [("a"%string, SU8 1); ("b"%string, SU8 2)]), (VSeq [VU 0; VU 1]).
  split; [reflexivity|]. split; [reflexivity|]. split; [vm_compute; reflexivity|]. split; reflexivity.
Qed.
(** The same after skip_serializing_if, when its predicate holds. *)
Theorem C66_skip_serializing_if_refuted : exists t omit v sv w rest,
  rser c64 omit t v = Some sv /\ t = ex_pair "skip_serializing_if" /\
  run c64 (rde c64 ex_de_dflt t) (wbytes (ser sv) ++ rest) = OOk w [] /\ rest <> [] /\ v = VSeq [VU 0; VU 2] /\ w = VSeq [VU 2; VU 9].
Proof.
  exists (ex_pair "skip_serializing_if"), (fun n v => match v with VU 0 => true | _ => false end),
    (VSeq [VU 0; VU 2]), (SStruct [("b"%string, SU8 2)]), (VSeq [VU 2; VU 9]), [9].
  split; [reflexivity|]. split; [reflexivity|]. split; [vm_compute; reflexivity|]. split; [discriminate|]. split; reflexivity.
Qed.
Print Assumptions C66_roundtrip.
Print Assumptions C66_truncated.
Print Assumptions C66_panics.
Print Assumptions C66_borrowed.
Print Assumptions C66_variant_moves.
Print Assumptions C66_variant_number.
Print Assumptions C66_skipped_variant.
Print Assumptions C66_skip_serializing_refuted.
Print Assumptions C66_skip_deserializing_refuted.
Print Assumptions C66_skip_serializing_if_refuted.
