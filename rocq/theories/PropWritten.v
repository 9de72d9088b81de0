(** * What derived types write, and how writing ends: C80. *)
From Coq Require Import String.
From Verif Require Import Base Serde ExSerde Big Header Body Derive SpecVarint SpecDerive SpecBig SpecOutput SpecWritten ExDeriveDe BaseFacts DeriveFacts WrittenFacts.
Local Open Scope list_scope.
Local Open Scope N_scope.

(** ** C80 *)
Theorem C80_written : forall c omit t v, value_of t v -> exists sv, rser c omit t v = Some sv /\
  forall u r, derived_writes c omit t v u r <-> wbytes (ser sv) = u /\ wresult (ser sv) = r.
Proof. exact written_iff. Qed.
Example C80_ex_value : value_of ex_de_struct ex_de_value.
Proof.
  assert (Hs : skipped (ex_attr "skip")) by (apply skip_iff; reflexivity).
  split; [discriminate|]. split; [discriminate|]. apply fv_field; [constructor; reflexivity|]. apply fv_skipped; [exact Hs|].
  apply fv_field; [split; [reflexivity|]; constructor; [exact I|constructor; [constructor; reflexivity|constructor]]|].
  apply fv_field; [|constructor]. split; [reflexivity|]. do 3 eexists; split; [reflexivity|]. right; split; [discriminate|].
  apply fv_field; [constructor|]. apply fv_skipped; [exact Hs|constructor].
Qed.
(** Skipped fields are left out; the variant is number 1. *)
Example C80_ex_written : derived_writes c64 (fun _ _ => false) ex_de_struct ex_de_value [7; 2; 0; 1; 172; 4; 1; 1] WeOk.
Proof.
  destruct (C80_written c64 (fun _ _ => false) ex_de_struct ex_de_value C80_ex_value) as (sv & E & H).
  apply H. vm_compute in E. injection E as <-. split; reflexivity.
Qed.
(** A value of a skipped variant: an error after the field before it. *)
Example C80_ex_refused : derived_writes c64 (fun _ _ => false) ex_skipped_variant (VSeq [VU 7; VVariant 1 []]) [7] (WeErr SEMsg).
Proof.
  assert (Hv : value_of ex_skipped_variant (VSeq [VU 7; VVariant 1 []])).
  { apply fv_field; [constructor; reflexivity|]. apply fv_field; [|constructor]. split; [reflexivity|]. do 3 eexists; split; [reflexivity|].
    left. apply skip_iff; reflexivity. }
  destruct (C80_written c64 (fun _ _ => false) _ _ Hv) as (sv & E & H). apply H. vm_compute in E. injection E as <-. split; reflexivity.
Qed.
(** skip_serializing_if leaves a field of a struct variant out, but not the field of a newtype variant. *)
Example C80_ex_omitted : let E := REnum [([], (Named, [(ex_attr "skip_serializing_if", ("x"%string, RLeaf LU8))]));
                                         ([], (Unnamed, [(ex_attr "skip_serializing_if", ("0"%string, RLeaf LU8))]))] in
  value_of E (VVariant 0 [VU 9]) /\ derived_writes c64 (fun _ _ => true) E (VVariant 0 [VU 9]) [0] WeOk /\
  value_of E (VVariant 1 [VU 9]) /\ derived_writes c64 (fun _ _ => true) E (VVariant 1 [VU 9]) [1; 9] WeOk.
Proof.
  intros E.
  assert (H0 : value_of E (VVariant 0 [VU 9])).
  { split; [reflexivity|]. do 3 eexists; split; [reflexivity|]. right; split; [discriminate|]. apply fv_field; constructor. reflexivity. }
  assert (H1 : value_of E (VVariant 1 [VU 9])).
  { split; [reflexivity|]. do 3 eexists; split; [reflexivity|]. right; split; [discriminate|]. apply fv_field; constructor. reflexivity. }
  destruct (C80_written c64 (fun _ _ => true) _ _ H0) as (s0 & E0 & D0). destruct (C80_written c64 (fun _ _ => true) _ _ H1) as (s1 & E1 & D1).
  vm_compute in E0, E1. injection E0 as <-. injection E1 as <-. split; [exact H0|]. split; [apply D0; split; reflexivity|].
  split; [exact H1|]. apply D1; split; reflexivity.
Qed.
(** 300 with the smallest scale: its zeros cannot be moved into the scale. *)
Example C80_ex_scale : let v := VDec 300 (- 2 ^ 63) in
  leaf_value LExtBigDecimal v /\ derived_writes c64 (fun _ _ => false) (RLeaf LExtBigDecimal) v [] (WePanic POverflow) /\
  derived_writes c32 (fun _ _ => false) (RLeaf LExtBigDecimal) v [1; 3; 255; 252; 255; 255; 255; 255; 255; 255; 255] WeOk.
Proof.
  intros v. assert (Hv : leaf_value LExtBigDecimal v).
  { constructor; [|split; [discriminate|reflexivity]]. exists [44; 1]. split; [apply bytes_okb_ok; reflexivity|]. split; reflexivity. }
  split; [exact Hv|]. split.
  - destruct (C80_written c64 (fun _ _ => false) (RLeaf LExtBigDecimal) v Hv) as (sv & E & H). apply H. vm_compute in E. injection E as <-. split; reflexivity.
  - destruct (C80_written c32 (fun _ _ => false) (RLeaf LExtBigDecimal) v Hv) as (sv & E & H). apply H. vm_compute in E. injection E as <-. split; reflexivity.
Qed.
Print Assumptions C80_written.
