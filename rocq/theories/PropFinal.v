(** * C74: failures that more input cannot change. *)
From Verif Require Import Base BaseFacts Serde Typing Header SpecHeader HeaderFacts Body SpecAccept AcceptFacts SpecReject RejectFacts FinalFacts ExSerde.
Local Open Scope list_scope.
Local Open Scope N_scope.

(** ** C74 *)
(** On 64 bit targets a crash, or an error other than Read, is the same whatever follows the input. *)
Theorem C74_value : forall c d s x t, wf_cfg c -> usize_bits c = 64 -> 4096 <= heap_limit c -> shaped d = true ->
  bytes_ok s -> bytes_ok t -> run c (de c d) s = stop x -> x <> inl ERead -> run c (de c d) (s ++ t) = stop x.
Proof.
  intros c d s x t Hw H64 Hh Hd Hs Ht E Hx. apply (fails_de c Hw H64 Hh d Hd); [apply Forall_app; auto|].
  apply (proj1 (rejects_final c)); [|exact Hx]. apply (fails_de c Hw H64 Hh d Hd); assumption.
Qed.
Theorem C74_body : forall c h s x t, wf_cfg c -> usize_bits c = 64 -> 4096 <= heap_limit c ->
  bytes_ok s -> bytes_ok t -> run c (bde c h) s = stop x -> x <> inl ERead -> run c (bde c h) (s ++ t) = stop x.
Proof.
  intros c h s x t Hw H64 Hh Hs Ht E Hx. apply (fails_bde c Hw H64 Hh h); [apply Forall_app; auto|].
  apply (proj1 (body_rejects_final c)); [|exact Hx]. apply (fails_bde c Hw H64 Hh h); assumption.
Qed.
(** Headers: the error tells. UnexpectedEof only if the input is the start of some header; InvalidData
    only if no continuation is one. *)
Theorem C74_header : forall c s, room c -> bytes_ok s ->
  (forall depth, (length s < depth)%nat -> run c (hde c depth) s = OErr EIo ->
     exists t, bytes_ok t /\ forall depth', (length (s ++ t) < depth')%nat -> exists h, run c (hde c depth') (s ++ t) = OOk h []) /\
  (forall depth, (length s < depth)%nat -> run c (hde c depth) s = OErr EInvalid ->
     forall t depth', bytes_ok t -> (length (s ++ t) < depth')%nat -> run c (hde c depth') (s ++ t) = OErr EInvalid).
Proof.
  intros c s Hr Hs. split; intros depth Hd E.
  - apply hde_rejects in E; try assumption. destruct (header_complete s Hs E) as (t & h & Ht & W). exists t. split; [exact Ht|]. intros depth' Hd'. exists h.
    apply hde_accepts; [exact Hr|apply Forall_app; auto|exact Hd'|]. exists (s ++ t). rewrite app_nil_r. auto.
  - intros t depth' Ht Hd'. apply hde_rejects in E; try assumption. apply hde_rejects; [exact Hr|apply Forall_app; auto|exact Hd'|].
    apply header_rejects_final; [exact E|discriminate].
Qed.
(** Err(Read) does not tell: no continuation of this input is a boolean. *)
Theorem C74_read_tells_refuted : exists c d s, wf_cfg c /\ run c (de c d) s = OErr ERead /\
  forall t, bytes_ok t -> run c (de c d) (s ++ t) = OErr ERead.
Proof.
  assert (W : wf_cfg c64) by (split; [right; reflexivity|split; discriminate]).
  exists c64, DBool, [2]. split; [exact W|]. split; [reflexivity|]. intros t Ht.
  apply (fails_de c64 W eq_refl ltac:(discriminate) DBool eq_refl (2 :: t) (inl ERead)); [constructor; [reflexivity|exact Ht]|].
  apply rj_bool. right. exists 2, t. split; reflexivity.
Qed.
(** On 32 bit targets CharSize may give way to Read. *)
Theorem C74_narrow_refuted : exists c d s t, wf_cfg c /\ shaped d = true /\ bytes_ok s /\ bytes_ok t /\
  run c (de c d) s = OErr ECharSize /\ run c (de c d) (s ++ t) = OErr ERead.
Proof.
  exists c32, DChar, [255; 0; 0; 0; 0; 1; 0; 0; 0], [97]. split; [split; [left; reflexivity|split; discriminate]|].
  split; [reflexivity|]. split; [repeat constructor|]. split; [repeat constructor|]. split; vm_compute; reflexivity.
Qed.

Example C74_ex : run c64 (de c64 (DTuple [DU8; DChar])) [7; 0] = OErr ECharSize /\ run c64 (de c64 (DTuple [DU8; DChar])) [7; 0; 1; 97] = OErr ECharSize /\
  run c64 (bde c64 (HArray HString)) [255; 0; 0; 0; 0; 0; 0; 1; 0] = OPanic PAlloc.
Proof. repeat split; vm_compute; reflexivity. Qed.
Example C74_ex_header : let c := Cfg true 64 32 32 (2 ^ 40) in
  run c (hde c 9) [21; 2; 1] = OErr EIo /\ run c (hde c 9) [21; 2; 1; 2; 20; 0] = OOk (HTuple [HOptional HBoolean; HArray HUnit]) [] /\
  run c (hde c 9) [21; 2; 1; 7] = OErr EInvalid.
Proof. cbv zeta. repeat split; vm_compute; reflexivity. Qed.

Print Assumptions C74_value.
Print Assumptions C74_body.
Print Assumptions C74_header.
Print Assumptions C74_read_tells_refuted.
Print Assumptions C74_narrow_refuted.
