(** * Size of encodings from the type alone: C61. *)
From Coq Require Import String.
From Verif Require Import Base BaseFacts Varint Utf8 Serde Typing SpecMap SpecDty SpecSize ExSerde
  SerdeFacts SerdeMore Consume SerdeSize WidthFacts SerdeProps SizeFacts.
Local Open Scope list_scope.
Local Open Scope N_scope.

(** ** C61 *)
(** Every value's encoding lies within the range computed from its type. *)
Theorem C61_bounds : forall c d v, wf_cfg c -> 4096 <= heap_limit c -> wf_dty d = true -> has_ty c d v = true ->
  exists a b, size_range c d = Some (a, b) /\ a <= lenN (wbytes (ser v)) /\
    match b with Some b => lenN (wbytes (ser v)) <= b | None => True end.
Proof.
  intros c d v Hw Hh Hd Hv. pose proof (ranged_dty c Hw Hh d Hd) as H. unfold ranged in H.
  destruct (size_range c d) as [[a b]|]; [|destruct (H v Hv)]. exists a, b. split; [reflexivity|]. exact (proj1 H v Hv).
Qed.
(** Both ends are reached; without an upper end, every size below the address space is passed. *)
Theorem C61_tight : forall c d a b, wf_cfg c -> 4096 <= heap_limit c -> wf_dty d = true -> size_range c d = Some (a, b) ->
  (exists v, has_ty c d v = true /\ lenN (wbytes (ser v)) = a) /\
  match b with
  | Some b => exists v, has_ty c d v = true /\ lenN (wbytes (ser v)) = b
  | None => forall k, k < 2 ^ usize_bits c -> exists v, has_ty c d v = true /\ k <= lenN (wbytes (ser v))
  end.
Proof.
  intros c d a b Hw Hh Hd E. pose proof (ranged_dty c Hw Hh d Hd) as H. unfold ranged in H. rewrite E in H. exact (proj2 H).
Qed.
(** No range: no value, and no input decodes. *)
Theorem C61_no_value : forall c d, wf_cfg c -> 4096 <= heap_limit c -> wf_dty d = true ->
  (size_range c d = None <-> forall v, has_ty c d v = false).
Proof.
  intros c d Hw Hh Hd. pose proof (ranged_dty c Hw Hh d Hd) as H. unfold ranged in H. split.
  - intros E v. rewrite E in H. destruct (has_ty c d v) eqn:Ev; [destruct (H v Ev)|reflexivity].
  - intros Hn. destruct (size_range c d) as [[a b]|]; [|reflexivity]. destruct H as (_ & (v & Hv & _) & _).
    rewrite Hn in Hv. discriminate.
Qed.
(** Input shorter than the range is rejected, whatever its bytes. *)
Theorem C61_short_input : forall c d s v r, wf_cfg c -> 4096 <= heap_limit c -> wf_dty d = true -> bytes_ok s ->
  usize_bits c = 64 \/ occurs is_buf d = false \/ lenN s < 2 ^ usize_bits c + lenN r ->
  run c (de c d) s = OOk v r -> exists a b, size_range c d = Some (a, b) /\ a + lenN r <= lenN s.
Proof.
  intros c d s v r Hw Hh Hd Hs Hc H. pose proof (typed_wide c d s v r Hw Hh Hd Hc Hs H) as Hv.
  destruct (C61_bounds c d v Hw Hh Hd Hv) as (a & b & E & Ha & _). exists a, b. split; [exact E|].
  destruct (reencode c d Hw Hh Hd s v r Hs H) as (n & Es & Hn). cbv beta in Hn. unfold vsize, wsize in Hn. lia.
Qed.
Example C61_ex :
  size_range c64 ex_sized = Some (9, Some 33) /\ size_range c32 ex_sized = Some (9, Some 29) /\
  wf_dty ex_sized = true /\
  has_ty c64 ex_sized (STuple [SU32 (2 ^ 32 - 1); SSome (SU64 (2 ^ 64 - 1)); SF32 0; SNewtypeVariant 1 (SI16 (- 2 ^ 15)); SSeq (Some 2) [SUnit; SUnit]; SSeq (Some 0) []]) = true /\
  size_range c64 (DMap DBool) = Some (1, None) /\ size_range c64 (DEnum [(KNewtype, DEnum [])]) = None /\
  run c64 (de c64 (DEnum [(KNewtype, DEnum [])])) [0; 0; 0] = OErr EMsg.
Proof. repeat split; vm_compute; reflexivity. Qed.
Print Assumptions C61_bounds.
Print Assumptions C61_tight.
Print Assumptions C61_no_value.
Print Assumptions C61_short_input.
