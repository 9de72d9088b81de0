(** * Memory granted over a whole run: C76. *)
From Verif Require Import Base BaseFacts Varint Serde Header Body SpecVarint SpecBody SpecRequest SpecHeap ExSerde
  BodyFacts HeapFacts.
Local Open Scope N_scope.

(** A typed value: at most the bytes read when it is read, and one buffer more otherwise. *)
Theorem C76_typed : forall c d s, wf_cfg c -> 4096 <= heap_limit c -> bytes_ok s ->
  match run c (de c d) s with
  | OOk v r => lenN r <= lenN s /\ total (granted c (de c d) s) <= per_buffer_byte c * (lenN s - lenN r)
  | _ => total (granted c (de c d) s) <= per_buffer_byte c * lenN s + 4096
  end.
Proof. intros c d s Hw Hh Hs. exact (de_costs c d Hw Hh s Hs). Qed.
(** On a 64 bit target every kind of outcome stays within the input and one buffer. *)
Theorem C76_typed_64 : forall c d s, wf_cfg c -> usize_bits c = 64 -> 4096 <= heap_limit c -> bytes_ok s ->
  total (granted c (de c d) s) <= lenN s + 4096.
Proof.
  intros c d s Hw H64 Hh Hs. assert (H := C76_typed c d s Hw Hh Hs). unfold per_buffer_byte in H. rewrite H64, N.eqb_refl in H.
  destruct (run c (de c d) s); lia.
Qed.
(** The extra buffer is needed: it is granted before its bytes are read. *)
Theorem C76_typed_reached : forall c n, wf_cfg c -> usize_bits c = 64 -> 4096 <= heap_limit c -> 1 <= n < 2 ^ 64 ->
  exists s, (length s <= 9)%nat /\ bytes_ok s /\ run c (de c DByteBuf) s = OErr ERead /\
    total (granted c (de c DByteBuf) s) = N.min n 4096.
Proof. intros c n Hw H64 Hh Hn. exact (buffer_reached c n Hw Hh H64 Hn). Qed.

(** A body: bounds computed from the header, times the bytes read. *)
Theorem C76_body : forall c h s, wf_cfg c -> 4096 <= heap_limit c -> hoccurs is_free_array h = false -> bytes_ok s ->
  match run c (bde c h) s with
  | OOk b r => lenN r <= lenN s /\ total (granted c (bde c h) s) <= fixed_part c h + per_byte c h * (lenN s - lenN r)
  | _ => total (granted c (bde c h) s) <= fixed_part c h + per_byte c h * lenN s + unfinished c h
  end.
Proof. intros c h s Hw Hh Hf Hs. exact (body_costs c h Hw Hh Hf s Hs). Qed.
(** Arrays of arrays which are never filled hold one full request per level; nine bytes of input
    each suffice. *)
Theorem C76_unfinished_reached : forall c k n, wf_cfg c -> usize_bits c = 64 -> 1 <= n < 2 ^ 64 ->
  vec_room c n = true ->
  exists h s, hoccurs is_free_array h = false /\ (length s <= 9 * k)%nat /\ bytes_ok s /\
    run c (bde c h) s = OErr ERead /\ total (granted c (bde c h) s) = N.of_nat k * (n * size_of_body c).
Proof.
  intros c k n Hw H64 Hn Hv. exists (arrays k), (counts k n). assert (Ha := proj1 (vec_room_alloc c n) Hv).
  destruct (counts_size k n (proj2 Hn)) as [H1 H2]. destruct (arrays_spent c n Hw H64 Hn Ha k) as [H3 H4].
  split; [apply arrays_not_free|auto].
Qed.
(** Without the restriction on arrays of empty elements a successful read is granted any amount. *)
Theorem C76_unrestricted_refuted : forall c n, wf_cfg c -> usize_bits c = 64 -> n < 2 ^ 64 ->
  vec_room c n = true ->
  exists s b, (length s <= 9)%nat /\ bytes_ok s /\ run c (bde c (HArray HUnit)) s = OOk b [] /\
    total (granted c (bde c (HArray HUnit)) s) = n * size_of_body c.
Proof. exact units_spent. Qed.
Example C76_ex : let c := Cfg true 64 32 32 1000 in let c4 := Cfg true 64 32 32 4096 in let h := HTuple [HArray (HTuple [HBinary; HBoolean]); HUInt8] in
  let s := [2; 3; 7; 7; 7; 1; 0; 0; 9; 200] in
  wf_cfg c4 /\ hoccurs is_free_array h = false /\ vec_room c4 100 = true /\
  run c4 (bde c4 h) s = OOk (BTuple [BArray [BTuple [BBinary [7; 7; 7]; BBoolean true]; BTuple [BBinary []; BBoolean false]]; BUInt8 9]) [200] /\
  granted c4 (bde c4 h) s = [64; 64; 64; 3; 64; 0] /\
  fixed_part c4 h + per_byte c4 h * (lenN s - 1) = 64 + 97 * 9 /\
  granted c4 (bde c4 h) [100; 2; 0] = [64; 3200; 64; 2] /\ run c4 (bde c4 h) [100; 2; 0] = OErr ERead /\
  granted c (bde c (HArray (HArray HBoolean))) [20; 100] = [640] /\ run c (bde c (HArray (HArray HBoolean))) [20; 100] = OPanic PAlloc /\
  granted c4 (de c4 (DVec DByteBuf)) [3; 2; 5; 5; 1; 6; 144; 1] = [2; 1; 80] /\
  run c4 (de c4 (DVec DByteBuf)) [3; 2; 5; 5; 1; 6; 144; 1] = OErr ERead.
Proof. split; [split; [right; reflexivity|split; discriminate]|]. repeat split; vm_compute; reflexivity. Qed.
Print Assumptions C76_typed.
Print Assumptions C76_typed_64.
Print Assumptions C76_typed_reached.
Print Assumptions C76_body.
Print Assumptions C76_unfinished_reached.
Print Assumptions C76_unrestricted_refuted.
