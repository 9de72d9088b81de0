(** * Memory of headers and of messages: C98, C99. *)
From Coq Require Import String.
From Verif Require Import Base BaseFacts SpecVarint Varint SpecDty SpecRequest Serde ExSerde Header SpecHeader Body SpecBody SpecHeap Grow SpecGrow ExGrow GrowHeader SpecGrowHeader GrowFacts HeaderFacts GrowHeaderFacts.
Local Open Scope list_scope.
Local Open Scope N_scope.

(** ** C98 *)
(** With the boxes a header is read as in C22, unless a request is refused. *)
Theorem C98_same : forall c depth s, run c (ghde c depth) s = run c (hde c depth) s \/
  exists n q, In n (allocs c (ghde c depth) s) /\ alloc_result c n = Some q /\ run c (ghde c depth) s = OPanic q.
Proof. intros c depth s. exact (adds_run c _ _ (ghde_adds c depth) s). Qed.
(** A header that is read has asked for the size of one header for each node but the outermost, and
    for nothing else. *)
Theorem C98_exact : forall c depth s h r, run c (ghde c depth) s = OOk h r ->
  total (allocs c (ghde c depth) s) = size_of_header c * (N.of_nat (hsize h) - 1).
Proof. exact ghde_exact. Qed.
(** In any case it asks for at most 65535 headers for every four bytes of input. *)
Theorem C98_any : forall c depth s, bytes_ok s -> 4 * total (allocs c (ghde c depth) s) <= 65535 * size_of_header c * lenN s.
Proof. intros c depth s Hs. assert (H := ghde_total c depth s Hs). lia. Qed.
(** No smaller factor will do, however long the input. *)
Theorem C98_reached : forall c k, room c -> let s := concat (repeat [21; 255; 255; 255] k) in
  lenN s = 4 * N.of_nat k /\ 4 * total (allocs c (ghde c (S k)) s) = 65535 * size_of_header c * lenN s /\
  run c (ghde c (S k)) s = OErr EIo.
Proof.
  intros c k H s. destruct (ghde_reached c H k) as [E1 E2]. fold s in E1, E2.
  assert (L : lenN s = 4 * N.of_nat k) by (unfold s, lenN; clear; induction k as [|k IH]; [reflexivity|]; cbn [repeat concat]; rewrite app_length; cbn [length]; lia).
  rewrite L, E1. split; [reflexivity|]. split; [lia|exact E2].
Qed.
(** With that much memory no request is refused. *)
Theorem C98_enough : forall c depth s, bytes_ok s -> 65535 * size_of_header c * lenN s <= 4 * heap_limit c -> heap_limit c <= isize_max c ->
  run c (ghde c depth) s = run c (hde c depth) s.
Proof. exact ghde_enough. Qed.
Example C98_ex :
  allocs c64m (ghde c64m 9) [20; 1; 21; 2; 3; 23; 18] = [64; 32; 32; 32] /\
  run c64m (ghde c64m 9) [20; 1; 21; 2; 3; 23; 18] = OOk (HArray (HOptional (HTuple [HUInt8; HMap HString]))) [] /\
  hsize (HArray (HOptional (HTuple [HUInt8; HMap HString]))) = 6%nat.
Proof. split; [|split]; vm_compute; reflexivity. Qed.
(** A request that is refused: no room for a box. *)
Example C98_ex_refused : let c := Cfg true 64 32 32 16 in
  run c (ghde c 3) [1; 0] = OPanic PAlloc /\ run c (hde c 3) [1; 0] = OOk (HOptional HUnit) [].
Proof. split; vm_compute; reflexivity. Qed.
Print Assumptions C98_same.
Print Assumptions C98_exact.
Print Assumptions C98_any.
Print Assumptions C98_reached.
Print Assumptions C98_enough.

(** ** C99 *)
(** A header and a body of that header, none of its arrays with members that take no input: the header
    asks for memory in proportion to its own bytes, the body to the product of its bytes and those of
    the header. *)
Theorem C99_product : forall c m e depth s h r b r', wf_cfg c -> 4096 <= heap_limit c -> sound_mem m e -> hoccurs is_free_array h = false -> bytes_ok s ->
  run c (ghde c depth) s = OOk h r -> run c (gbde c m h) r = OOk b r' ->
  lenN r' <= lenN r /\ lenN r < lenN s /\
  total (allocs c (ghde c depth) s) <= size_of_header c * (lenN s - lenN r) /\
  total (allocs c (gbde c m h) r) <= per_pair c e * (lenN s - lenN r) * (1 + (lenN r - lenN r')).
Proof. exact message_asked. Qed.
(** The product is no exaggeration: an array of pairs nested w deep, written in 3 w + 2 bytes, asks for
    2 w + 1 bodies for every byte of an array of bytes. *)
Theorem C99_reached : forall c m w xs rest, wf_cfg c -> room c -> lenN xs < 2 ^ usize_bits c ->
  alloc_result c (2 * size_of_body c) = None -> alloc_result c (lenN xs * size_of_body c) = None -> bytes_ok xs ->
  let head := 20 :: concat (repeat [21; 2; 0] w) ++ [3] in
  let r := varint_bytes 8 (lenN xs) ++ xs ++ rest in
  lenN head = 3 * N.of_nat w + 2 /\ lenN (varint_bytes 8 (lenN xs)) <= 9 /\ hoccurs is_free_array (HArray (rows w)) = false /\
  run c (ghde c (S (S w))) (head ++ r) = OOk (HArray (rows w)) r /\
  run c (gbde c m (HArray (rows w))) r = OOk (BArray (map (row w) xs)) rest /\
  total (allocs c (gbde c m (HArray (rows w))) r) = lenN xs * (1 + 2 * N.of_nat w) * size_of_body c.
Proof.
  intros c m w xs rest Hw Hroom Hn H2 Hx Hb head r. destruct (table_body c m w xs rest Hw Hn H2 Hx Hb) as [B1 B2].
  split; [apply table_size|]. split; [exact (count_size c xs Hw Hn)|]. split; [apply table_free|]. split; [|split; assumption].
  unfold head. cbn [app]. rewrite <- app_assoc. cbn [app]. apply table_read, Hroom.
Qed.
Example C99_ex : let c := Cfg true 64 32 32 (2 ^ 40) in
  let s := [20; 21; 2; 0; 21; 2; 0; 3; 2; 7; 9] in
  run c (ghde c 4) s = OOk (HArray (HTuple [HUnit; HTuple [HUnit; HUInt8]])) [2; 7; 9] /\
  run c (gbde c ex_mem (HArray (HTuple [HUnit; HTuple [HUnit; HUInt8]]))) [2; 7; 9] =
    OOk (BArray [BTuple [BUnit; BTuple [BUnit; BUInt8 7]]; BTuple [BUnit; BTuple [BUnit; BUInt8 9]]]) [] /\
  allocs c (gbde c ex_mem (HArray (HTuple [HUnit; HTuple [HUnit; HUInt8]]))) [2; 7; 9] = [64; 64; 64; 64; 64] /\
  hoccurs is_free_array (HArray (HTuple [HUnit; HTuple [HUnit; HUInt8]])) = false /\ sound_mem ex_mem ex_entry /\
  per_pair c ex_entry * 8 * 4 >= 320.
Proof. cbv zeta. repeat match goal with |- _ /\ _ => split end; try exact ex_mem_sound; vm_compute; try reflexivity; discriminate. Qed.
Print Assumptions C99_product.
Print Assumptions C99_reached.
