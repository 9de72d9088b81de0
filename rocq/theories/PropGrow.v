(** * Memory asked for while containers grow: C89. *)
From Coq Require Import String.
From Verif Require Import Base BaseFacts Varint Serde Typing Header Body SpecVarint SpecDty SpecBody SpecRequest SpecHeap Grow SpecGrow ExGrow GrowFacts HeldFacts.
Local Open Scope list_scope.
Local Open Scope N_scope.

(** Growing containers change no outcome, unless the system refuses one of their requests. *)
Theorem C89_same : forall c m d s,
  run c (gde c m d) s = run c (de c d) s \/
  exists n x, In n (allocs c (gde c m d) s) /\ alloc_result c n = Some x /\ run c (gde c m d) s = OPanic x.
Proof. intros c m d. exact (adds_run c _ _ (gde_adds c m d)). Qed.
Theorem C89_same_body : forall c m h s,
  run c (gbde c m h) s = run c (bde c h) s \/
  exists n x, In n (allocs c (gbde c m h) s) /\ alloc_result c n = Some x /\ run c (gbde c m h) s = OPanic x.
Proof. intros c m h. exact (adds_run c _ _ (gbde_adds c m h)). Qed.

(** All that reading a typed value asks for, counting every buffer a container outgrows, is linear in
    the bytes read. *)
Theorem C89_linear : forall c m e d s, wf_cfg c -> 4096 <= heap_limit c -> sound_mem m e -> wf_dty d = true -> bytes_ok s ->
  match run c (gde c m d) s with
  | OOk v r => lenN r <= lenN s /\ total (allocs c (gde c m d) s) <= grow_byte c m e d * (lenN s - lenN r)
  | _ => total (allocs c (gde c m d) s) <= grow_byte c m e d * lenN s + 4096
  end.
Proof. exact typed_asked. Qed.
(** So memory in proportion to the input is enough: then reading ends as if memory were no matter. *)
Theorem C89_enough : forall c m e d s, wf_cfg c -> 4096 <= heap_limit c -> sound_mem m e -> wf_dty d = true -> bytes_ok s ->
  grow_byte c m e d * lenN s + 4096 <= heap_limit c -> heap_limit c <= isize_max c ->
  run c (gde c m d) s = run c (de c d) s.
Proof. exact typed_enough. Qed.
(** Bodies: what is granted is the fixed part and linear in the bytes read; a read that fails also
    holds what its unfinished arrays were granted. *)
Theorem C89_body : forall c m e h s, wf_cfg c -> 4096 <= heap_limit c -> sound_mem m e -> hoccurs is_free_array h = false -> bytes_ok s ->
  match run c (gbde c m h) s with
  | OOk b r => lenN r <= lenN s /\ total (granted c (gbde c m h) s) <= fixed_part c h + grow_byte_body c e h * (lenN s - lenN r)
  | _ => total (granted c (gbde c m h) s) <= fixed_part c h + grow_byte_body c e h * lenN s + (unfinished c h + 64)
  end.
Proof. exact body_granted. Qed.
(** No less was asked for than the value holds when it is complete, so that is bounded as well. *)
Theorem C89_held : forall c m d s v r, holds_text m -> run c (gde c m d) s = OOk v r -> held m d v <= total (allocs c (gde c m d) s).
Proof. intros c m d s v r Ht. exact (gde_held c m d Ht s v r). Qed.
Theorem C89_held_body : forall c m h s b r, holds_text m -> run c (gbde c m h) s = OOk b r -> held_body c m b <= total (allocs c (gbde c m h) s).
Proof. intros c m h s b r Ht. exact (gbde_held c m h Ht s b r). Qed.
Theorem C89_value : forall c m e d s v r, wf_cfg c -> 4096 <= heap_limit c -> sound_mem m e -> holds_text m -> wf_dty d = true -> bytes_ok s ->
  run c (gde c m d) s = OOk v r -> held m d v <= grow_byte c m e d * (lenN s - lenN r).
Proof.
  intros c m e d s v r Hw Hh Hm Ht Hd Hs E. assert (H := C89_linear c m e d s Hw Hh Hm Hd Hs). rewrite E in H.
  exact (N.le_trans _ _ _ (C89_held c m d s v r Ht E) (proj2 H)).
Qed.
(** Without the condition on the layout this is false: members that take memory but no input (a struct
    whose fields are all skipped) let at most nine bytes bring down any program, though the same input
    is read successfully where memory is no matter. *)
Theorem C89_free_members_refuted : forall c m d, wf_cfg c -> wf_dty d = true -> occupies d = false -> 0 < m_size m d ->
  exists s v x, (length s <= 9)%nat /\ bytes_ok s /\ run c (de c (DVec d)) s = OOk v [] /\ run c (gde c m (DVec d)) s = OPanic x.
Proof. exact free_crash. Qed.

(** 20 bytes grow a Vec<u8> three times. *)
Example C89_ex_vec : let s := 20 :: repeat 7 20 ++ [9] in
  allocs c64m (gde c64m ex_mem (DVec DU8)) s = [8; 16; 32] /\
  run c64m (gde c64m ex_mem (DVec DU8)) s = OOk (SSeq (Some 20) (repeat (SU8 7) 20)) [9] /\
  grow_byte c64m ex_mem ex_entry (DVec DU8) = 12.
Proof. repeat split; vm_compute; reflexivity. Qed.
(** A map of lists: keys, a node, and each list; the second value for a key takes no node. *)
Example C89_ex_map : let d := DMap (DVec DU16) in let s := [2; 1; 97; 1; 5; 1; 97; 5; 1; 2; 3; 4; 5] in
  wf_cfg c64m /\ sound_mem ex_mem ex_entry /\ wf_dty d = true /\
  allocs c64m (gde c64m ex_mem d) s = [1; 8; 544; 1; 8; 16] /\
  run c64m (gde c64m ex_mem d) s = run c64m (de c64m d) s /\
  run c64m (de c64m d) s = OOk (SMap (Some 1) [(SStr [97], SSeq (Some 5) [SU16 1; SU16 2; SU16 3; SU16 4; SU16 5])]) [] /\
  grow_byte c64m ex_mem ex_entry d = 544 + 24 /\
  grow_byte c64m ex_mem ex_entry d * lenN s + 4096 <= heap_limit c64m /\ heap_limit c64m <= isize_max c64m.
Proof.
  split; [split; [right; reflexivity|split; discriminate]|]. split; [exact ex_mem_sound|].
  repeat split; vm_compute; first [reflexivity|discriminate].
Qed.
(** The same map, complete: one node, one key, ten bytes of integers; that list asked for 24 in all. *)
Example C89_ex_held : let d := DMap (DVec DU16) in let s := [2; 1; 97; 1; 5; 1; 97; 5; 1; 2; 3; 4; 5] in
  holds_text ex_mem /\ (exists v, run c64m (gde c64m ex_mem d) s = OOk v [] /\ held ex_mem d v = 544 + 1 + 10) /\
  total (allocs c64m (gde c64m ex_mem d) s) = 578 /\
  held_body c64m ex_mem (BArray [BOptional (Some (BString [104; 105])); BOptional None]) = 64 + 32 + 2.
Proof.
  split; [exact ex_mem_holds|]. split; [|split; reflexivity].
  exists (SMap (Some 1) [(SStr [97], SSeq (Some 5) [SU16 1; SU16 2; SU16 3; SU16 4; SU16 5])]). split; vm_compute; reflexivity.
Qed.
(** A long text and a long buffer. *)
Example C89_ex_text : let s := enc_u64 200 ++ repeat 97 200 in let b := enc_u64 5000 ++ repeat 1 5000 in
  allocs c64m (gde c64m ex_mem DString) s = [32; 64; 128; 256] /\
  allocs c64m (gde c64m ex_mem DByteBuf) b = [4096; 4096; 8192] /\
  allocs c64m (gde c64m ex_mem DByteBuf) (enc_u64 5000 ++ [1]) = [4096] /\
  run c64m (gde c64m ex_mem DByteBuf) (enc_u64 5000 ++ [1]) = OErr ERead.
Proof. repeat split; vm_compute; reflexivity. Qed.
(** 600 small integers, where 4096 bytes are the most to be had: the doubled vector does not fit. *)
Example C89_ex_refused : let s := enc_u64 600 ++ repeat 1 600 in
  run c64k (gde c64k ex_mem (DVec DU64)) s = OPanic PAlloc /\
  run c64k (de c64k (DVec DU64)) s = OOk (SSeq (Some 600) (repeat (SU64 1) 600)) [] /\
  allocs c64k (gde c64k ex_mem (DVec DU64)) s = [32; 64; 128; 256; 512; 1024; 2048; 4096; 8192].
Proof. repeat split; vm_compute; reflexivity. Qed.
(** A body: array, optional, text; and an array that declares more than it has. *)
Example C89_ex_body : let h := HArray (HOptional HString) in
  hoccurs is_free_array h = false /\ wf_cfg c64m /\ sound_mem ex_mem ex_entry /\
  allocs c64m (gbde c64m ex_mem h) [2; 1; 2; 104; 105; 0; 77] = [64; 2; 32] /\
  run c64m (gbde c64m ex_mem h) [2; 1; 2; 104; 105; 0; 77] = OOk (BArray [BOptional (Some (BString [104; 105])); BOptional None]) [77] /\
  grow_byte_body c64m ex_entry h = 13 * 32 + 32 /\
  granted c64m (gbde c64m ex_mem h) [100; 1; 2; 104; 105] = [3200; 2; 32] /\
  run c64m (gbde c64m ex_mem h) [100; 1; 2; 104; 105] = OErr ERead.
Proof.
  split; [reflexivity|]. split; [split; [right; reflexivity|split; discriminate]|]. split; [exact ex_mem_sound|].
  repeat split; vm_compute; reflexivity.
Qed.
(** The struct of skipped fields: a thousand of them, declared by two bytes of input, ask for more than there is. *)
Example C89_ex_free : let d := DStruct [] [] in let s := enc_u64 1000 in
  wf_dty d = true /\ occupies d = false /\ m_size ex_mem_skipped d = 40 /\ lenN s = 2 /\
  (exists v, run c64k (de c64k (DVec d)) s = OOk v []) /\
  run c64k (gde c64k ex_mem_skipped (DVec d)) s = OPanic PAlloc /\
  allocs c64k (gde c64k ex_mem_skipped (DVec d)) s = [160; 320; 640; 1280; 2560; 5120].
Proof.
  repeat split; try (vm_compute; reflexivity). exists (SSeq (Some 1000) (repeat (SStruct []) 1000)). vm_compute. reflexivity.
Qed.

Print Assumptions C89_same.
Print Assumptions C89_same_body.
Print Assumptions C89_linear.
Print Assumptions C89_enough.
Print Assumptions C89_body.
Print Assumptions C89_held.
Print Assumptions C89_held_body.
Print Assumptions C89_value.
Print Assumptions C89_free_members_refuted.
