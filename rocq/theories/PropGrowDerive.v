(** * Memory asked for by derived types: C100. *)
From Coq Require Import String.
From Verif Require Import Base BaseFacts Varint SpecVarint Serde SpecDty SpecRequest SpecHeap Derive DeriveDe Grow SpecGrow ExGrow ExDeriveDe GrowDerive SpecGrowDerive ExGrowDerive GrowFacts GrowDeriveFacts HeldDeriveFacts.
Local Open Scope list_scope.
Local Open Scope N_scope.

(** Memory changes no outcome of a derived reader, unless the system refuses a request. *)
Theorem C100_same : forall c l dflt t s, run c (grde c l dflt t) s = run c (rde c dflt t) s \/
  exists n x, In n (allocs c (grde c l dflt t) s) /\ alloc_result c n = Some x /\ run c (grde c l dflt t) s = OPanic x.
Proof. intros c l dflt t. exact (adds_run c _ _ (grde_adds c l dflt t)). Qed.
(** All that is asked for is linear in the bytes read, whatever skipped fields hold, if no vector has
    members that take memory but no input. *)
Theorem C100_linear : forall c l e h dflt t s, wf_cfg c -> 4096 <= heap_limit c -> sound_layout l e h -> dense l t = true -> bytes_ok s ->
  match run c (grde c l dflt t) s with
  | OOk v r => lenN r <= lenN s /\ total (allocs c (grde c l dflt t) s) <= rgrow c l e h t * (lenN s - lenN r)
  | _ => total (allocs c (grde c l dflt t) s) <= rgrow c l e h t * lenN s + 4096
  end.
Proof. exact derived_asked. Qed.
(** Memory in proportion to the input is enough. *)
Theorem C100_enough : forall c l e h dflt t s, wf_cfg c -> 4096 <= heap_limit c -> sound_layout l e h -> dense l t = true -> bytes_ok s ->
  rgrow c l e h t * lenN s + 4096 <= heap_limit c -> heap_limit c <= isize_max c -> run c (grde c l dflt t) s = run c (rde c dflt t) s.
Proof. exact derived_enough. Qed.
(** No less was asked for than the value holds when it is complete, so that is bounded as well. *)
Theorem C100_held : forall c l dflt t s v r, holds_text (r_tree l) -> holds_text (r_hash l) -> run c (grde c l dflt t) s = OOk v r ->
  rheld l t v <= total (allocs c (grde c l dflt t) s).
Proof. intros c l dflt t s v r Ht Hh. exact (grde_held c l dflt Ht Hh t s v r). Qed.
Theorem C100_value : forall c l e h dflt t s v r, wf_cfg c -> 4096 <= heap_limit c -> sound_layout l e h -> holds_text (r_tree l) -> holds_text (r_hash l) ->
  dense l t = true -> bytes_ok s -> run c (grde c l dflt t) s = OOk v r -> rheld l t v <= rgrow c l e h t * (lenN s - lenN r).
Proof.
  intros c l e h dflt t s v r Hw Hm Hl Ht Hh Hd Hs E. assert (H := C100_linear c l e h dflt t s Hw Hm Hl Hd Hs). rewrite E in H.
  exact (N.le_trans _ _ _ (C100_held c l dflt t s v r Ht Hh E) (proj2 H)).
Qed.
(** Otherwise it is false: at most nine bytes bring down a program that reads a vector of structs whose
    fields are all skipped. *)
Theorem C100_skipped_refuted : forall c l dflt fs, wf_cfg c -> forallb (fun f => serde_skips_de (fst f)) fs = true -> 0 < r_size l (RStruct Named fs) ->
  exists s v x, (length s <= 9)%nat /\ bytes_ok s /\ run c (rde c dflt (RVec (RStruct Named fs))) s = OOk v [] /\
    run c (grde c l dflt (RVec (RStruct Named fs))) s = OPanic x.
Proof. exact skipped_crash. Qed.

(** A report: a number of three bytes (8, then 8 and 11), a key, a list of two, a node. The skipped
    field, a vector no input could bound, costs nothing. *)
Example C100_ex : let s := [3; 1; 2; 3; 1; 1; 97; 7; 2; 0; 1; 251; 44; 1; 1; 1; 9] in
  wf_cfg c64m /\ sound_layout ex_rlayout ex_entry ex_entry /\ dense ex_rlayout ex_report = true /\ dense ex_rlayout (RVec ex_hidden) = false /\
  allocs c64m (grde c64m ex_rlayout ex_de_dflt ex_report) s = [8; 8; 11; 1; 16; 808] /\
  run c64m (grde c64m ex_rlayout ex_de_dflt ex_report) s = OOk (VSeq [VUnit; VU 197121; VMap [([97], ex_de_back)]]) [9] /\
  rgrow c64m ex_rlayout ex_entry ex_entry ex_report = 808 + 48 /\
  rgrow c64m ex_rlayout ex_entry ex_entry ex_report * lenN s + 4096 <= heap_limit c64m /\ heap_limit c64m <= isize_max c64m.
Proof.
  split; [split; [right; reflexivity|split; discriminate]|]. split; [exact ex_rlayout_sound|].
  repeat split; vm_compute; first [reflexivity|discriminate].
Qed.
(** That report, complete: a key, a node, a list of two; the buffers of the number are gone. *)
Example C100_ex_held : let s := [3; 1; 2; 3; 1; 1; 97; 7; 2; 0; 1; 251; 44; 1; 1; 1; 9] in
  holds_text (r_tree ex_rlayout) /\ holds_text (r_hash ex_rlayout) /\
  exists v, run c64m (grde c64m ex_rlayout ex_de_dflt ex_report) s = OOk v [9] /\ rheld ex_rlayout ex_report v = 1 + 808 + 2 * 4 /\
    total (allocs c64m (grde c64m ex_rlayout ex_de_dflt ex_report) s) = 852.
Proof.
  split; [exact ex_mem_holds|]. split; [exact ex_mem_holds|]. eexists. split; [vm_compute; reflexivity|]. split; vm_compute; reflexivity.
Qed.
(** A request that is refused, and two bytes that ask for 4096 structs of 48 bytes. *)
Example C100_ex_refused : let c := Cfg true 64 32 32 256 in
  run c (grde c ex_rlayout ex_de_dflt (RBTreeMap (RLeaf LU8))) [1; 1; 97; 7] = OPanic PAlloc /\
  run c (rde c ex_de_dflt (RBTreeMap (RLeaf LU8))) [1; 1; 97; 7] = OOk (VMap [([97], VU 7)]) [] /\
  allocs c (grde c ex_rlayout ex_de_dflt (RBTreeMap (RLeaf LU8))) [1; 1; 97; 7] = [1; 291].
Proof. repeat split; vm_compute; reflexivity. Qed.
Example C100_ex_skipped : let s := varint_bytes 8 4096 in
  lenN s = 2 /\ forallb (fun f : attrs * (string * rty) => serde_skips_de (fst f)) [(ex_attr "skip", ("h"%string, RLeaf LU64))] = true /\ r_size ex_rlayout ex_hidden = 48 /\
  run c64m (grde c64m ex_rlayout ex_de_dflt (RVec ex_hidden)) s = OPanic PAlloc /\
  run c64m (rde c64m ex_de_dflt (RVec ex_hidden)) s = OOk (VSeq (repeat (VSeq [VUnit]) 4096)) [].
Proof. repeat split; vm_compute; reflexivity. Qed.
Print Assumptions C100_same.
Print Assumptions C100_linear.
Print Assumptions C100_enough.
Print Assumptions C100_held.
Print Assumptions C100_value.
Print Assumptions C100_skipped_refuted.
