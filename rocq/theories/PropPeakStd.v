(** * C96: the memory that standard library types ask for does not add up over nesting. *)
From Coq Require Import String.
From Verif Require Import Base Varint SpecVarint Serde Typing SpecDty SpecRequest SpecHeap HeapFacts Std SpecStd Grow SpecGrow GrowFacts GrowStd SpecPeak SpecPeakStd PeakStdFacts ExGrow ExStd ExPeakStd.
Local Open Scope list_scope.
Local Open Scope N_scope.

Theorem C96_same : forall c l t s,
  run c (gstd c l t) s = run c (std_de c t) s \/
  exists n x, In n (allocs c (gstd c l t) s) /\ alloc_result c n = Some x /\ run c (gstd c l t) s = OPanic x.
Proof. intros c l t. exact (adds_run c _ _ (gstd_adds c l t)). Qed.
Print Assumptions C96_same.
Theorem C96_asked : forall c l e es t s,
  wf_cfg c -> 4096 <= heap_limit c -> sound_slayout l e es -> proper t -> wf_dty (wire t) = true -> bytes_ok s ->
  match run c (gstd c l t) s with
  | OOk v r => lenN r <= lenN s /\ total (allocs c (gstd c l t) s) <= owed t + speak c l e es t * (lenN s - lenN r)
  | _ => total (allocs c (gstd c l t) s) <= owed t + speak c l e es t * lenN s + 4096
  end.
Proof. exact std_asked. Qed.
Print Assumptions C96_asked.
Theorem C96_spare : forall c l e es t s v r,
  wf_cfg c -> 4096 <= heap_limit c -> sound_slayout l e es -> proper t -> wf_dty (wire t) = true -> bytes_ok s ->
  occupies (wire t) = true -> run c (gstd c l t) s = OOk v r ->
  lenN r < lenN s /\ total (allocs c (gstd c l t) s) <= owed t + speak c l e es t * (lenN s - lenN r - 1).
Proof. exact std_spare. Qed.
Print Assumptions C96_spare.
Theorem C96_enough : forall c l e es t s,
  wf_cfg c -> 4096 <= heap_limit c -> sound_slayout l e es -> proper t -> wf_dty (wire t) = true -> bytes_ok s ->
  owed t + speak c l e es t * lenN s + 4096 <= heap_limit c -> heap_limit c <= isize_max c ->
  run c (gstd c l t) s = run c (std_de c t) s.
Proof. exact std_enough. Qed.
Print Assumptions C96_enough.
(** Members that are read again are not paid for again. *)
Theorem C96_set : forall c l cmp t s m r, (forall i, allocs c (gstd c l t) i = []) -> run c (gstd c l (TSet cmp t)) s = OOk (XSeq m) r ->
  total (allocs c (gstd c l (TSet cmp t)) s) = set_total (s_set l (s_size l t)) (length m).
Proof. exact set_exact. Qed.
Print Assumptions C96_set.

(** ** Cases *)
(** A map of sets; five members are read and two kept, in one node. *)
Example C96_ex_index : let s := [1; 1; 97; 5; 3; 3; 7; 3; 7; 9] in
  wf_cfg c64m /\ sound_slayout ex_slayout ex_entry ex_set_entry /\ proper ex_index /\ wf_dty (wire ex_index) = true /\ occupies (wire ex_index) = true /\
  speak c64m ex_slayout ex_entry ex_set_entry ex_index = 632 /\ owed ex_index = 0 /\
  run c64m (gstd c64m ex_slayout ex_index) s = OOk (XDict [([97], XSeq [XPlain (SU16 3); XPlain (SU16 7)])]) [9] /\
  allocs c64m (gstd c64m ex_slayout ex_index) s = [1; 368; 632] /\
  owed ex_index + speak c64m ex_slayout ex_entry ex_set_entry ex_index * lenN s + 4096 <= heap_limit c64m /\ heap_limit c64m <= isize_max c64m.
Proof.
  split; [split; [right; reflexivity|split; discriminate]|]. split; [exact ex_slayout_sound|]. split; [exact (conj by_number_lawful I)|].
  repeat split; vm_compute; first [reflexivity|discriminate].
Qed.
Example C96_ex_set : let t := TSet by_number (TPlain DU16) in
  (forall i, allocs c64m (gstd c64m ex_slayout (TPlain DU16)) i = []) /\
  run c64m (gstd c64m ex_slayout t) [8; 1; 2; 3; 4; 5; 6; 6; 7] = OOk (XSeq (map (fun n => XPlain (SU16 n)) [1; 2; 3; 4; 5; 6; 7])) [] /\
  allocs c64m (gstd c64m ex_slayout t) [8; 1; 2; 3; 4; 5; 6; 6; 7] = [368; 368] /\ set_total (ex_set_node 32) 7 = 736.
Proof.
  split; [|repeat split; vm_compute; reflexivity]. intros i. apply quiet_allocs. apply quiet_pmap, quiet_pmap, quiet_u16.
Qed.
(** A vector of sets in a vector takes no more per byte than the larger of set and slot. *)
Example C96_ex_deep : proper ex_deep /\ speak c64m ex_slayout ex_entry ex_set_entry ex_deep = 384 /\
  allocs c64m (gstd c64m ex_slayout ex_deep) [1; 2; 2; 1; 2; 1; 4] = [368; 128; 368; 128].
Proof. split; [exact (conj by_number_lawful I)|]. split; vm_compute; reflexivity. Qed.
(** An empty CString is one byte in the input and one in memory, so that nothing is left of that
    byte: what [owed] is for. *)
Example C96_ex_cstring :
  run c64m (gstd c64m ex_slayout TCString) [0] = OOk (XCString []) [] /\ allocs c64m (gstd c64m ex_slayout TCString) [0] = [0; 1] /\ owed TCString = 2 /\
  speak c64m ex_slayout ex_entry ex_set_entry TCString * (lenN [0] - 1) = 0.
Proof. repeat split; vm_compute; reflexivity. Qed.
Example C96_ex_pairs : proper ex_pairs /\ wf_dty (wire ex_pairs) = true /\ speak c64m ex_slayout ex_entry ex_set_entry ex_pairs = 388 /\
  run c64m (gstd c64m ex_slayout ex_pairs) [2; 0; 1; 65; 2; 66; 67; 0; 9] =
    OOk (XSeq [XTuple [XCString []; XCString [65]]; XTuple [XCString [66; 67]; XCString []]]) [9] /\
  allocs c64m (gstd c64m ex_slayout ex_pairs) [2; 0; 1; 65; 2; 66; 67; 0; 9] = [0; 1; 1; 2; 128; 2; 3; 0; 1] /\
  run c64m (gstd c64m ex_slayout ex_pairs) [1; 2; 65; 0; 0] = OErr EMsg.
Proof. split; [exact (conj I (conj I I))|]. repeat split; vm_compute; reflexivity. Qed.
(** Where 4096 bytes are the most to be had, a vector of two hundred sets is refused its slots. *)
Example C96_ex_refused : let t := TVec (TSet by_number (TPlain DU16)) in let s := enc_u64 200 ++ repeat 0 200 in
  run c64k (gstd c64k ex_slayout t) s = OPanic PAlloc /\ run c64k (std_de c64k t) s = OOk (XSeq (repeat (XSeq []) 200)) [] /\
  In 8192 (allocs c64k (gstd c64k ex_slayout t) s).
Proof. split; [vm_compute; reflexivity|]. split; [vm_compute; reflexivity|]. vm_compute; intuition. Qed.
