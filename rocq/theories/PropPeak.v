(** * C94: the memory asked for per byte does not add up over nesting. *)
From Coq Require Import String.
From Verif Require Import Base Varint SpecVarint Serde Typing SpecDty SpecRequest SpecHeap Rec SpecRec Grow SpecGrow GrowFacts GrowRec SpecPeak PeakFacts ExGrow ExPeak.
Local Open Scope list_scope.
Local Open Scope N_scope.

(** ** Typed values: the largest of the parts, where C89 adds up. *)
Theorem C94_typed : forall c m e d s, wf_cfg c -> 4096 <= heap_limit c -> sound_mem m e -> wf_dty d = true -> bytes_ok s ->
  match run c (gde c m d) s with
  | OOk v r => lenN r <= lenN s /\ total (allocs c (gde c m d) s) <= peak c m e d * (lenN s - lenN r)
  | _ => total (allocs c (gde c m d) s) <= peak c m e d * lenN s + 4096
  end.
Proof. exact peak_asked. Qed.
Print Assumptions C94_typed.
Theorem C94_spare : forall c m e d s v r, wf_cfg c -> 4096 <= heap_limit c -> sound_mem m e -> wf_dty d = true -> bytes_ok s ->
  occupies d = true -> run c (gde c m d) s = OOk v r ->
  lenN r < lenN s /\ total (allocs c (gde c m d) s) <= peak c m e d * (lenN s - lenN r - 1).
Proof. exact peak_spare. Qed.
Print Assumptions C94_spare.
Theorem C94_nested : forall c m e d n w s v r, wf_cfg c -> 4096 <= heap_limit c -> sound_mem m e -> wf_dty d = true -> bytes_ok s ->
  (forall d, m_size m (DVec d) <= w) -> run c (gde c m (nest n d)) s = OOk v r ->
  total (allocs c (gde c m (nest n d)) s) <= N.max (12 * N.max w (m_size m d)) (peak c m e d) * (lenN s - lenN r).
Proof. exact nest_asked. Qed.
Print Assumptions C94_nested.
Theorem C94_typed_enough : forall c m e d s, wf_cfg c -> 4096 <= heap_limit c -> sound_mem m e -> wf_dty d = true -> bytes_ok s ->
  peak c m e d * lenN s + 4096 <= heap_limit c -> heap_limit c <= isize_max c ->
  run c (gde c m d) s = run c (de c d) s.
Proof. exact peak_enough. Qed.
Print Assumptions C94_typed_enough.
(** ** Recursive types: the same bound at every depth. *)
Theorem C94_same : forall c l items depth i s,
  run c (gitem c l items depth i) s = run c (item_de c items depth i) s \/
  exists n x, In n (allocs c (gitem c l items depth i) s) /\ alloc_result c n = Some x /\ run c (gitem c l items depth i) s = OPanic x.
Proof. intros c l items depth i. exact (adds_run c _ _ (gitem_adds c l items depth i)). Qed.
Print Assumptions C94_same.
Theorem C94_recursive : forall c l e lead items depth i s,
  wf_cfg c -> 4096 <= heap_limit c -> sound_layout l e -> wf_items items -> leads l lead items -> bytes_ok s ->
  match run c (gitem c l items depth i) s with
  | OOk v r => lenN r < lenN s /\ total (allocs c (gitem c l items depth i) s) <= lead i + items_peak c l e lead items * (lenN s - lenN r - 1)
  | _ => total (allocs c (gitem c l items depth i) s) <= lead i + items_peak c l e lead items * lenN s + 4096
  end.
Proof. exact item_asked. Qed.
Print Assumptions C94_recursive.
Theorem C94_enough : forall c l e lead items depth i s,
  wf_cfg c -> 4096 <= heap_limit c -> sound_layout l e -> wf_items items -> leads l lead items -> bytes_ok s ->
  lead i + items_peak c l e lead items * lenN s + 4096 <= heap_limit c -> heap_limit c <= isize_max c ->
  run c (gitem c l items depth i) s = run c (item_de c items depth i) s.
Proof. exact item_enough. Qed.
Print Assumptions C94_enough.

(** ** Cases *)
(** Three levels of vectors: 288 for each byte, where [grow_byte] allows 588. *)
Example C94_ex_nested : let d := nest 3 DU8 in let s := [1; 1; 2; 5; 6; 9] in
  wf_cfg c64m /\ sound_mem ex_mem ex_entry /\ wf_dty d = true /\ occupies d = true /\
  peak c64m ex_mem ex_entry d = 288 /\ grow_byte c64m ex_mem ex_entry d = 588 /\
  run c64m (gde c64m ex_mem d) s = OOk (SSeq (Some 1) [SSeq (Some 1) [SSeq (Some 2) [SU8 5; SU8 6]]]) [9] /\
  allocs c64m (gde c64m ex_mem d) s = [8; 96; 96].
Proof.
  split; [split; [right; reflexivity|split; discriminate]|]. split; [exact ex_mem_sound|]. repeat split; vm_compute; reflexivity.
Qed.
(** Nodes in boxes: one box of eight bytes for each. *)
Example C94_ex_line : let l := ex_layout (fun _ => 8) in
  sound_layout l ex_entry /\ wf_items node /\ leads l (fun _ => 0) node /\ items_peak c64m l ex_entry (fun _ => 0) node = 8 /\
  allocs c64m (gitem c64m l node 6 0) (line 5) = [8; 8; 8; 8; 8] /\
  (exists v, run c64m (gitem c64m l node 6 0) (line 5) = OOk v []) /\
  run c64m (gitem c64m l node 5 0) (line 5) = OPanic PStack.
Proof.
  split; [apply ex_layout_sound|]. split; [exact node_wf|]. split.
  { intros [|i] t H; [injection H as <-; split; [reflexivity|discriminate]|destruct i; discriminate H]. }
  split; [reflexivity|]. split; [vm_compute; reflexivity|]. split; [|vm_compute; reflexivity].
  exists (Nat.iter 5 (fun v => SStruct [("next"%string, SSome v)]) (SStruct [("next"%string, SNone)])). vm_compute. reflexivity.
Qed.
(** A tree, children in vectors: the first child makes room for four. *)
Example C94_ex_tree : let l := ex_layout (fun _ => 0) in
  sound_layout l ex_entry /\ wf_items tree /\ leads l (fun _ => 0) tree /\ items_peak c64m l ex_entry (fun _ => 0) tree = 12 * 32 /\
  allocs c64m (gitem c64m l tree 4 0) (stalk 3) = [128; 128; 128] /\
  allocs c64m (gitem c64m l tree 4 0) [7; 5; 1; 0; 2; 0; 3; 0; 4; 0; 5; 0] = [128; 256] /\
  run c64m (gitem c64m l tree 4 0) [7; 5; 1; 0] = OErr ERead.
Proof.
  split; [apply ex_layout_sound|]. split; [exact tree_wf|]. split.
  { intros [|i] t H; [injection H as <-; split; [reflexivity|discriminate]|destruct i; discriminate H]. }
  repeat split; vm_compute; reflexivity.
Qed.
(** Two structs in turn. The first box comes before any Option, so that [lead] is needed. *)
Example C94_ex_in_turn : let l := ex_layout in_turn_box in
  sound_layout l ex_entry /\ wf_items in_turn /\ leads l in_turn_lead in_turn /\ items_peak c64m l ex_entry in_turn_lead in_turn = 24 /\
  allocs c64m (gitem c64m l in_turn 9 0) [1; 0; 5; 6] = [16; 8; 16] /\
  run c64m (gitem c64m l in_turn 9 0) [1; 0; 5; 6] =
    OOk (SStruct [("inner", SStruct [("outer", SSome (SStruct [("inner", SStruct [("outer", SNone); ("tag", SU8 5)])])); ("tag", SU8 6)])])%string [] /\
  run c64m (gitem c64m l in_turn 9 0) [1; 0; 5; 6] = run c64m (item_de c64m in_turn 9 0) [1; 0; 5; 6] /\
  in_turn_lead 0 + items_peak c64m l ex_entry in_turn_lead in_turn * 4 + 4096 <= heap_limit c64m /\ heap_limit c64m <= isize_max c64m.
Proof.
  split; [apply ex_layout_sound|]. split; [exact in_turn_wf|]. split.
  { intros [|[|i]] t H; [injection H as <-; split; [reflexivity|discriminate]..|destruct i; discriminate H]. }
  repeat split; vm_compute; first [reflexivity|discriminate].
Qed.
(** Where 4096 bytes are the most to be had, two hundred children do not fit into their vector. *)
Example C94_ex_refused : let l := ex_layout (fun _ => 0) in let s := [7] ++ enc_u64 200 ++ concat (repeat [1; 0] 200) in
  run c64k (gitem c64k l tree 4 0) s = OPanic PAlloc /\ (exists v, run c64k (item_de c64k tree 4 0) s = OOk v []) /\
  In 8192 (allocs c64k (gitem c64k l tree 4 0) s).
Proof.
  split; [vm_compute; reflexivity|]. split; [|vm_compute; intuition].
  exists (SStruct [("value", SU8 7); ("children", SSeq (Some 200) (repeat (SStruct [("value", SU8 1); ("children", SSeq (Some 0) [])]) 200))]%string). vm_compute. reflexivity.
Qed.
