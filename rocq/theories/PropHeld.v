(** * C97: values hold no more than was asked for, and that is bounded by the input. *)
From Coq Require Import String.
From Verif Require Import Base Varint SpecVarint Serde Typing SpecDty SpecRequest SpecHeap Rec SpecRec Grow SpecGrow GrowRec SpecPeak PeakFacts Std SpecStd GrowStd SpecPeakStd PeakStdFacts
  SpecHeld HeldMoreFacts ExGrow ExPeak ExStd ExPeakStd.
Local Open Scope list_scope.
Local Open Scope N_scope.

(** ** Types of the standard library *)
Theorem C97_std : forall c l t s v r, holds_text (s_mem l) -> run c (gstd c l t) s = OOk v r -> std_held l t v <= total (allocs c (gstd c l t) s).
Proof. intros c l t s v r Ht. exact (gstd_held c l t Ht s v r). Qed.
Print Assumptions C97_std.
Theorem C97_std_value : forall c l e es t s v r,
  wf_cfg c -> 4096 <= heap_limit c -> sound_slayout l e es -> holds_text (s_mem l) -> proper t -> wf_dty (wire t) = true -> bytes_ok s ->
  run c (gstd c l t) s = OOk v r -> std_held l t v <= owed t + speak c l e es t * (lenN s - lenN r).
Proof.
  intros c l e es t s v r Hw Hh Hl Ht Hp Hd Hs E. assert (H := std_asked c l e es t s Hw Hh Hl Hp Hd Hs). rewrite E in H.
  exact (N.le_trans _ _ _ (gstd_held c l t Ht s v r E) (proj2 H)).
Qed.
Print Assumptions C97_std_value.
(** ** Recursive types; [n]: as deep as one likes. *)
Theorem C97_items : forall c l items depth i n s v r, holds_text (l_mem l) -> run c (gitem c l items depth i) s = OOk v r ->
  item_held l items n i v <= total (allocs c (gitem c l items depth i) s).
Proof. intros c l items depth i n s v r Ht. exact (gitem_held c l items depth i n Ht s v r). Qed.
Print Assumptions C97_items.
Theorem C97_items_value : forall c l e lead items depth i n s v r,
  wf_cfg c -> 4096 <= heap_limit c -> sound_layout l e -> holds_text (l_mem l) -> wf_items items -> leads l lead items -> bytes_ok s ->
  run c (gitem c l items depth i) s = OOk v r ->
  item_held l items n i v <= lead i + items_peak c l e lead items * (lenN s - lenN r - 1).
Proof.
  intros c l e lead items depth i n s v r Hw Hh Hl Ht Hi Hb Hs E. assert (H := item_asked c l e lead items depth i s Hw Hh Hl Hi Hb Hs). rewrite E in H.
  exact (N.le_trans _ _ _ (gitem_held c l items depth i n Ht s v r E) (proj2 H)).
Qed.
Print Assumptions C97_items_value.

(** ** Cases *)
(** One map node, one set node, one byte of text; of the five members two are held. *)
Example C97_ex_index : let s := [1; 1; 97; 5; 3; 3; 7; 3; 7; 9] in
  holds_text (s_mem ex_slayout) /\ sound_slayout ex_slayout ex_entry ex_set_entry /\ proper ex_index /\
  exists v, run c64m (gstd c64m ex_slayout ex_index) s = OOk v [9] /\ std_held ex_slayout ex_index v = 1 + 368 + 632 /\ total (allocs c64m (gstd c64m ex_slayout ex_index) s) = 1001.
Proof.
  split; [exact ex_mem_holds|]. split; [exact ex_slayout_sound|]. split; [exact (conj by_number_lawful I)|].
  exists (XDict [([97], XSeq [XPlain (SU16 3); XPlain (SU16 7)])]). repeat split; vm_compute; reflexivity.
Qed.
(** Less than was asked for: room for four slots, and the terminators. *)
Example C97_ex_pairs : let s := [2; 0; 1; 65; 2; 66; 67; 0; 9] in
  exists v, run c64m (gstd c64m ex_slayout ex_pairs) s = OOk v [9] /\ std_held ex_slayout ex_pairs v = 2 * 32 + 3 /\ total (allocs c64m (gstd c64m ex_slayout ex_pairs) s) = 138.
Proof.
  exists (XSeq [XTuple [XCString []; XCString [65]]; XTuple [XCString [66; 67]; XCString []]]). repeat split; vm_compute; reflexivity.
Qed.
(** Five boxes of eight bytes in a line; a tree with five children, of which the third has one. *)
Example C97_ex_line : let l := ex_layout (fun _ => 8) in
  holds_text (l_mem l) /\ exists v, run c64m (gitem c64m l node 6 0) (line 5) = OOk v [] /\ item_held l node 6 0 v = 40 /\ item_held l node 3 0 v = 24.
Proof.
  split; [exact ex_mem_holds|].
  exists (Nat.iter 5 (fun v => SStruct [("next"%string, SSome v)]) (SStruct [("next"%string, SNone)])). repeat split; vm_compute; reflexivity.
Qed.
Example C97_ex_tree : let l := ex_layout (fun _ => 0) in let s := [7; 5; 1; 0; 2; 0; 3; 1; 8; 0; 4; 0; 5; 0] in
  exists v, run c64m (gitem c64m l tree 4 0) s = OOk v [] /\ item_held l tree 4 0 v = 6 * 32 /\ total (allocs c64m (gitem c64m l tree 4 0) s) = 128 + 256 + 128.
Proof.
  eexists. split; [vm_compute; reflexivity|]. split; vm_compute; reflexivity.
Qed.
