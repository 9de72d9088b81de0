(** * Memory of standard library types: a layout and examples. *)
From Coq Require Import String.
From Verif Require Import Base Serde SpecDty SpecRequest Std SpecStd Grow SpecGrow GrowStd SpecPeakStd ExGrow ExStd.
Local Open Scope list_scope.
Local Open Scope N_scope.

(** Everything that takes bytes takes 32; every sixth member of a set begins a node. *)
Definition ex_set_node (size n : N) : list N := if size =? 0 then [] else if n mod 6 =? 0 then [11 * size + 16] else [].
Definition ex_set_entry (size : N) : N := 11 * size + 16.
Definition ex_slayout : slayout := SLayout ex_mem (fun t => if occupies (wire t) then 32 else 0) ex_set_node (fun n => [n + 1]).
Lemma ex_slayout_sound : sound_slayout ex_slayout ex_entry ex_set_entry.
Proof.
  split; [exact ex_mem_sound|]. split; [|split; [|split]].
  - intros t H. cbn [s_size ex_slayout]. rewrite H. reflexivity.
  - intros size n. induction n as [|n IH]; [apply N.le_0_l|]. cbn [set_total]. rewrite Nat2N.inj_succ, N.mul_succ_l.
    assert (H : total (s_set ex_slayout size (N.of_nat n)) <= ex_set_entry size); [|lia].
    cbn [s_set ex_slayout]. unfold ex_set_node, ex_set_entry. destruct (size =? 0); [apply N.le_0_l|]. destruct (_ =? 0); cbn [total]; lia.
  - intros n. reflexivity.
  - intros n. cbn [s_cstring ex_slayout total]. lia.
Qed.
(** BTreeMap<String, BTreeSet<u16>>; Vec<(CString, CString)>; Vec<Vec<BTreeSet<u16>>> *)
Definition ex_index : stdty := TMap (TSet by_number (TPlain DU16)).
Definition ex_pairs : stdty := TVec (TTuple [TCString; TCString]).
Definition ex_deep : stdty := TVec (TVec (TSet by_number (TPlain DU16))).
