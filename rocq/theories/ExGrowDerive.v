(** * Derived types and a layout for PropGrowDerive.v. *)
From Coq Require Import String Lia.
From Verif Require Import Base Serde SpecDty SpecRequest Derive DeriveDe Grow SpecGrow ExGrow ExDeriveDe GrowDerive SpecGrowDerive.
Local Open Scope list_scope.
Local Open Scope N_scope.

Definition ex_rsize (t : rty) : N :=
  match t with
  | RLeaf LUnit => 0
  | RLeaf (LBool | LU8 | LI8) => 1
  | RLeaf (LU16 | LI16) | ROption (RLeaf LU8) => 2
  | RLeaf (LU32 | LI32 | LF32) | ROption (RLeaf LU16) => 4
  | RLeaf (LU64 | LI64 | LF64) => 8
  | RLeaf _ | RVec _ | RBTreeMap _ => 24
  | _ => 48
  end.
(** Eight bytes for every eight digits, and once more to shrink. *)
Definition ex_number (n : N) : list N := if n =? 0 then [] else [8 * ((n + 7) / 8); n + 8].
Definition ex_rlayout : rlayout := RLayout ex_mem ex_mem ex_rsize ex_number.
Lemma ex_rlayout_sound : sound_layout ex_rlayout ex_entry ex_entry.
Proof.
  destruct ex_mem_sound as (H1 & H2 & _). repeat split; cbn [ex_rlayout r_tree r_hash r_num]; try assumption.
  intros n. unfold ex_number. destruct (n =? 0); cbn [total]; [lia|]. assert (8 * ((n + 7) / 8) <= n + 7) by (apply N.mul_div_le; discriminate). lia.
Qed.
(** struct R { #[serde(skip)] cache: Vec<Hidden>, total: BigUint (num-bigint), by: BTreeMap<String, S> }
    with struct Hidden { #[serde(skip)] h: u64 } and S of ExDeriveDe.v *)
Definition ex_hidden : rty := RStruct Named [(ex_attr "skip", ("h"%string, RLeaf LU64))].
Definition ex_report : rty :=
  RStruct Named [(ex_attr "skip", ("cache"%string, RVec ex_hidden)); ([], ("total"%string, RLeaf LNumBigUint)); ([], ("by"%string, RBTreeMap ex_de_struct))].
