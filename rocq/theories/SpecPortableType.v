(** * Derived types whose documents mean the same on 32 bit and on 64 bit targets. *)
From Verif Require Import Base Serde Header Derive SpecDerive SpecDeriveDe.
Local Open Scope list_scope.
Local Open Scope N_scope.

(** Every value of the type takes at least one byte. *)
Inductive takes_bytes : rty -> Prop :=
| tb_leaf l : l <> LUnit -> takes_bytes (RLeaf l)
| tb_option t : takes_bytes (ROption t)
| tb_vec t : takes_bytes (RVec t)
| tb_btree t : takes_bytes (RBTreeMap t)
| tb_hash t : takes_bytes (RHashMap t)
| tb_tuple ts t : In t ts -> takes_bytes t -> takes_bytes (RTuple ts)
| tb_struct k fs a n t : In (a, (n, t)) fs -> ~ skipped_de a -> takes_bytes t -> takes_bytes (RStruct k fs)
| tb_enum vs : takes_bytes (REnum vs).
(** No vector of members that may take no bytes, except in what is skipped. *)
Inductive portable_type : rty -> Prop :=
| pt_leaf l : portable_type (RLeaf l)
| pt_option t : portable_type t -> portable_type (ROption t)
| pt_vec t : portable_type t -> takes_bytes t -> portable_type (RVec t)
| pt_btree t : portable_type t -> portable_type (RBTreeMap t)
| pt_hash t : portable_type t -> portable_type (RHashMap t)
| pt_tuple ts : Forall portable_type ts -> portable_type (RTuple ts)
| pt_struct k fs : Forall (fun f => skipped_de (fst f) \/ portable_type (snd (snd f))) fs -> portable_type (RStruct k fs)
| pt_enum vs : Forall (fun v => skipped_de (fst v) \/ Forall (fun f => skipped_de (fst f) \/ portable_type (snd (snd f))) (snd (snd v))) vs ->
    portable_type (REnum vs).
