(** * Types that differ in labels only. *)
From Coq Require Import List String.
From Verif Require Import Derive SpecDerive.
Import ListNotations.

(** The same fields are skipped, and the same on a condition. Other attributes may differ. *)
Definition same_skips (a a' : attrs) : Prop := (skipped a <-> skipped a') /\ (skipped_if a <-> skipped_if a').

(** Names, attributes that do not skip, and whether fields are named, positional or absent may
    differ; types, order and skipping do not. *)
Inductive relabelled : rty -> rty -> Prop :=
| rl_leaf l : relabelled (RLeaf l) (RLeaf l)
| rl_option t t' : relabelled t t' -> relabelled (ROption t) (ROption t')
| rl_vec t t' : relabelled t t' -> relabelled (RVec t) (RVec t')
| rl_btree t t' : relabelled t t' -> relabelled (RBTreeMap t) (RBTreeMap t')
| rl_hash t t' : relabelled t t' -> relabelled (RHashMap t) (RHashMap t')
| rl_tuple ts ts' : relabelled_all ts ts' -> relabelled (RTuple ts) (RTuple ts')
| rl_struct k k' fs fs' : relabelled_fields fs fs' -> relabelled (RStruct k fs) (RStruct k' fs')
| rl_enum vs vs' : relabelled_variants vs vs' -> relabelled (REnum vs) (REnum vs')
| rl_union : relabelled RUnion RUnion
| rl_item i : relabelled (RItem i) (RItem i)
with relabelled_all : list rty -> list rty -> Prop :=
| ra_nil : relabelled_all [] []
| ra_cons t t' ts ts' : relabelled t t' -> relabelled_all ts ts' -> relabelled_all (t :: ts) (t' :: ts')
with relabelled_fields : list (attrs * (string * rty)) -> list (attrs * (string * rty)) -> Prop :=
| rf_nil : relabelled_fields [] []
| rf_cons a a' n n' t t' fs fs' : same_skips a a' -> relabelled t t' -> relabelled_fields fs fs' ->
    relabelled_fields ((a, (n, t)) :: fs) ((a', (n', t')) :: fs')
with relabelled_variants : list (attrs * (style * list (attrs * (string * rty)))) -> list (attrs * (style * list (attrs * (string * rty)))) -> Prop :=
| rv_nil : relabelled_variants [] []
| rv_cons a a' k k' fs fs' vs vs' : same_skips a a' -> relabelled_fields fs fs' -> relabelled_variants vs vs' ->
    relabelled_variants ((a, (k, fs)) :: vs) ((a', (k', fs')) :: vs').
