(** * Hash sets and hash maps: values that differ in the order of iteration alone. *)
From Coq Require Import List NArith String Permutation.
From Verif Require Import Base Serde Typing Std SpecStd.
Import ListNotations.
Local Open Scope list_scope.
Local Open Scope N_scope.

(** [shuffled t v u]: as [v], but the members of any set and the entries of any map in it, at any
    depth, may come in another order. (Of a hash set or map [v] lists the members in some fixed order.) *)
Inductive shuffled : stdty -> stdval -> stdval -> Prop :=
| sh_same t v : shuffled t v v
| sh_some t v u : shuffled t v u -> shuffled (TOption t) (XSome v) (XSome u)
| sh_vec t l k : Forall2 (shuffled t) l k -> shuffled (TVec t) (XSeq l) (XSeq k)
| sh_set cmp t l k k' : Forall2 (shuffled t) l k -> Permutation k k' -> shuffled (TSet cmp t) (XSeq l) (XSeq k')
| sh_array n t l k : Forall2 (shuffled t) l k -> shuffled (TArray n t) (XTuple l) (XTuple k)
| sh_tuple ts l k : all_shuffled ts l k -> shuffled (TTuple ts) (XTuple l) (XTuple k)
| sh_ok t e v u : shuffled t v u -> shuffled (TResult t e) (XOk v) (XOk u)
| sh_err t e v u : shuffled e v u -> shuffled (TResult t e) (XErr v) (XErr u)
| sh_map t m k k' : map fst k = map fst m -> Forall2 (shuffled t) (map snd m) (map snd k) -> Permutation k k' ->
    shuffled (TMap t) (XDict m) (XDict k')
| sh_struct fs l k : map fst k = map fst l -> all_shuffled (map snd fs) (map snd l) (map snd k) ->
    shuffled (TStruct fs) (XRecord l) (XRecord k)
| sh_variant vs k i t v u : nth_error vs (N.to_nat i) = Some (k, t) -> shuffled t v u ->
    shuffled (TEnum vs) (XVariant k i v) (XVariant k i u)
with all_shuffled : list stdty -> list stdval -> list stdval -> Prop :=
| ash_nil : all_shuffled [] [] []
| ash_cons t v u ts l k : shuffled t v u -> all_shuffled ts l k -> all_shuffled (t :: ts) (v :: l) (u :: k).

(** Members of sets that compare equal are the same (once read). *)
Fixpoint strict (c : cfg) (t : stdty) : Prop :=
  match t with
  | TSet cmp t => (forall x y v w, comes_back c t v x -> comes_back c t w y -> cmp x y = Eq -> x = y) /\ strict c t
  | TMap t | TOption t | TVec t | TArray _ t => strict c t
  | TStruct fs => fold_right (fun nf P => strict c (snd nf) /\ P) True fs
  | TEnum vs => fold_right (fun v P => strict c (snd v) /\ P) True vs
  | TTuple ts => fold_right (fun t P => strict c t /\ P) True ts
  | TResult t e => strict c t /\ strict c e
  | _ => True
  end.
