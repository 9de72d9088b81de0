(** * Values of recursive types, by depth. *)
From Coq Require Import String.
From Verif Require Import Base Serde Typing Rec.
Local Open Scope list_scope.
Local Open Scope nat_scope.

(** A type without values. *)
Definition never : dty := DEnum [].

(** [resolve f t]: the type t with item i replaced by [f i]. *)
Fixpoint resolve (f : nat -> dty) (t : xty) : dty :=
  match t with
  | XPlain d => d
  | XOption t => DOption (resolve f t)
  | XNewtypeStruct t => DNewtypeStruct (resolve f t)
  | XVec t => DVec (resolve f t)
  | XMap t => DMap (resolve f t)
  | XTuple ts => DTuple (map (resolve f) ts)
  | XTupleStruct ts => DTupleStruct (map (resolve f) ts)
  | XStruct keys fs => DStruct keys (map (fun nf => (fst nf, resolve f (snd nf))) fs)
  | XEnum vs => DEnum (map (fun kd => (fst kd, resolve f (snd kd))) vs)
  | XItem i => f i
  end.
(** Item i with at most n items nested: deeper ones have no values. *)
Fixpoint levels (items : list xty) (n : nat) (i : nat) : dty :=
  match n with
  | O => never
  | S n => match nth_error items i with Some t => resolve (levels items n) t | None => never end
  end.
(** v is a value of item i in which items nest at most n deep. *)
Definition fits (c : cfg) (items : list xty) (n i : nat) (v : sval) : Prop := has_ty c (levels items n i) v = true.

(** Derived items: structs and enums whose parts are well-formed; all names are defined. *)
Inductive mentions (j : nat) : xty -> Prop :=
| m_item : mentions j (XItem j)
| m_option t : mentions j t -> mentions j (XOption t)
| m_newtype t : mentions j t -> mentions j (XNewtypeStruct t)
| m_vec t : mentions j t -> mentions j (XVec t)
| m_map t : mentions j t -> mentions j (XMap t)
| m_tuple ts t : In t ts -> mentions j t -> mentions j (XTuple ts)
| m_tuple_struct ts t : In t ts -> mentions j t -> mentions j (XTupleStruct ts)
| m_struct keys fs nf : In nf fs -> mentions j (snd nf) -> mentions j (XStruct keys fs)
| m_enum vs kd : In kd vs -> mentions j (snd kd) -> mentions j (XEnum vs).
Definition is_derived (t : xty) : bool :=
  match t with
  | XPlain d => match d with DStruct _ _ | DEnum _ | DTupleStruct _ | DNewtypeStruct _ | DUnitStruct => true | _ => false end
  | XNewtypeStruct _ | XTupleStruct _ | XStruct _ _ | XEnum _ => true
  | _ => false
  end.
Definition wf_items (items : list xty) : Prop :=
  Forall (fun t => is_derived t = true /\ wf_dty (resolve (fun _ => never) t) = true /\
                   forall j, mentions j t -> (j < length items)%nat) items.
(** No item is, directly or not, part of itself: the items can be ranked. *)
Definition acyclic (items : list xty) (rank : nat -> nat) : Prop :=
  forall i t j, nth_error items i = Some t -> mentions j t -> (rank j < rank i)%nat.

(** struct Node { next: Option<Box<Node>> } *)
Definition node : list xty := [XStruct ["next"%string] [("next"%string, XOption (XItem 0))]].
