(** * Vocabulary about types. *)
From Coq Require Import String.
From Verif Require Import Base Serde.
Local Open Scope list_scope.
Local Open Scope N_scope.

(** [occurs f d]: some type satisfying [f] occurs in [d] (including [d] itself). *)
Fixpoint occurs (f : dty -> bool) (d : dty) : bool :=
  f d ||
  match d with
  | DOption d | DNewtypeStruct d | DVec d | DMap d => occurs f d
  | DTuple ds | DTupleStruct ds => existsb (occurs f) ds
  | DStruct _ fs => existsb (fun nf => occurs f (snd nf)) fs
  | DEnum vs => existsb (fun kd => occurs f (snd kd)) vs
  | _ => false
  end.

Definition is_char (d : dty) : bool := match d with DChar => true | _ => false end.
Definition is_date (d : dty) : bool := match d with DDate => true | _ => false end.
Definition is_enum (d : dty) : bool := match d with DEnum _ => true | _ => false end.
Definition is_buf (d : dty) : bool := match d with DByteBuf => true | _ => false end.
Definition is_size (d : dty) : bool := match d with DUsize | DIsize => true | _ => false end.

(** Every value of the type occupies at least one byte. *)
Fixpoint occupies (d : dty) : bool :=
  match d with
  | DUnit | DUnitStruct => false
  | DNewtypeStruct d => occupies d
  | DTuple ds | DTupleStruct ds => existsb occupies ds
  | DStruct _ fs => existsb (fun nf => occupies (snd nf)) fs
  | _ => true
  end.

(** Index of the enum variant a value is. *)
Definition variant_index (v : sval) : option N :=
  match v with
  | SUnitVariant i | SNewtypeVariant i _ | STupleVariant i _ | SStructVariant i _ => Some i
  | _ => None
  end.

(** Values the format has a representation for: no 128-bit integer and no non-string map key
    anywhere, and no Serialize impl that panics or fails on its own. *)
Fixpoint serializable (v : sval) : Prop :=
  match v with
  | SI128 _ | SU128 _ | SPanic _ | SError => False
  | SSome v | SNewtypeStruct v | SNewtypeVariant _ v => serializable v
  | SSeq _ l | STuple l | STupleStruct l | STupleVariant _ l =>
      fold_right (fun x P => serializable x /\ P) True l
  | SStruct l | SStructVariant _ l => fold_right (fun kv P => serializable (snd kv) /\ P) True l
  | SMap _ l =>
      fold_right (fun kv P => (exists bs, fst kv = SStr bs) /\ serializable (snd kv) /\ P) True l
  | _ => True
  end.
