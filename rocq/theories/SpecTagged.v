(** * Values of types that can be written but not read, without the model's readers and writers. *)
From Coq Require Import List NArith String.
From Verif Require Import Base Serde Typing Tagged.
Import ListNotations.
Local Open Scope list_scope.
Local Open Scope N_scope.

(** Field names differ, variants have the payload of their kind and are not too many for the
    Deserializer's u16 (C15), the plain parts are well-formed. *)
Definition gpayload (k : vkind) (t : gty) : Prop :=
  match k with
  | KUnit => t = YPlain DUnit
  | KNewtype => True
  | KTuple => exists ts, t = YTuple ts
  | KStruct => exists fs, t = YStruct fs
  end.
Fixpoint gproper (t : gty) : Prop :=
  match t with
  | YPlain d => wf_dty d = true
  | YOption t | YVec t | YMap t => gproper t
  | YTuple ts => fold_right (fun t P => gproper t /\ P) True ts
  | YStruct fs => NoDup (map fst fs) /\ fold_right (fun nf P => gproper (snd nf) /\ P) True fs
  | YEnum vs => lenN vs <= 16384 /\ fold_right (fun v P => (gpayload (fst v) (snd v) /\ gproper (snd v)) /\ P) True vs
  | YUntagged | YTagged | YBorrowed => True
  end.

(** [hold c t v]: [v] is a value of type [t]. *)
Inductive hold (c : cfg) : gty -> gval -> Prop :=
| ho_plain d v : has_ty c d v = true -> hold c (YPlain d) (GPlain v)
| ho_none t : hold c (YOption t) GNone
| ho_some t v : hold c t v -> hold c (YOption t) (GSome v)
| ho_vec t l : lenN l < 2 ^ usize_bits c -> Forall (hold c t) l -> hold c (YVec t) (GSeq l)
| ho_tuple ts l : all_hold c ts l -> hold c (YTuple ts) (GTuple l)
| ho_map t m : lenN m < 2 ^ usize_bits c -> sorted_keys m = true -> Forall (fun kv => str_ok c (fst kv) = true) m ->
    Forall (hold c t) (map snd m) -> hold c (YMap t) (GDict m)
| ho_struct fs l : map fst l = map fst fs -> all_hold c (map snd fs) (map snd l) -> hold c (YStruct fs) (GRecord l)
| ho_variant vs k i t v : nth_error vs (N.to_nat i) = Some (k, t) -> hold c t v -> hold c (YEnum vs) (GVariant k i v)
| ho_untagged v : hold c YUntagged (GUntagged v)
| ho_tag_unit tag name : hold c YTagged (GTagUnit tag name)
| ho_tag tag name v : hold c YTagged (GTag tag name v)
| ho_borrowed v : hold c YBorrowed (GBorrowed v)
with all_hold (c : cfg) : list gty -> list gval -> Prop :=
| ah_nil : all_hold c [] []
| ah_cons t v ts vs : hold c t v -> all_hold c ts vs -> all_hold c (t :: ts) (v :: vs).

(** Somewhere in the value there is one of an unreadable type. *)
Fixpoint unreadable (v : gval) : bool :=
  match v with
  | GPlain _ | GNone => false
  | GSome v | GVariant _ _ v => unreadable v
  | GSeq l | GTuple l => existsb unreadable l
  | GDict m => existsb (fun kv => unreadable (snd kv)) m
  | GRecord fs => existsb (fun nf => unreadable (snd nf)) fs
  | GUntagged _ | GTagUnit _ _ | GTag _ _ _ | GBorrowed _ => true
  end.

(** The type with a dynamic value (IgnoredAny, say) wherever it cannot be read. *)
Fixpoint gwire (t : gty) : dty :=
  match t with
  | YPlain d => d
  | YOption t => DOption (gwire t)
  | YVec t => DVec (gwire t)
  | YTuple ts => DTuple (map gwire ts)
  | YMap t => DMap (gwire t)
  | YStruct fs => DStruct (map fst fs) (map (fun nf => (fst nf, gwire (snd nf))) fs)
  | YEnum vs => DEnum (map (fun v => (fst v, gwire (snd v))) vs)
  | YUntagged | YTagged | YBorrowed => DAny
  end.
