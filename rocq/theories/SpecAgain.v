(** * Types whose values can be written whatever they hold (C87). *)
From Coq Require Import String.
From Verif Require Import Base Derive SpecDerive SpecDeriveDe SpecWritten Std.
Local Open Scope list_scope.

(** Unit structs and variants have no fields, the field of a newtype struct is not skipped, and a
    variant the writer refuses is not read. What is in skipped fields and variants does not matter. *)
Inductive regular : rty -> Prop :=
| rg_leaf l : regular (RLeaf l)
| rg_option t : regular t -> regular (ROption t)
| rg_vec t : regular t -> regular (RVec t)
| rg_btree t : regular t -> regular (RBTreeMap t)
| rg_hash t : regular t -> regular (RHashMap t)
| rg_tuple ts : Forall regular ts -> regular (RTuple ts)
| rg_struct k fs : style_fits k fs -> struct_fits k fs -> Forall (fun f => skipped (fst f) \/ regular (snd (snd f))) fs ->
    regular (RStruct k fs)
| rg_enum vs : Forall (fun v => (skipped (fst v) /\ skipped_de (fst v)) \/ (~ skipped (fst v) /\ style_fits (fst (snd v)) (snd (snd v)) /\
    Forall (fun f => skipped (fst f) \/ regular (snd (snd f))) (snd (snd v)))) vs -> regular (REnum vs).

(** A length of time or a point in time is read. *)
Fixpoint timed (t : stdty) : bool :=
  match t with
  | TDuration | TSystemTime => true
  | TOption t | TVec t | TSet _ t | TArray _ t | TRange t | TRangeInclusive t | TBound t => timed t
  | TTuple ts => existsb timed ts
  | TResult t e => timed t || timed e
  | TMap t => timed t
  | TStruct fs => existsb (fun nf => timed (snd nf)) fs
  | TEnum vs => existsb (fun v => timed (snd v)) vs
  | _ => false
  end.
