(** * Recursive types.

    User types may refer to each other and to themselves (through Box, Option, Vec, maps): the
    derived Deserialize impl of an item calls the impls of the items its fields mention. The
    requests made to the Deserializer are those of Serde.v; what is new is that calls nest. *)
From Coq Require Import String.
From Verif Require Import Base Serde.
Local Open Scope list_scope.
Local Open Scope N_scope.

(** Types of fields. [XPlain d]: mentions no item. [XItem i]: item number i, also behind a Box
    (serde: Box<T> deserializes as T). The other constructors are those of [dty]. *)
Inductive xty : Type :=
| XPlain (d : dty)
| XOption (t : xty) | XNewtypeStruct (t : xty) | XVec (t : xty) | XMap (t : xty)
| XTuple (ts : list xty) | XTupleStruct (ts : list xty)
| XStruct (keys : list string) (fields : list (string * xty))
| XEnum (vs : list (vkind * xty))
| XItem (i : nat).

(** As [Serde.missing]. *)
Definition xmissing (t : xty) : option sval :=
  match t with XPlain d => missing d | XOption _ => Some SNone | _ => None end.

(** As [Serde.de] (de.rs:300-375, 390-547); [call i] deserializes item i. *)
Fixpoint xde (c : cfg) (call : nat -> prog sval) (t : xty) {struct t} : prog sval :=
  match t with
  | XPlain d => de c d
  | XOption t => pmap (fun o => match o with Some v => SSome v | None => SNone end) (de_option (xde c call t))
  | XNewtypeStruct t => pmap SNewtypeStruct (xde c call t)
  | XVec t => pmap (fun l => SSeq (Some (lenN l)) l) (de_vec c (xde c call t))
  | XMap t =>
      pmap (fun m => SMap (Some (lenN m)) (map (fun kv => (SStr (fst kv), snd kv)) m))
           (de_map c (xde c call t))
  | XTuple ts => pmap STuple (sequence (map (xde c call) ts))
  | XTupleStruct ts => pmap STupleStruct (sequence (map (xde c call) ts))
  | XStruct keys fields =>
      pmap (fun l => SStruct (combine (map fst fields) l))
           (de_struct keys (map (fun nf => (fst nf, xde c call (snd nf))) fields)
                      (map (fun nf => xmissing (snd nf)) fields))
  | XEnum vs =>
      de_enum (map (fun v i => pmap (variant_sval (fst v) i) (xde c call (snd v))) vs)
  | XItem i => call i
  end.

(** Deserialize::deserialize of item i with room on the stack for [depth] nested impls. *)
Fixpoint item_de (c : cfg) (items : list xty) (depth : nat) (i : nat) {struct depth} : prog sval :=
  match depth with
  | O => Crash PStack
  | S n => match nth_error items i with Some t => xde c (item_de c items n) t | None => Crash PStack end
  end.
