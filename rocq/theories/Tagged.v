(** * Types that can be written but not read: untagged and internally tagged enums, borrowed text.

    Their Deserialize impls start with a request that de.rs answers with todo!(): deserialize_any
    (de.rs:62-67) for untagged and internally tagged enums and for dynamic values, deserialize_str
    (de.rs:203-208) for &str, deserialize_bytes (de.rs:239-244) for &[u8]. Writing is as serde_derive
    (1.0, not in /repo) does it. Not modelled: adjacently tagged enums, which its releases write
    differently; internally tagged newtype variants holding a unit or an enum. *)
From Coq Require Import String.
From Verif Require Import Base Varint Serde Flatten.
Local Open Scope list_scope.
Local Open Scope N_scope.

(** Values. [GUntagged v]: a variant of an untagged enum with payload [v]. [GTagUnit], [GTag tag name
    v]: variants of an internally tagged enum, without payload, and with the fields or the newtype
    payload [v]. [GBorrowed v]: of a type that is read with a request not implemented. *)
Inductive gval : Type :=
| GPlain (v : sval)
| GNone | GSome (v : gval)
| GSeq (l : list gval)
| GTuple (l : list gval)
| GDict (m : list (list N * gval))
| GRecord (fs : list (string * gval))
| GVariant (k : vkind) (i : N) (v : gval)
| GUntagged (v : gval)
| GTagUnit (tag name : string)
| GTag (tag name : string) (v : gval)
| GBorrowed (v : sval).

(** serde::private::ser::TaggedSerializer: a struct gets the tag as its first field, a map as its
    first entry, newtype structs are passed through; anything else is an error of serde's own. *)
Fixpoint tagged (tag name : string) (w : sval) : sval :=
  match w with
  | SStruct fs => SStruct ((tag, SStr (name_bytes name)) :: fs)
  | SMap n m => SMap (option_map N.succ n) ((SStr (name_bytes tag), SStr (name_bytes name)) :: m)
  | SNewtypeStruct w => tagged tag name w
  | SPanic p => SPanic p
  | _ => SError
  end.

(** Serialize. *)
Fixpoint gsval (v : gval) : sval :=
  match v with
  | GPlain v => v
  | GNone => SNone
  | GSome v => SSome (gsval v)
  | GSeq l => SSeq (Some (lenN l)) (map gsval l)
  | GTuple l => STuple (map gsval l)
  | GDict m => SMap (Some (lenN m)) (map (fun kv => (SStr (fst kv), gsval (snd kv))) m)
  | GRecord fs => SStruct (map (fun nf => (fst nf, gsval (snd nf))) fs)
  | GVariant k i v => variant_sval k i (gsval v)
  | GUntagged v => gsval v          (* serialize_unit, the payload, serialize_tuple, serialize_struct *)
  | GTagUnit tag name => SStruct [(tag, SStr (name_bytes name))]
  | GTag tag name v => tagged tag name (gsval v)
  | GBorrowed v => v
  end.

(** Types, as far as reading is concerned. *)
Inductive gty : Type :=
| YPlain (d : dty)
| YOption (t : gty)
| YVec (t : gty)
| YTuple (ts : list gty)
| YMap (t : gty)
| YStruct (fs : list (string * gty))
| YEnum (vs : list (vkind * gty))
| YUntagged | YTagged | YBorrowed.

Definition gmissing (t : gty) : option gval :=
  match t with YPlain d => option_map GPlain (missing d) | YOption _ => Some GNone | _ => None end.

(** As [Serde.de_enum]. *)
Definition tag_enum (alts : list (N -> prog gval)) : prog gval :=
  i <- de_u16 ;; match pickN alts i with Some alt => alt i | None => Fail EMsg end.

(** Deserialize. *)
Fixpoint gtde (c : cfg) (t : gty) {struct t} : prog gval :=
  match t with
  | YPlain d => pmap GPlain (de c d)
  | YOption t => pmap (fun o => match o with Some v => GSome v | None => GNone end) (de_option (gtde c t))
  | YVec t => pmap GSeq (de_vec c (gtde c t))
  | YTuple ts => pmap GTuple (sequence (map (gtde c) ts))
  | YMap t => pmap GDict (de_map c (gtde c t))
  | YStruct fs =>
      pmap (fun l => GRecord (combine (map fst fs) l))
           (de_struct (map fst fs) (map (fun nf => (fst nf, gtde c (snd nf))) fs)
                      (map (fun nf => gmissing (snd nf)) fs))
  | YEnum vs => tag_enum (map (fun v i => pmap (GVariant (fst v) i) (gtde c (snd v))) vs)
  | YUntagged | YTagged => Crash PTodo   (* Content: deserialize_any, de.rs:62-67 *)
  | YBorrowed => Crash PTodo             (* de.rs:203-208, 239-244 *)
  end.
