(** * Hash sets and maps used by the Examples. *)
From Coq Require Import String.
From Verif Require Import Base Serde Std SpecStd ExStd.
Local Open Scope list_scope.
Local Open Scope N_scope.

(** struct { ids: HashSet<u16>, by_name: HashMap<String, Option<HashSet<u16>>> } *)
Definition ex_ids : stdty := TSet by_number (TPlain DU16).
Definition ex_hash : stdty := TStruct [("ids"%string, ex_ids); ("by_name"%string, TMap (TOption ex_ids))].
Definition ex_hash_val : stdval :=
  XRecord [("ids"%string, XSeq [XPlain (SU16 3); XPlain (SU16 300)]);
           ("by_name"%string, XDict [([97], XSome (XSeq [XPlain (SU16 1); XPlain (SU16 2)])); ([98], XNone)])].
Definition ex_hash_other : stdval :=
  XRecord [("ids"%string, XSeq [XPlain (SU16 300); XPlain (SU16 3)]);
           ("by_name"%string, XDict [([98], XNone); ([97], XSome (XSeq [XPlain (SU16 2); XPlain (SU16 1)]))])].
(** An Ord for which everything is equal. *)
Definition all_equal (x y : stdval) : comparison := Eq.
