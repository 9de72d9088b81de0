(** * Types with conversions of their own.

    What serde_derive (not in /repo) makes of the container attributes from, try_from, into and
    transparent, and of the field attributes with, serialize_with and deserialize_with when the
    function converts and hands the result to the other type's impl. The calls that then reach dlhn's
    Serializer and Deserializer are that other type's. The conversions are the user's: any functions,
    which may fail with an error of their own (Error::custom, ser.rs:18-22, de.rs:19-23). Not
    modelled: conversions that panic or do not end, functions that call the Serializer or
    Deserializer on their own, sets of such types. *)
From Coq Require Import String.
From Verif Require Import Base Varint Utf8 Serde Std.
Local Open Scope list_scope.
Local Open Scope N_scope.

(** Values. [VUser]: of the user's own types, whatever they are. *)
Inductive cval (U : Type) : Type :=
| VStd (v : stdval)
| VUser (u : U)
| VNone | VSome (v : cval U)
| VSeq (l : list (cval U))
| VTuple (l : list (cval U))
| VDict (m : list (list N * cval U))
| VRecord (fs : list (string * cval U))
| VVariant (k : vkind) (i : N) (v : cval U).
Arguments VStd {U}. Arguments VUser {U}. Arguments VNone {U}. Arguments VSome {U}. Arguments VSeq {U}.
Arguments VTuple {U}. Arguments VDict {U}. Arguments VRecord {U}. Arguments VVariant {U}.

(** Types. [CStd]: of Std.v. [CFrom into from t]: #[serde(into, from)] through [t], also
    transparent. [CTry into from t]: serialize_with and try_from or deserialize_with; [None] is the
    user's error. Containers as in Std.v. *)
Inductive cty (U : Type) : Type :=
| CStd (t : stdty)
| CFrom (into from : cval U -> cval U) (t : cty U)
| CTry (into from : cval U -> option (cval U)) (t : cty U)
| COption (t : cty U)
| CVec (t : cty U)
| CTuple (ts : list (cty U))
| CMap (t : cty U)
| CStruct (fs : list (string * cty U))
| CEnum (vs : list (vkind * cty U)).
Arguments CStd {U}. Arguments CFrom {U}. Arguments CTry {U}. Arguments COption {U}. Arguments CVec {U}.
Arguments CTuple {U}. Arguments CMap {U}. Arguments CStruct {U}. Arguments CEnum {U}.

Fixpoint apply_all {A B} (fs : list (A -> B)) (l : list A) : list B :=
  match fs, l with f :: fs, x :: l => f x :: apply_all fs l | _, _ => [] end.

(** Serialize. [SError]: the conversion's error (no call reaches the Serializer); also for values
    that are not of the type, which there are none of. *)
Fixpoint csval {U} (t : cty U) (v : cval U) {struct t} : sval :=
  match t, v with
  | CStd _, VStd v => std_sval v
  | CFrom into _ t, v => csval t (into v)
  | CTry into _ t, v => match into v with Some x => csval t x | None => SError end
  | COption _, VNone => SNone
  | COption t, VSome v => SSome (csval t v)
  | CVec t, VSeq l => SSeq (Some (lenN l)) (map (csval t) l)
  | CTuple ts, VTuple l => STuple (apply_all (map csval ts) l)
  | CMap t, VDict m => SMap (Some (lenN m)) (map (fun kv => (SStr (fst kv), csval t (snd kv))) m)
  | CStruct fs, VRecord l =>
      SStruct (combine (map fst fs) (apply_all (map (fun nf => csval (snd nf)) fs) (map snd l)))
  | CEnum vs, VVariant _ i v =>
      match pickN (map (fun kt => (fst kt, csval (snd kt))) vs) i with
      | Some (k, f) => variant_sval k i (f v)
      | None => SError
      end
  | _, _ => SError
  end.

(** What a derived impl puts for an absent field: what its type makes of None, if that is an Option's
    doing; nothing under [with]. No key is ever absent here (de.rs:346-356, 457-492). *)
Fixpoint cmissing {U} (t : cty U) : option (cval U) :=
  match t with
  | CStd t => option_map VStd (std_missing t)
  | CFrom _ from t => option_map from (cmissing t)
  | COption _ => Some VNone
  | _ => None
  end.

(** As [Serde.de_enum]. *)
Definition conv_enum {U} (alts : list (N -> prog (cval U))) : prog (cval U) :=
  i <- de_u16 ;; match pickN alts i with Some alt => alt i | None => Fail EMsg end.

(** Deserialize. *)
Fixpoint cde {U} (c : cfg) (t : cty U) {struct t} : prog (cval U) :=
  match t with
  | CStd t => pmap VStd (std_de c t)
  | CFrom _ from t => pmap from (cde c t)
  | CTry _ from t => v <- cde c t ;; match from v with Some x => Ret x | None => Fail EMsg end
  | COption t => pmap (fun o => match o with Some v => VSome v | None => VNone end) (de_option (cde c t))
  | CVec t => pmap VSeq (de_vec c (cde c t))
  | CTuple ts => pmap VTuple (sequence (map (cde c) ts))
  | CMap t => pmap VDict (de_map c (cde c t))
  | CStruct fs =>
      pmap (fun l => VRecord (combine (map fst fs) l))
           (de_struct (map fst fs) (map (fun nf => (fst nf, cde c (snd nf))) fs)
                      (map (fun nf => cmissing (snd nf)) fs))
  | CEnum vs => conv_enum (map (fun v i => pmap (VVariant (fst v) i) (cde c (snd v))) vs)
  end.
