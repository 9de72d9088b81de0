(** * The named values of a struct with flattened fields. *)
From Coq Require Import List NArith String Ascii.
From Verif Require Import Base Serde SpecVarint SpecOutput SpecAccept SpecReject Flatten.
Import ListNotations.
Local Open Scope list_scope.

Definition named_field (kv : string * sval) : list N * sval := (map N_of_ascii (list_ascii_of_string (fst kv)), snd kv).

(** What a flattened value contributes. *)
Inductive contributes : sval -> list (list N * sval) -> Prop :=
| ct_none : contributes SNone []
| ct_some v l : contributes v l -> contributes (SSome v) l
| ct_newtype v l : contributes v l -> contributes (SNewtypeStruct v) l
| ct_struct fs : contributes (SStruct fs) (map named_field fs)
| ct_map n l : contributes (SMap n (map (fun kv => (SStr (fst kv), snd kv)) l)) l.

(** The named values, in the order of the fields. *)
Inductive named_values : list member -> list (list N * sval) -> Prop :=
| nv_nil : named_values [] []
| nv_plain name v ms l : named_values ms l -> named_values (Plain name v :: ms) (named_field (name, v) :: l)
| nv_flat v lv ms l : contributes v lv -> named_values ms l -> named_values (Flat v :: ms) (lv ++ l).

(** Values that have no names to contribute. *)
Inductive nameless : sval -> Prop :=
| nl_bool b : nameless (SBool b)
| nl_i8 z : nameless (SI8 z) | nl_i16 z : nameless (SI16 z) | nl_i32 z : nameless (SI32 z) | nl_i64 z : nameless (SI64 z)
| nl_u8 n : nameless (SU8 n) | nl_u16 n : nameless (SU16 n) | nl_u32 n : nameless (SU32 n) | nl_u64 n : nameless (SU64 n)
| nl_f32 n : nameless (SF32 n) | nl_f64 n : nameless (SF64 n)
| nl_char ch : nameless (SChar ch) | nl_str s : nameless (SStr s) | nl_bytes s : nameless (SBytes s)
| nl_seq n l : nameless (SSeq n l) | nl_tuple l : nameless (STuple l) | nl_tuple_struct l : nameless (STupleStruct l)
| nl_some v : nameless v -> nameless (SSome v)
| nl_newtype v : nameless v -> nameless (SNewtypeStruct v).

(** Length and name, then the value; nothing before the first. *)
Inductive named_output : list (list N * sval) -> list N -> Prop :=
| no_nil : named_output [] []
| no_cons k v l u t : output v u WeOk -> named_output l t -> named_output ((k, v) :: l) (text k ++ u ++ t).
Definition in_range (l : list (list N * sval)) : Prop := Forall (fun kv => (lenN (fst kv) < 2 ^ 64)%N /\ representable (snd kv)) l.

(** How reading such a struct ends: a count, then, unless it is zero, a u16 and no further. [o] is
    how it ends without entries, given the rest of the input. *)
Inductive flat_end {A} (c : cfg) (o : list N -> outcome A) : list N -> outcome A -> Prop :=
| fe_no_count s : short 8 s -> flat_end c o s (OErr ERead)
| fe_empty l n t : code 8 l n -> (n mod 2 ^ usize_bits c = 0)%N -> flat_end c o (l ++ t) (o t)
| fe_no_key l n t : code 8 l n -> (n mod 2 ^ usize_bits c <> 0)%N -> short 2 t -> flat_end c o (l ++ t) (OErr ERead)
| fe_entry l n k m t : code 8 l n -> (n mod 2 ^ usize_bits c <> 0)%N -> code 2 k m -> flat_end c o (l ++ k ++ t) (OPanic PTodo).
