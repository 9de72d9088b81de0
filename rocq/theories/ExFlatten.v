(** * Example: struct S { a: u8, #[serde(flatten)] rest: R }, struct R { b: u16, c: bool }. *)
From Coq Require Import List NArith String.
From Verif Require Import Serde Flatten.
Import ListNotations.
Definition ex_flat_rest : list (string * sval) := [("b"%string, SU16 300); ("c"%string, SBool true)].
Definition ex_flat : list member := [Plain "a" (SU8 7); Flat (SStruct ex_flat_rest)].
