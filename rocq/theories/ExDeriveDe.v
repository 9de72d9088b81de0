(** * Example types and values for PropDeriveDe.v. *)
From Coq Require Import String.
From Verif Require Import Base Derive.
Local Open Scope list_scope.
Local Open Scope N_scope.

Definition ex_attr (n : string) : attrs := [Attr (Some "serde"%string) (Some [NMeta (Some n)])].
(** enum E { A, B { x: bool, #[serde(skip)] y: i64 }, #[serde(skip)] C } *)
Definition ex_de_enum : rty :=
  REnum [([], (UnitLike, []));
         ([], (Named, [([], ("x"%string, RLeaf LBool)); (ex_attr "skip", ("y"%string, RLeaf LI64))]));
         (ex_attr "skip", (UnitLike, []))].
(** struct S { a: u8, #[serde(skip)] b: String, c: Vec<Option<u16>>, d: E } *)
Definition ex_de_struct : rty :=
  RStruct Named [([], ("a"%string, RLeaf LU8)); (ex_attr "skip", ("b"%string, RLeaf LString));
                 ([], ("c"%string, RVec (ROption (RLeaf LU16)))); ([], ("d"%string, ex_de_enum))].
Definition ex_de_dflt (t : rty) : rval :=
  match t with RLeaf LString => VB [] | RLeaf LI64 => VI 0 | RLeaf LU8 => VU 0 | _ => VUnit end.
Definition ex_de_value : rval :=
  VSeq [VU 7; VB [104; 105]; VSeq [VNone; VSome (VU 300)]; VVariant 1 [VBool true; VI (-9)]].
Definition ex_de_back : rval :=
  VSeq [VU 7; VB []; VSeq [VNone; VSome (VU 300)]; VVariant 1 [VBool true; VI 0]].
(** enum F { #[serde(skip)] A, B(u8), C(u8) } *)
Definition ex_moved : rty :=
  REnum [(ex_attr "skip", (UnitLike, [])); ([], (Unnamed, [([], ("0"%string, RLeaf LU8))])); ([], (Unnamed, [([], ("0"%string, RLeaf LU8))]))].
(** struct P { #[serde(n)] a: u8, b: u8 } *)
Definition ex_pair (n : string) : rty :=
  RStruct Named [(ex_attr n, ("a"%string, RLeaf LU8)); ([], ("b"%string, RLeaf LU8))].
(** enum F { #[serde(skip)] Z(String), B { n: u8 }, C(u8) } *)
Definition ex_relabelled : rty :=
  REnum [(ex_attr "skip", (Unnamed, [([], ("0"%string, RLeaf LString))])); ([], (Named, [([], ("n"%string, RLeaf LU8))])); ([], (Unnamed, [([], ("0"%string, RLeaf LU8))]))].
(** (u8, enum { B(u8), #[serde(skip)] A }) *)
Definition ex_skipped_variant : rty :=
  RTuple [RLeaf LU8; REnum [([], (Unnamed, [([], ("0"%string, RLeaf LU8))])); (ex_attr "skip", (UnitLike, []))]].
