(** * Model of the derived [PartialEq] of [Body] (body/mod.rs:6). *)
From Coq Require Import String.
From Verif Require Import Base Varint Utf8 Serde Header Body.
Local Open Scope list_scope.
Local Open Scope N_scope.

(** [==] of f32 and f64 on bit patterns (the primitive comparison used by the derived code): a NaN is
    equal to nothing, the two zeros are equal, all other numbers have one bit pattern. [k]: mantissa
    bits, [w]: bits without the sign. *)
Definition is_nan (k w n : N) : bool := (2 ^ w - 2 ^ k) <? n mod 2 ^ w.
Definition is_zero (w n : N) : bool := n mod 2 ^ w =? 0.
Definition float_eq (k w a b : N) : bool :=
  negb (is_nan k w a) && negb (is_nan k w b) && ((a =? b) || is_zero w a && is_zero w b).
Definition f32_eq : N -> N -> bool := float_eq 23 31.
Definition f64_eq : N -> N -> bool := float_eq 52 63.

(** [==] of byte vectors (Vec, String, ByteBuf, the big number wrappers: big_uint.rs:10-11, big_int.rs:10-11,
    big_decimal.rs:10-14). *)
Section ListEq.
  Context {A : Type} (f : A -> A -> bool).
  Fixpoint list_eqb (a b : list A) : bool :=
    match a, b with
    | [], [] => true
    | x :: a, y :: b => f x y && list_eqb a b
    | _, _ => false
    end.
End ListEq.
Definition bytes_eq : list N -> list N -> bool := list_eqb N.eqb.

(** body/mod.rs:6 [derive(PartialEq)]: same variant, equal fields. Vectors and maps are compared element by
    element (std: slices and the BTreeMap iterators of equal length). *)
Fixpoint body_eq (a b : body) {struct a} : bool :=
  match a, b with
  | BUnit, BUnit => true
  | BOptional None, BOptional None => true
  | BOptional (Some a), BOptional (Some b) => body_eq a b
  | BBoolean x, BBoolean y => Bool.eqb x y
  | BUInt8 x, BUInt8 y | BUInt16 x, BUInt16 y | BUInt32 x, BUInt32 y | BUInt64 x, BUInt64 y => x =? y
  | BInt8 x, BInt8 y | BInt16 x, BInt16 y | BInt32 x, BInt32 y | BInt64 x, BInt64 y => (x =? y)%Z
  | BFloat32 x, BFloat32 y => f32_eq x y
  | BFloat64 x, BFloat64 y => f64_eq x y
  | BBigUInt x, BBigUInt y | BBigInt x, BBigInt y => bytes_eq x y
  | BBigDecimal x s, BBigDecimal y t => bytes_eq x y && (s =? t)%Z
  | BString x, BString y | BBinary x, BBinary y => bytes_eq x y
  | BArray x, BArray y | BTuple x, BTuple y => list_eqb body_eq x y
  | BMap x, BMap y => list_eqb (fun k l => bytes_eq (fst k) (fst l) && body_eq (snd k) (snd l)) x y
  | BEnum i a, BEnum j b => (i =? j) && body_eq a b
  | BDate y o, BDate y' o' => (y =? y')%Z && (o =? o')
  | BDateTime t n, BDateTime t' n' => (t =? t')%Z && (n =? n')
  | _, _ => false
  end.
