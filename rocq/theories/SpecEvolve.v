(** * Vocabulary for reading data with a type other than the one it was written with. *)
From Coq Require Import String.
From Verif Require Import Base Serde.
Local Open Scope list_scope.
Local Open Scope N_scope.

(** The integer widths written as varints. *)
Inductive width := W16 | W32 | W64.
Definition w_size (w : width) : N := match w with W16 => 2 | W32 => 4 | W64 => 8 end.
Definition u_dty (w : width) : dty := match w with W16 => DU16 | W32 => DU32 | W64 => DU64 end.
Definition u_val (w : width) (n : N) : sval := match w with W16 => SU16 n | W32 => SU32 n | W64 => SU64 n end.
Definition i_dty (w : width) : dty := match w with W16 => DI16 | W32 => DI32 | W64 => DI64 end.
Definition i_val (w : width) (z : Z) : sval := match w with W16 => SI16 z | W32 => SI32 z | W64 => SI64 z end.
(** Values of the type. *)
Definition u_ok (w : width) (n : N) : Prop := n < 2 ^ (8 * w_size w).
Definition i_ok (w : width) (z : Z) : Prop :=
  (- 2 ^ (Z.of_N (8 * w_size w) - 1) <= z < 2 ^ (Z.of_N (8 * w_size w) - 1))%Z.
(** What both widths write alike: 7 bits per byte of the narrower one. *)
Definition u_shared (a b : width) (n : N) : Prop := a = b \/ n < 2 ^ (7 * N.min (w_size a) (w_size b)).
Definition i_shared (a b : width) (z : Z) : Prop :=
  a = b \/ let k := (7 * Z.of_N (N.min (w_size a) (w_size b)) - 1)%Z in (- 2 ^ k <= z < 2 ^ k)%Z.
