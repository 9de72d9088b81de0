(** * IEEE 754 values of bit patterns; not-a-number and negative zero in bodies. *)
From Coq Require Import List NArith ZArith Bool.
From Verif Require Import Base Body SpecBody.
Import ListNotations.
Local Open Scope N_scope.

(** Fields of a binary float with [k] mantissa bits and [w] bits besides the sign. *)
Definition mantissa (k n : N) : N := n mod 2 ^ k.
Definition exponent (k w n : N) : N := (n mod 2 ^ w) / 2 ^ k.
Definition negative (w n : N) : bool := N.odd (n / 2 ^ w).
(** All exponent bits set and a mantissa: not a number. *)
Definition nan (k w n : N) : Prop := exponent k w n = 2 ^ (w - k) - 1 /\ mantissa k n <> 0.
(** The magnitude in units of the smallest positive number; an infinity gets the value following the
    largest finite number. *)
Definition magnitude (k w n : N) : N :=
  if exponent k w n =? 0 then mantissa k n else (2 ^ k + mantissa k n) * 2 ^ (exponent k w n - 1).
Definition number (k w n : N) : Z :=
  if negative w n then - Z.of_N (magnitude k w n) else Z.of_N (magnitude k w n).

(** No float in the body is NaN. *)
Definition no_nan : body -> bool :=
  every (fun b => match b with
    | BFloat32 n => n mod 2 ^ 31 <=? 255 * 2 ^ 23
    | BFloat64 n => n mod 2 ^ 63 <=? 2047 * 2 ^ 52
    | _ => true end).
(** No float in the body is a negative zero. *)
Definition no_neg_zero : body -> bool :=
  every (fun b => match b with
    | BFloat32 n => negb (n =? 2 ^ 31)
    | BFloat64 n => negb (n =? 2 ^ 63)
    | _ => true end).
(** The body with its negative zeros replaced by zeros. *)
Fixpoint plus_zero (b : body) : body :=
  match b with
  | BFloat32 n => BFloat32 (if n =? 2 ^ 31 then 0 else n)
  | BFloat64 n => BFloat64 (if n =? 2 ^ 63 then 0 else n)
  | BOptional (Some b) => BOptional (Some (plus_zero b))
  | BArray l => BArray (map plus_zero l)
  | BTuple l => BTuple (map plus_zero l)
  | BMap m => BMap (map (fun kv => (fst kv, plus_zero (snd kv))) m)
  | BEnum i b => BEnum i (plus_zero b)
  | b => b
  end.
