(** * Specification of the integer encodings, in plain arithmetic.

    Independent of the model: no shifts, masks, leading-zero counts or read effects. *)
From Coq Require Import List NArith ZArith.
Import ListNotations.
Local Open Scope N_scope.

(** Little-endian digits: byte i is v / 256^i mod 256. *)
Definition le_digits (n : nat) (v : N) : list N :=
  map (fun i => v / 256 ^ N.of_nat i mod 256) (seq 0 n).

(** Value of a little-endian byte string. *)
Fixpoint le_value (bs : list N) : N :=
  match bs with [] => 0 | b :: t => b + 256 * le_value t end.

(** Smallest k with v < 2^(7(k+1)), among 0..fuel (fuel if none). *)
Fixpoint varint_class (fuel : nat) (k : nat) (v : N) : nat :=
  match fuel with
  | O => k
  | S f => if v <? 2 ^ (7 * (N.of_nat k + 1)) then k else varint_class f (S k) v
  end.

(** Class k: k one bits, a zero bit, the 7-k low bits of v; then the remaining bits in k bytes. *)
Definition class_bytes (k : nat) (v : N) : list N :=
  (256 - 2 ^ (8 - N.of_nat k) + v mod 2 ^ (7 - N.of_nat k))
    :: le_digits k (v / 2 ^ (7 - N.of_nat k)).

(** Encoding of v : u(8m). m = 2, 4, 8. Class k < m if v fits in 7m bits, else m one bits
    (zero padded) followed by the m little-endian bytes. *)
Definition varint_bytes (m : nat) (v : N) : list N :=
  if v <? 2 ^ (7 * N.of_nat m)
  then class_bytes (varint_class m 0 v) v
  else (256 - 2 ^ (8 - N.of_nat m)) :: le_digits m v.

(** Number of leading one bits of a byte. *)
Fixpoint ones (fuel : nat) (b : N) : nat :=
  match fuel with
  | O => O
  | S f => if 128 <=? b then S (ones f ((b - 128) * 2)) else O
  end.
Definition leading_ones (b : N) : nat := ones 8 b.

(** Bytes after the first byte p, for u(8m). *)
Definition varint_extra (m : nat) (p : N) : nat := Nat.min (leading_ones p) m.

(** Value of a first byte p and the extra bytes t. *)
Definition varint_value (m : nat) (p : N) (t : list N) : N :=
  let k := leading_ones p in
  if (k <? m)%nat then p mod 2 ^ (7 - N.of_nat k) + 2 ^ (7 - N.of_nat k) * le_value t
  else le_value t.

(** Zigzag: 0, -1, 1, -2, 2, ... to 0, 1, 2, 3, 4, ... *)
Definition zigzag (z : Z) : N := Z.to_N (if (z <? 0)%Z then (-2 * z - 1)%Z else (2 * z)%Z).
Definition unzigzag (n : N) : Z :=
  if N.even n then Z.of_N (n / 2) else (- Z.of_N (n / 2) - 1)%Z.
