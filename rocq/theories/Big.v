(** * Big integers and decimals.

    Models dlhn/src/big_uint.rs, big_int.rs, big_decimal.rs (conversions) and
    dlhn/src/format/big_uint.rs, big_int.rs, big_decimal.rs.
    num_bigint::BigUint is represented by [N], num_bigint::BigInt by [Z],
    bigdecimal::BigDecimal by a pair (digits, scale) meaning digits * 10^-scale. The
    byte conversions of num-bigint and the normalization of bigdecimal, dependencies
    not contained in /repo, are transcribed from their published algorithms. *)
From Verif Require Import Base Varint Utf8 Serde.

(** ** num-bigint *)

(** Bytes of a positive number, least significant first, no trailing zero byte.
    The fuel (bit length) is always sufficient (BigFacts). *)
Fixpoint mag_bytes (fuel : nat) (n : N) : list N :=
  match fuel with
  | O => []
  | S f => if n =? 0 then [] else n mod 256 :: mag_bytes f (n / 256)
  end.
(** BigUint::to_bytes_le: zero gives [0] *)
Definition to_bytes_le (n : N) : list N :=
  if n =? 0 then [0] else mag_bytes (N.to_nat (N.size n)) n.
(** BigUint::from_bytes_le *)
Definition from_bytes_le (bs : list N) : N := of_le bs.

(** num_bigint::bigint::convert::twos_complement over little-endian digits:
    invert and add the carry. *)
Fixpoint twos_complement (carry : bool) (bs : list N) : list N :=
  match bs with
  | [] => []
  | b :: t =>
    let d := 255 - b in                    (* !*d *)
    if carry then (if d =? 255 then 0 else d + 1) :: twos_complement (d =? 255) t
    else d :: twos_complement false t
  end.

(** BigInt::to_signed_bytes_le *)
Definition to_signed_bytes_le (z : Z) : list N :=
  let bytes := to_bytes_le (Z.abs_N z) in
  let last_byte := last bytes 0 in
  let all_zero := forallb (fun b => b =? 0) (removelast bytes) in
  let bytes :=
    if (127 <? last_byte) && negb ((last_byte =? 128) && all_zero && (z <? 0)%Z)
    then bytes ++ [0] else bytes in
  if (z <? 0)%Z then twos_complement true bytes else bytes.

(** BigInt::from_signed_bytes_le *)
Definition from_signed_bytes_le (bs : list N) : Z :=
  match bs with
  | [] => 0%Z
  | _ => if 127 <? last bs 0
         then (- Z.of_N (from_bytes_le (twos_complement true bs)))%Z
         else Z.of_N (from_bytes_le bs)
  end.

(** ** dlhn conversions *)

(** big_uint.rs:13-22 *)
Definition biguint_from (n : N) : list N := if n =? 0 then [] else to_bytes_le n.
(** big_uint.rs:24-29 *)
Definition biguint_into (bs : list N) : N := from_bytes_le bs.
(** big_int.rs:13-22 *)
Definition bigint_from (z : Z) : list N := if (z =? 0)%Z then [] else to_signed_bytes_le z.
(** big_int.rs:24-29 *)
Definition bigint_into (bs : list N) : Z := from_signed_bytes_le bs.

(** ** bigdecimal *)

(** Number of trailing decimal zeros removed, and what is left (fuel: bit length). *)
Fixpoint strip_zeros (fuel : nat) (d : Z) : Z * Z :=
  match fuel with
  | O => (d, 0%Z)
  | S f => if (d =? 0)%Z then (d, 0%Z)
           else if (d mod 10 =? 0)%Z
           then let '(d', k) := strip_zeros f (d / 10) in (d', (k + 1)%Z)
           else (d, 0%Z)
  end.
(** BigDecimal::normalized: zero gives (0, 0); otherwise trailing zeros of the digits are
    dropped and the scale lowered by their number, [self.scale - trailing_count as i64].
    None: that subtraction panics (overflow checks). *)
Definition normalized (c : cfg) (v : Z * Z) : option (Z * Z) :=
  let '(d, s) := v in
  if (d =? 0)%Z then Some (0%Z, 0%Z)
  else
    let '(d', k) := strip_zeros (N.to_nat (N.size (Z.abs_N d))) d in
    match arith_s c 64 (s - k) with Some s' => Some (d', s') | None => None end.

(** big_decimal.rs:16-32 *)
Definition bigdecimal_from (c : cfg) (v : Z * Z) : option (list N * Z) :=
  if (fst v =? 0)%Z then Some ([], 0%Z)
  else match normalized c v with
       | Some (d, s) => Some (to_signed_bytes_le d, s)
       | None => None
       end.
(** big_decimal.rs:34-42 *)
Definition bigdecimal_into (w : list N * Z) : Z * Z :=
  (from_signed_bytes_le (fst w), snd w).

(** big_uint.rs:10, big_int.rs:10, derived Ord of a newtype over Vec<u8>: lexicographic *)
Definition big_cmp (a b : list N) : comparison := bytes_cmp a b.
(** big_decimal.rs:10, derived Ord: signed_bytes, then scale *)
Definition bigdecimal_cmp (a b : list N * Z) : comparison :=
  match bytes_cmp (fst a) (fst b) with Eq => Z.compare (snd a) (snd b) | r => r end.

(** ** format modules *)

(** format/big_uint.rs:30-40 *)
Definition fmt_biguint_sval (n : N) : sval :=
  if n =? 0 then SSeq None [SU8 0] else SSeq None [vec_u8 (to_bytes_le n)].
(** format/big_uint.rs:19-28, 42-44 *)
Definition fmt_de_biguint (c : cfg) : prog N := pmap from_bytes_le (de_vec c de_u8).

(** format/big_int.rs:30-40 *)
Definition fmt_bigint_sval (z : Z) : sval :=
  if (z =? 0)%Z then SSeq None [SU8 0] else SSeq None [vec_u8 (to_signed_bytes_le z)].
(** format/big_int.rs:19-28, 42-44 *)
Definition fmt_de_bigint (c : cfg) : prog Z := pmap from_signed_bytes_le (de_vec c de_u8).

(** format/big_decimal.rs:41-53. A panic of normalized() happens before any element is
    written. *)
Definition fmt_bigdecimal_sval (c : cfg) (v : Z * Z) : sval :=
  if (fst v =? 0)%Z then SSeq None [SU8 0]
  else match normalized c v with
       | Some (d, s) => SSeq None [vec_u8 (to_signed_bytes_le d); SI64 s]
       | None => SSeq None [SPanic POverflow]
       end.
(** format/big_decimal.rs:20-38, 55-57. The scale is read only when the digits are not zero;
    BigDecimal::from(digits) has scale 0. *)
Definition fmt_de_bigdecimal (c : cfg) : prog (Z * Z) :=
  bs <- de_vec c de_u8 ;;
  let digits := from_signed_bytes_le bs in
  if (digits =? 0)%Z then Ret (digits, 0%Z)
  else s <- de_i64 ;; Ret (digits, s).
