(** * Model of dlhn/src/prefix_varint.rs (and its identical copy
      dlhn_derive/src/prefix_varint.rs) and dlhn/src/zigzag.rs.

    [encode_prefix_varint(self, buf) -> size] is modelled as the list
    [buf[..size]]; VarintBuf.v has the stores into the fixed-size buffer (C65). *)
From Verif Require Import Base.

(** x as u8 *)
Definition as_u8 (v : N) : N := v mod 256.
(** v << k on a w-bit unsigned integer *)
Definition shl (w v k : N) : N := N.shiftl v k mod 2 ^ w.
Definition shr (v k : N) : N := N.shiftr v k.
(** u{w}::leading_zeros *)
Definition lead0 (w v : N) : N := w - N.size v.
(** u8::leading_ones *)
Definition lead1_u8 (b : N) : N := 8 - N.size (N.lxor b 255).

(** u{8k}::to_le_bytes *)
Fixpoint le_bytes (k : nat) (v : N) : list N :=
  match k with O => [] | S k' => v mod 256 :: le_bytes k' (v / 256) end.
(** u{8k}::from_le_bytes *)
Fixpoint of_le (bs : list N) : N :=
  match bs with [] => 0 | b :: t => b + 256 * of_le t end.

(** buf[i] *)
Definition at_ (bs : list N) (i : nat) : N := nth i bs 0.

(** prefix_varint.rs:27-36 impl PrefixVarint<2> for u8 *)
Definition enc_u8 (v : N) : list N :=
  if v <? 128 then [v] else [128; v].

(** prefix_varint.rs:54-74 impl PrefixVarint<3> for u16 *)
Definition enc_u16 (v : N) : list N :=
  let lz := lead0 16 v in
  if lz <=? 1 then 192 :: le_bytes 2 v
  else if lz <=? 8 then
    let x := shl 16 v 2 in
    [N.lor (shr (as_u8 x) 2) 128; as_u8 (shr x 8)]
  else [as_u8 v].

(** prefix_varint.rs:98-133 impl PrefixVarint<5> for u32 *)
Definition enc_u32 (v : N) : list N :=
  let lz := lead0 32 v in
  if lz <=? 3 then 240 :: le_bytes 4 v
  else if lz <=? 10 then
    let x := shl 32 v 4 in
    [N.lor (shr (as_u8 x) 4) 224; as_u8 (shr x 8); as_u8 (shr x 16); as_u8 (shr x 24)]
  else if lz <=? 17 then
    let x := shl 32 v 3 in
    [N.lor (shr (as_u8 x) 3) 192; as_u8 (shr x 8); as_u8 (shr x 16)]
  else if lz <=? 24 then
    let x := shl 32 v 2 in
    [N.lor (shr (as_u8 x) 2) 128; as_u8 (shr x 8)]
  else [as_u8 v].

(** prefix_varint.rs:169-245 impl PrefixVarint<9> for u64 *)
Definition enc_u64 (v : N) : list N :=
  let lz := lead0 64 v in
  if lz <=? 7 then 255 :: le_bytes 8 v
  else if lz <=? 14 then
    [254; as_u8 v; as_u8 (shr v 8); as_u8 (shr v 16); as_u8 (shr v 24);
     as_u8 (shr v 32); as_u8 (shr v 40); as_u8 (shr v 48)]
  else if lz <=? 21 then
    let x := shl 64 v 7 in
    [N.lor (shr (as_u8 x) 7) 252; as_u8 (shr x 8); as_u8 (shr x 16); as_u8 (shr x 24);
     as_u8 (shr x 32); as_u8 (shr x 40); as_u8 (shr x 48)]
  else if lz <=? 28 then
    let x := shl 64 v 6 in
    [N.lor (shr (as_u8 x) 6) 248; as_u8 (shr x 8); as_u8 (shr x 16); as_u8 (shr x 24);
     as_u8 (shr x 32); as_u8 (shr x 40)]
  else if lz <=? 35 then
    let x := shl 64 v 5 in
    [N.lor (shr (as_u8 x) 5) 240; as_u8 (shr x 8); as_u8 (shr x 16); as_u8 (shr x 24);
     as_u8 (shr x 32)]
  else if lz <=? 42 then
    let x := shl 64 v 4 in
    [N.lor (shr (as_u8 x) 4) 224; as_u8 (shr x 8); as_u8 (shr x 16); as_u8 (shr x 24)]
  else if lz <=? 49 then
    let x := shl 64 v 3 in
    [N.lor (shr (as_u8 x) 3) 192; as_u8 (shr x 8); as_u8 (shr x 16)]
  else if lz <=? 56 then
    let x := shl 64 v 2 in
    [N.lor (shr (as_u8 x) 2) 128; as_u8 (shr x 8)]
  else [as_u8 v].

(** prefix_varint.rs:18-22 decode_prefix *)
Definition dec_prefix (e : derr) : prog N :=
  ReadExact 1 e (fun b => Ret (at_ b 0)).

(** prefix_varint.rs:38-48 *)
Definition dec_u8 (e : derr) : prog N :=
  p <- dec_prefix e ;;
  if p <? 128 then Ret p
  else ReadExact 1 e (fun b => Ret (at_ b 0)).

(** prefix_varint.rs:76-92 *)
Definition dec_u16 (e : derr) : prog N :=
  p <- dec_prefix e ;;
  let l := lead1_u8 p in
  if l =? 0 then Ret p
  else if l =? 1 then
    ReadExact 1 e (fun b => Ret (N.lor (N.land p 63) (shl 16 (at_ b 0) 6)))
  else ReadExact 2 e (fun b => Ret (of_le b)).

(** prefix_varint.rs:135-163 *)
Definition dec_u32 (e : derr) : prog N :=
  p <- dec_prefix e ;;
  let l := lead1_u8 p in
  if l =? 0 then Ret p
  else if l =? 1 then
    ReadExact 1 e (fun b => Ret (N.lor (N.land p 63) (shl 32 (at_ b 0) 6)))
  else if l =? 2 then
    ReadExact 2 e (fun b => Ret (N.lor (N.land p 31) (shl 32 (of_le b) 5)))
  else if l =? 3 then
    ReadExact 3 e (fun b =>
      let v := N.lor (shl 32 (at_ b 2) 16) (of_le [at_ b 0; at_ b 1]) in
      Ret (N.lor (N.land p 15) (shl 32 v 4)))
  else ReadExact 4 e (fun b => Ret (of_le b)).

(** prefix_varint.rs:247-300 *)
Definition dec_u64 (e : derr) : prog N :=
  p <- dec_prefix e ;;
  let l := lead1_u8 p in
  if l =? 0 then Ret p
  else if l =? 1 then
    ReadExact 1 e (fun b => Ret (N.lor (N.land p 63) (shl 64 (at_ b 0) 6)))
  else if l =? 2 then
    ReadExact 2 e (fun b => Ret (N.lor (N.land p 31) (shl 64 (of_le b) 5)))
  else if l =? 3 then
    ReadExact 3 e (fun b =>
      let v := N.lor (shl 64 (at_ b 2) 16) (of_le [at_ b 0; at_ b 1]) in
      Ret (N.lor (N.land p 15) (shl 64 v 4)))
  else if l =? 4 then
    ReadExact 4 e (fun b => Ret (N.lor (N.land p 7) (shl 64 (of_le b) 3)))
  else if l =? 5 then
    ReadExact 5 e (fun b =>
      let v := N.lor (shl 64 (at_ b 4) 32) (of_le [at_ b 0; at_ b 1; at_ b 2; at_ b 3]) in
      Ret (N.lor (N.land p 3) (shl 64 v 2)))
  else if l =? 6 then
    ReadExact 6 e (fun b =>
      let v := N.lor (shl 64 (of_le [at_ b 4; at_ b 5]) 32) (of_le [at_ b 0; at_ b 1; at_ b 2; at_ b 3]) in
      Ret (N.lor (N.land p 1) (shl 64 v 1)))
  else if l =? 7 then
    ReadExact 7 e (fun b => Ret (shr (of_le (p :: b)) 8))
  else ReadExact 8 e (fun b => Ret (of_le b)).

(** ** zigzag.rs. Signed values are [Z]; [as_u w z] is [z as uw], [as_i w v] is [v as iw]. *)
Definition as_u (w : N) (z : Z) : N := Z.to_N (z mod 2 ^ Z.of_N w).
Definition as_i (w : N) (v : N) : Z := wrap_s w (Z.of_N v).

(** zigzag.rs:20-22 (i64), 30-32 (i32), 40-42 (i16), 50-52 (i8):
    ((self << 1) ^ (self >> (w-1))) as uw. The shift left drops the top bit ([wrap_s]),
    the shift right is arithmetic. *)
Definition enc_zigzag (w : N) (z : Z) : N :=
  as_u w (Z.lxor (wrap_s w (Z.shiftl z 1)) (Z.shiftr z (Z.of_N w - 1))).

(** zigzag.rs:24-26, 34-36, 44-46, 54-56: (value >> 1) as iw ^ (-(value as iw & 1)) *)
Definition dec_zigzag (w : N) (v : N) : Z :=
  Z.lxor (as_i w (shr v 1)) (wrap_s w (- Z.land (as_i w v) 1)).
