(** * Integers on the wire: C01 - C05. *)
From Verif Require Import Base BaseFacts Varint Serde SpecVarint PrimFacts VarintFacts ZigZagFacts
  SpecDecode WireFacts.

(** ** C01 *)
Theorem C01_u8_roundtrip : forall c n rest, n < 2 ^ 8 ->
  wresult (ser (SU8 n)) = WeOk /\ run c (de c DU8) (wbytes (ser (SU8 n)) ++ rest) = OOk (SU8 n) rest.
Proof.
  exact (fun c n rest _ => conj eq_refl (proj1 (parses_pmap _ _ _ SU8 _ _ (parses_byte c n)) rest)).
Qed.
Theorem C01_u16_roundtrip : forall c n rest, n < 2 ^ 16 ->
  wresult (ser (SU16 n)) = WeOk /\ run c (de c DU16) (wbytes (ser (SU16 n)) ++ rest) = OOk (SU16 n) rest.
Proof.
  intros c n rest H; split; [reflexivity|]. cbn [ser ser_u16 wr wbytes]. rewrite app_nil_r.
  exact (proj1 (parses_pmap _ _ _ SU16 _ _ (parses_u16 c ERead n H)) rest).
Qed.
Theorem C01_u32_roundtrip : forall c n rest, n < 2 ^ 32 ->
  wresult (ser (SU32 n)) = WeOk /\ run c (de c DU32) (wbytes (ser (SU32 n)) ++ rest) = OOk (SU32 n) rest.
Proof.
  intros c n rest H; split; [reflexivity|]. cbn [ser ser_u32 wr wbytes]. rewrite app_nil_r.
  exact (proj1 (parses_pmap _ _ _ SU32 _ _ (parses_u32 c ERead n H)) rest).
Qed.
Theorem C01_u64_roundtrip : forall c n rest, n < 2 ^ 64 ->
  wresult (ser (SU64 n)) = WeOk /\ run c (de c DU64) (wbytes (ser (SU64 n)) ++ rest) = OOk (SU64 n) rest.
Proof.
  intros c n rest H; split; [reflexivity|]. cbn [ser ser_u64 wr wbytes]. rewrite app_nil_r.
  exact (proj1 (parses_pmap _ _ _ SU64 _ _ (parses_u64 c ERead n H)) rest).
Qed.
(** The varint codec for u8 (prefix_varint.rs:25-48), not used by the serializer. *)
Theorem C01_u8_varint_roundtrip : forall c e n rest, n < 2 ^ 8 ->
  run c (dec_u8 e) (enc_u8 n ++ rest) = OOk n rest.
Proof. exact (fun c e n rest H => proj1 (parses_u8_varint c e n H) rest). Qed.
Example C01_ex : 300 < 2 ^ 16 /\ wbytes (ser (SU16 300)) = [172; 4]
  /\ wbytes (ser (SU64 (2 ^ 56))) = [255; 0; 0; 0; 0; 0; 0; 0; 1].
Proof. repeat split; reflexivity. Qed.
Print Assumptions C01_u8_roundtrip.
Print Assumptions C01_u16_roundtrip.
Print Assumptions C01_u32_roundtrip.
Print Assumptions C01_u64_roundtrip.
Print Assumptions C01_u8_varint_roundtrip.

(** ** C02 *)
(** The bytes are those of the arithmetic specification, ... *)
Theorem C02_wire_format :
  (forall v, v < 2 ^ 16 -> wbytes (ser (SU16 v)) = varint_bytes 2 v) /\
  (forall v, v < 2 ^ 32 -> wbytes (ser (SU32 v)) = varint_bytes 4 v) /\
  (forall v, v < 2 ^ 64 -> wbytes (ser (SU64 v)) = varint_bytes 8 v).
Proof.
  split; [|split]; intros v H; cbn [ser ser_u16 ser_u32 ser_u64 wr wbytes]; rewrite app_nil_r.
  - exact (enc_u16_spec v H).
  - exact (enc_u32_spec v H).
  - exact (enc_u64_spec v H).
Qed.
(** ... which take at most m+1 bytes, and j+1 bytes (j < m) exactly when 7(j+1) bits suffice. *)
Theorem C02_size : forall m v, m = 2%nat \/ m = 4%nat \/ m = 8%nat -> v < 2 ^ (8 * N.of_nat m) ->
  (length (varint_bytes m v) <= m + 1)%nat /\
  (forall j, (j < m)%nat ->
     (length (varint_bytes m v) <= j + 1)%nat <-> v < 2 ^ (7 * (N.of_nat j + 1))).
Proof.
  intros m v Hm Hv; split; [exact (varint_bytes_len m v Hm Hv)|].
  exact (fun j Hj => varint_bytes_length_iff m v j Hm Hv Hj).
Qed.
Example C02_ex : varint_bytes 4 16384 = [192; 0; 2] /\ varint_bytes 2 16384 = [192; 0; 64].
Proof. split; reflexivity. Qed.
Print Assumptions C02_wire_format.
Print Assumptions C02_size.

(** ** C03 *)
Theorem C03_decode_total : forall c s, bytes_ok s ->
  run c (de c DU16) s = varint_decode 2 SU16 s /\
  run c (de c DU32) s = varint_decode 4 SU32 s /\
  run c (de c DU64) s = varint_decode 8 SU64 s.
Proof.
  intros c s H; repeat split; apply varint_decode_run.
  - exact (dec_u16_run c ERead s (bytes_guard 2 s H)).
  - exact (dec_u32_run c ERead s (bytes_guard 4 s H)).
  - exact (dec_u64_run c ERead s (bytes_guard 8 s H)).
Qed.
Theorem C03_in_range : forall c s, bytes_ok s ->
  (forall v r, run c (de c DU16) s = OOk (SU16 v) r -> v < 2 ^ 16) /\
  (forall v r, run c (de c DU32) s = OOk (SU32 v) r -> v < 2 ^ 32) /\
  (forall v r, run c (de c DU64) s = OOk (SU64 v) r -> v < 2 ^ 64).
Proof.
  intros c s Hs; repeat split; intros v r H; apply run_pmap_ok in H as (a & H & E); injection E as ->.
  - exact (yields_u16 c ERead s a r Hs H).
  - exact (yields_u32 c ERead s a r Hs H).
  - exact (yields_u64 c ERead s a r Hs H).
Qed.
Example C03_ex : bytes_ok [200; 1; 2; 3] /\
  (forall c, run c (de c DU16) [200; 1; 2; 3] = OOk (SU16 513) [3]) /\
  (forall c, run c (de c DU32) [200; 1] = OErr ERead).
Proof. split; [repeat constructor|split; reflexivity]. Qed.
Print Assumptions C03_decode_total.
Print Assumptions C03_in_range.

(** ** C04 *)
(** The width-w zigzag of the code is the arithmetic one, a bijection between iw and uw. *)
Theorem C04_zigzag : forall w, 1 <= w ->
  (forall z, in_s w z = true ->
     enc_zigzag w z = zigzag z /\ zigzag z < 2 ^ w /\ dec_zigzag w (enc_zigzag w z) = z) /\
  (forall v, v < 2 ^ w ->
     dec_zigzag w v = unzigzag v /\ in_s w (unzigzag v) = true /\ enc_zigzag w (dec_zigzag w v) = v).
Proof.
  intros w Hw; split.
  - intros z Hz. split; [exact (enc_zigzag_spec w z Hw Hz)|]. split; [exact (zigzag_bound w z Hw Hz)|].
    exact (dec_enc_zigzag w z Hw Hz).
  - intros v Hv. split; [exact (dec_zigzag_spec w v Hw Hv)|]. split; [exact (unzigzag_in w v Hw Hv)|].
    rewrite (dec_zigzag_spec w v Hw Hv), (enc_zigzag_spec w _ Hw (unzigzag_in w v Hw Hv)).
    exact (zigzag_unzigzag v).
Qed.
Theorem C04_signed_roundtrip : forall c rest,
  (forall z, in_s 8 z = true -> wresult (ser (SI8 z)) = WeOk /\
     run c (de c DI8) (wbytes (ser (SI8 z)) ++ rest) = OOk (SI8 z) rest) /\
  (forall z, in_s 16 z = true -> wresult (ser (SI16 z)) = WeOk /\
     run c (de c DI16) (wbytes (ser (SI16 z)) ++ rest) = OOk (SI16 z) rest) /\
  (forall z, in_s 32 z = true -> wresult (ser (SI32 z)) = WeOk /\
     run c (de c DI32) (wbytes (ser (SI32 z)) ++ rest) = OOk (SI32 z) rest) /\
  (forall z, in_s 64 z = true -> wresult (ser (SI64 z)) = WeOk /\
     run c (de c DI64) (wbytes (ser (SI64 z)) ++ rest) = OOk (SI64 z) rest).
Proof.
  intros c rest; repeat split; cbn [ser ser_i16 ser_i32 ser_i64 wr wbytes]; rewrite ?app_nil_r.
  - exact (proj1 (parses_pmap _ _ _ SI8 _ _ (parses_i8 c z H)) rest).
  - exact (proj1 (parses_pmap _ _ _ SI16 _ _ (parses_de_i16 c z H)) rest).
  - exact (proj1 (parses_pmap _ _ _ SI32 _ _ (parses_de_i32 c z H)) rest).
  - exact (proj1 (parses_pmap _ _ _ SI64 _ _ (parses_de_i64 c z H)) rest).
Qed.
(** Wire format of signed integers: two's complement byte for i8, zigzag varint above. *)
Theorem C04_signed_wire :
  (forall z, in_s 8 z = true -> wbytes (ser (SI8 z)) = [Z.to_N (z mod 256)]) /\
  (forall z, in_s 16 z = true -> wbytes (ser (SI16 z)) = varint_bytes 2 (zigzag z)) /\
  (forall z, in_s 32 z = true -> wbytes (ser (SI32 z)) = varint_bytes 4 (zigzag z)) /\
  (forall z, in_s 64 z = true -> wbytes (ser (SI64 z)) = varint_bytes 8 (zigzag z)).
Proof.
  assert (w16 : 1 <= 16) by discriminate. assert (w32 : 1 <= 32) by discriminate.
  assert (w64 : 1 <= 64) by discriminate.
  split; [|split; [|split]]; intros z H; cbn [ser ser_i16 ser_i32 ser_i64 wr wbytes]; rewrite ?app_nil_r.
  - exact eq_refl.
  - rewrite (enc_zigzag_spec 16 z w16 H). exact (enc_u16_spec _ (zigzag_bound 16 z w16 H)).
  - rewrite (enc_zigzag_spec 32 z w32 H). exact (enc_u32_spec _ (zigzag_bound 32 z w32 H)).
  - rewrite (enc_zigzag_spec 64 z w64 H). exact (enc_u64_spec _ (zigzag_bound 64 z w64 H)).
Qed.
Example C04_ex : in_s 16 (-32768) = true /\ zigzag (-32768) = 65535
  /\ wbytes (ser (SI16 (-32768))) = [192; 255; 255] /\ wbytes (ser (SI8 (-1))) = [255].
Proof. repeat split; reflexivity. Qed.
Print Assumptions C04_zigzag.
Print Assumptions C04_signed_roundtrip.
Print Assumptions C04_signed_wire.

(** ** C05 *)
(** v and what is left of the input never take more room than the input did. *)
Theorem C05_reencode_not_longer : forall c s, bytes_ok s ->
  (forall v r, run c (de c DU16) s = OOk (SU16 v) r ->
     (length (wbytes (ser (SU16 v))) + length r <= length s)%nat) /\
  (forall v r, run c (de c DU32) s = OOk (SU32 v) r ->
     (length (wbytes (ser (SU32 v))) + length r <= length s)%nat) /\
  (forall v r, run c (de c DU64) s = OOk (SU64 v) r ->
     (length (wbytes (ser (SU64 v))) + length r <= length s)%nat).
Proof.
  intros c s Hs; repeat split; intros v r H; cbn [ser ser_u16 ser_u32 ser_u64 wr wbytes]; rewrite app_nil_r.
  - apply (reencode_len 2 c (dec_u16 ERead) enc_u16 SU16); [auto|exact Hs|congruence| |exact enc_u16_spec|exact H].
    exact (dec_u16_run c ERead s (bytes_guard 2 s Hs)).
  - apply (reencode_len 4 c (dec_u32 ERead) enc_u32 SU32); [auto|exact Hs|congruence| |exact enc_u32_spec|exact H].
    exact (dec_u32_run c ERead s (bytes_guard 4 s Hs)).
  - apply (reencode_len 8 c (dec_u64 ERead) enc_u64 SU64); [auto|exact Hs|congruence| |exact enc_u64_spec|exact H].
    exact (dec_u64_run c ERead s (bytes_guard 8 s Hs)).
Qed.
(** Uniqueness of accepted encodings is false: two different byte strings, both accepted in full,
    give the same number. *)
Theorem C05_unique_encoding_refuted : exists v s1 s2, s1 <> s2 /\ bytes_ok s1 /\ bytes_ok s2 /\
  (forall c, run c (de c DU16) s1 = OOk (SU16 v) []) /\ (forall c, run c (de c DU16) s2 = OOk (SU16 v) []) /\
  (forall c, run c (de c DU32) s1 = OOk (SU32 v) []) /\ (forall c, run c (de c DU32) s2 = OOk (SU32 v) []) /\
  (forall c, run c (de c DU64) s1 = OOk (SU64 v) []) /\ (forall c, run c (de c DU64) s2 = OOk (SU64 v) []).
Proof.
  exists 5, [5], [133; 0]. split; [discriminate|].
  repeat split; repeat constructor.
Qed.
Example C05_ex : bytes_ok [133; 0; 9] /\ (forall c, run c (de c DU32) [133; 0; 9] = OOk (SU32 5) [9])
  /\ wbytes (ser (SU32 5)) = [5].
Proof. repeat split; repeat constructor. Qed.
Print Assumptions C05_reencode_not_longer.
Print Assumptions C05_unique_encoding_refuted.
