(** * Declared lengths on 32- and 64-bit targets: C44. *)
From Verif Require Import Base BaseFacts SpecVarint Varint VarintFacts ZigZagFacts Utf8 Serde PrimFacts SerdeFacts SerdeProps SpecMap Header Body ArchFacts ExSerde.

(** 64-bit: exactly the declared number of bytes. *)
Theorem C44_declared_length_64 : forall c n s v r, wf_cfg c -> usize_bits c = 64 -> 4096 <= heap_limit c ->
  n < 2 ^ 64 -> bytes_ok s ->
  (run c (de c DString) (varint_bytes 8 n ++ s) = OOk v r -> exists bs, v = SStr bs /\ lenN bs = n /\ s = bs ++ r) /\
  (run c (de c DByteBuf) (varint_bytes 8 n ++ s) = OOk v r -> exists bs, v = SBytes bs /\ lenN bs = n /\ s = bs ++ r).
Proof.
  intros c n s v r Hw Hc Hh Hn Hs. assert (Hu : as_usize c n = n) by (apply as_usize_id; rewrite Hc; exact Hn). split.
  - rewrite string_any by assumption. apply string_exact, Hu.
  - rewrite bytebuf_any by assumption. rewrite buf_total_exact by exact Hu.
    destruct (N.ltb_spec (lenN s) n); [discriminate|]. intros E; injection E as <- <-.
    exists (takeN n s). split; [reflexivity|]. split; [rewrite lenN_takeN; lia|]. symmetry; apply take_drop.
Qed.
(** 32-bit: a string declared longer by any multiple of 2^32 is accepted when the input ends there. *)
Theorem C44_string_32 : forall c k bs, wf_cfg c -> usize_bits c = 32 -> bytes_ok bs -> 1 <= k ->
  k * 2 ^ 32 + lenN bs < 2 ^ 64 -> lenN bs < 2 ^ 32 -> utf8_valid bs = true ->
  run c (de c DString) (varint_bytes 8 (k * 2 ^ 32 + lenN bs) ++ bs) = OOk (SStr bs) [].
Proof.
  intros c k bs Hw Hc Hb Hk Hn Hl Hu. rewrite string_any by assumption. unfold STR_MAX.
  change (2 ^ 32) with 4294967296 in *. destruct (N.ltb_spec (k * 4294967296 + lenN bs) 128); [lia|].
  rewrite takeN_all, dropN_all by lia. rewrite Hu. unfold as_usize. rewrite Hc, N.add_comm. change (2 ^ 32) with 4294967296.
  rewrite N.mod_add, N.mod_small by lia. rewrite N.eqb_refl. reflexivity.
Qed.
(** 32-bit: a byte buffer declared k * 2^32 + m takes m bytes rounded up to a multiple of 4096. *)
Theorem C44_bytes_32 : forall c k m s, wf_cfg c -> usize_bits c = 32 -> 4096 <= heap_limit c -> bytes_ok s -> 1 <= k ->
  k * 2 ^ 32 + m < 2 ^ 64 -> m < 2 ^ 32 ->
  let n := 4096 * ((m + 4095) / 4096) in
  run c (de c DByteBuf) (varint_bytes 8 (k * 2 ^ 32 + m) ++ s) =
  if lenN s <? n then OErr ERead else OOk (SBytes (takeN n s)) (dropN n s).
Proof.
  intros c k m s Hw Hc Hh Hs Hk Hn Hm n. rewrite bytebuf_any by assumption.
  replace (buf_total c (k * 2 ^ 32 + m)) with n; [reflexivity|]. symmetry. apply buf_total_32; assumption.
Qed.
(** 32-bit: element counts are taken modulo 2^32. *)
Theorem C44_counts_32 : forall c k m d s, usize_bits c = 32 -> k * 2 ^ 32 + m < 2 ^ 64 -> m < 2 ^ 32 ->
  run c (de c (DVec d)) (varint_bytes 8 (k * 2 ^ 32 + m) ++ s) = run c (de c (DVec d)) (varint_bytes 8 m ++ s) /\
  run c (de c (DMap d)) (varint_bytes 8 (k * 2 ^ 32 + m) ++ s) = run c (de c (DMap d)) (varint_bytes 8 m ++ s).
Proof.
  intros c k m d s Hc Hn Hm. assert (Hm' : m < 2 ^ 64) by (change (2 ^ 64) with (2 ^ 32 * 2 ^ 32) in *; lia).
  assert (E : as_usize c (k * 2 ^ 32 + m) = as_usize c m).
  { unfold as_usize. rewrite Hc, N.add_comm, N.mod_add; [reflexivity|discriminate]. }
  cbn [de]. unfold de_vec, de_map. rewrite !run_pmap, !run_bind, !run_u64_bytes by assumption. cbn [obind]. rewrite E. split; reflexivity.
Qed.
(** A usize or isize written on a 64-bit target is read exactly when it fits the target that reads;
    no value is truncated. *)
Theorem C44_sizes : forall c n z s, n < 2 ^ 64 -> (- 2 ^ 63 <= z < 2 ^ 63)%Z ->
  let bits := Z.of_N (usize_bits c) in
  (n < 2 ^ usize_bits c -> run c (de c DUsize) (wbytes (ser (SU64 n)) ++ s) = OOk (SU64 n) s) /\
  (2 ^ usize_bits c <= n -> run c (de c DUsize) (wbytes (ser (SU64 n)) ++ s) = OErr EMsg) /\
  ((- 2 ^ (bits - 1) <= z < 2 ^ (bits - 1))%Z -> run c (de c DIsize) (wbytes (ser (SI64 z)) ++ s) = OOk (SI64 z) s) /\
  (~ (- 2 ^ (bits - 1) <= z < 2 ^ (bits - 1))%Z -> run c (de c DIsize) (wbytes (ser (SI64 z)) ++ s) = OErr EMsg).
Proof.
  intros c n z s Hn Hz bits. assert (Hi : in_s 64 z = true) by (apply in_s_iff; exact Hz).
  rewrite run_usize, run_isize by assumption.
  destruct (N.ltb_spec n (2 ^ usize_bits c)); (split; [first [reflexivity|lia]|split; [first [reflexivity|lia]|]]);
  (destruct (in_s (usize_bits c) z) eqn:E; split; intros H'; try reflexivity; exfalso; [apply H', in_s_iff, E|apply in_s_iff in H'; congruence]).
Qed.
(** Bodies count to the declared number on every target: no shorter array or map is accepted. *)
Theorem C44_body_counts : forall c h n s b r, n < 2 ^ 64 -> bytes_ok s ->
  (run c (bde c (HArray h)) (varint_bytes 8 n ++ s) = OOk b r -> exists l, b = BArray l /\ lenN l = n) /\
  (run c (bde c (HMap h)) (varint_bytes 8 n ++ s) = OOk b r ->
     exists m es, b = BMap m /\ lenN es = n /\ forall k, last_binding k m = last_binding k es).
Proof. intros c h n s b r Hn Hs. split; [apply body_array_count|apply body_map_count]; assumption. Qed.
Example C44_ex_body : varint_bytes 8 (2 ^ 32 + 1) = [241; 0; 0; 0; 32] /\
  run c32 (de c32 (DVec DU8)) [241; 0; 0; 0; 32; 7] = OOk (SSeq (Some 1) [SU8 7]) [] /\
  run c32 (bde c32 (HArray HUInt8)) [1; 7; 9] = OOk (BArray [BUInt8 7]) [9] /\
  run c32 (bde c32 (HMap HUInt8)) [2; 1; 97; 7; 1; 97; 9] = OOk (BMap [([97], BUInt8 9)]) [].
Proof. repeat split; vm_compute; reflexivity. Qed.
(** So truncation (C11) and locality (C12) fail on 32-bit targets. *)
Theorem C44_truncation_detected_32_refuted : exists c s x v, wf_cfg c /\ usize_bits c = 32 /\ bytes_ok (s ++ [x]) /\
  run c (de c DString) s = OOk v [] /\ run c (de c DString) (s ++ [x]) = OErr ERead.
Proof.
  exists c32, [245; 0; 0; 0; 32; 104; 101; 108; 108; 111], 33, (SStr [104; 101; 108; 108; 111]).
  split; [split; [left; reflexivity|split; cbn; lia]|]. split; [reflexivity|].
  split; [apply bytes_okb_ok; reflexivity|]. split; vm_compute; reflexivity.
Qed.
Example C44_ex : varint_bytes 8 (1 * 2 ^ 32 + 5) = [245; 0; 0; 0; 32] /\
  run c32 (de c32 DString) [245; 0; 0; 0; 32; 104; 101; 108; 108; 111] = OOk (SStr [104; 101; 108; 108; 111]) [] /\
  run c64 (de c64 DString) [245; 0; 0; 0; 32; 104; 101; 108; 108; 111] = OErr ERead /\
  run c32 (de c32 DByteBuf) [240; 0; 0; 0; 32; 7] = OOk (SBytes []) [7] /\
  run c64 (de c64 DByteBuf) [240; 0; 0; 0; 32; 7] = OErr ERead /\
  run c32 (de c32 DUsize) (wbytes (ser (SU64 4294967295)) ++ [7]) = OOk (SU64 4294967295) [7] /\
  run c32 (de c32 DUsize) (wbytes (ser (SU64 4294967296)) ++ [7]) = OErr EMsg.
Proof. repeat split; vm_compute; reflexivity. Qed.
Print Assumptions C44_declared_length_64.
Print Assumptions C44_string_32.
Print Assumptions C44_bytes_32.
Print Assumptions C44_counts_32.
Print Assumptions C44_sizes.
Print Assumptions C44_body_counts.
Print Assumptions C44_truncation_detected_32_refuted.
