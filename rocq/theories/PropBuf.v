(** * The varint encoder's buffers: C65; the varint of u8 in C02, C03, C05. *)
From Verif Require Import Base BaseFacts Varint VarintFacts SpecVarint VarintBuf VarintBufFacts.
Local Open Scope N_scope.

(** ** C65 *)
(** Whatever the buffer held, the encoder does not panic, writes the encoding at its start, leaves the rest
    of the buffer alone and returns the length of the encoding. *)
Theorem C65_buffer :
  (forall v buf, v < 2 ^ 8 -> length buf = 2%nat ->
     put_u8 v buf = Some (varint_bytes 1 v ++ skipn (length (varint_bytes 1 v)) buf, length (varint_bytes 1 v))) /\
  (forall v buf, v < 2 ^ 16 -> length buf = 3%nat ->
     put_u16 v buf = Some (varint_bytes 2 v ++ skipn (length (varint_bytes 2 v)) buf, length (varint_bytes 2 v))) /\
  (forall v buf, v < 2 ^ 32 -> length buf = 5%nat ->
     put_u32 v buf = Some (varint_bytes 4 v ++ skipn (length (varint_bytes 4 v)) buf, length (varint_bytes 4 v))) /\
  (forall v buf, v < 2 ^ 64 -> length buf = 9%nat ->
     put_u64 v buf = Some (varint_bytes 8 v ++ skipn (length (varint_bytes 8 v)) buf, length (varint_bytes 8 v))).
Proof.
  split; [|split; [|split]]; intros v buf Hv Hb.
  - rewrite put_u8_enc, enc_u8_spec by assumption. reflexivity.
  - rewrite put_u16_enc, enc_u16_spec by assumption. reflexivity.
  - rewrite put_u32_enc, enc_u32_spec by assumption. reflexivity.
  - rewrite put_u64_enc, enc_u64_spec by assumption. reflexivity.
Qed.
(** The slice taken by the callers is the encoding. *)
Theorem C65_vec :
  (forall v, v < 2 ^ 8 -> put_vec 2 (put_u8 v) = Some (varint_bytes 1 v)) /\
  (forall v, v < 2 ^ 16 -> put_vec 3 (put_u16 v) = Some (varint_bytes 2 v)) /\
  (forall v, v < 2 ^ 32 -> put_vec 5 (put_u32 v) = Some (varint_bytes 4 v)) /\
  (forall v, v < 2 ^ 64 -> put_vec 9 (put_u64 v) = Some (varint_bytes 8 v)).
Proof.
  split; [|split; [|split]]; intros v Hv.
  - rewrite <- enc_u8_spec by exact Hv. apply (put_vec_spec 2 put_u8); [apply put_u8_enc|]. unfold enc_u8. destruct (v <? 128); cbn; lia.
  - rewrite <- enc_u16_spec by exact Hv. apply (put_vec_spec 3 put_u16); [apply put_u16_enc|].
    rewrite enc_u16_spec by exact Hv. apply (varint_bytes_len 2); [unfold varint_m; auto|exact Hv].
  - rewrite <- enc_u32_spec by exact Hv. apply (put_vec_spec 5 put_u32); [apply put_u32_enc|].
    rewrite enc_u32_spec by exact Hv. apply (varint_bytes_len 4); [unfold varint_m; auto|exact Hv].
  - rewrite <- enc_u64_spec by exact Hv. apply (put_vec_spec 9 put_u64); [apply put_u64_enc|].
    rewrite enc_u64_spec by exact Hv. apply (varint_bytes_len 8); [unfold varint_m; auto|exact Hv].
Qed.
(** The buffers are as small as possible. *)
Theorem C65_smaller_buffer_refuted :
  (exists v, v < 2 ^ 8 /\ put_u8 v [0] = None) /\ (exists v, v < 2 ^ 16 /\ put_u16 v (repeat 0 2) = None) /\
  (exists v, v < 2 ^ 32 /\ put_u32 v (repeat 0 4) = None) /\ (exists v, v < 2 ^ 64 /\ put_u64 v (repeat 0 8) = None).
Proof.
  split; [exists 255; split; [lia|reflexivity]|]. split; [exists 65535; split; [lia|reflexivity]|].
  split; [exists 4294967295; split; [lia|reflexivity]|]. exists 18446744073709551615; split; [lia|reflexivity].
Qed.
Example C65_ex : put_u16 300 [9; 9; 9] = Some ([172; 4; 9], 2%nat) /\ put_u32 5 [1; 2; 3; 4; 6] = Some ([5; 2; 3; 4; 6], 1%nat) /\
  put_vec 9 (put_u64 (2 ^ 56)) = Some [255; 0; 0; 0; 0; 0; 0; 0; 1].
Proof. repeat split. Qed.
Print Assumptions C65_buffer.
Print Assumptions C65_vec.
Print Assumptions C65_smaller_buffer_refuted.

(** ** C02, C03, C05: the varint codec of u8 *)
Theorem C02_u8_wire_format : forall v, v < 2 ^ 8 -> enc_u8 v = varint_bytes 1 v /\
  ((length (varint_bytes 1 v) <= 1)%nat <-> v < 128) /\ (length (varint_bytes 1 v) <= 2)%nat.
Proof.
  intros v H. split; [apply enc_u8_spec, H|]. rewrite <- enc_u8_spec by exact H. unfold enc_u8.
  destruct (N.ltb_spec v 128); cbn [length]; (split; [split; lia|lia]).
Qed.
Theorem C03_u8_decode_total : forall c e s, bytes_ok s -> run c (dec_u8 e) s =
  match s with
  | [] => OErr e
  | p :: t => let k := varint_extra 1 p in
    if (length t <? k)%nat then OErr e else OOk (varint_value 1 p (firstn k t)) (skipn k t)
  end.
Proof. exact dec_u8_run. Qed.
Theorem C05_u8_reencode_not_longer : forall c e s v r, bytes_ok s -> run c (dec_u8 e) s = OOk v r ->
  (length (enc_u8 v) + length r <= length s)%nat.
Proof.
  intros c e s v r Hs H. rewrite dec_u8_run in H by exact Hs. destruct s as [|p t]; [discriminate|]. cbv zeta in H.
  destruct (Nat.ltb_spec (length t) (varint_extra 1 p)) as [L|L]; [discriminate|]. injection H as <- <-.
  pose proof (u8_reencode p t Hs L) as B. generalize dependent (varint_value 1 p (firstn (varint_extra 1 p) t)). intros v B.
  rewrite skipn_length. cbn [length]. assert (E : (length (enc_u8 v) <= length (varint_bytes 1 v))%nat); [|lia].
  unfold enc_u8, varint_bytes. change (2 ^ (7 * N.of_nat 1)) with 128. destruct (v <? 128); cbn; lia.
Qed.
Example C03_u8_ex : bytes_ok [133; 5; 9] /\ (forall c e, run c (dec_u8 e) [133; 5; 9] = OOk 5 [9]) /\ enc_u8 5 = [5] /\
  (forall c e, run c (dec_u8 e) [133] = OErr e).
Proof. split; [repeat constructor|repeat split; reflexivity]. Qed.
Print Assumptions C02_u8_wire_format.
Print Assumptions C03_u8_decode_total.
Print Assumptions C05_u8_reencode_not_longer.
