(** * Big numbers: C34 - C36, and the big number part of C37. *)
From Coq Require Import QArith.
From Verif Require Import Base BaseFacts SpecVarint SpecBig Serde Big Time ExSerde BigFacts TimeFacts.
Local Open Scope N_scope.

(** ** C34 *)
(** The wrapper holds the unique shortest byte string whose value is the integer. *)
Theorem C34_uint_bytes : forall n bs, bs = biguint_from n <-> shortest le_value n bs.
Proof. intros n bs; split; [intros ->; apply biguint_from_shortest|apply biguint_unique]. Qed.
Theorem C34_int_bytes : forall z bs, bs = bigint_from z <-> shortest signed_value z bs.
Proof. intros z bs; split; [intros ->; apply bigint_from_shortest|apply bigint_unique]. Qed.
(** Conversion back gives the value of any byte string, shortest or not. *)
Theorem C34_into : forall bs, bytes_ok bs -> biguint_into bs = le_value bs /\ bigint_into bs = signed_value bs.
Proof. intros bs H; split; [reflexivity|apply from_signed_spec, H]. Qed.
Theorem C34_uint_roundtrip : forall c n rest, wf_cfg c -> lenN (biguint_from n) < 2 ^ usize_bits c ->
  wresult (ser (big_sval (biguint_from n))) = WeOk /\
  exists w, run c (de_big c) (wbytes (ser (big_sval (biguint_from n))) ++ rest) = OOk w rest /\ biguint_into w = n.
Proof.
  intros c n rest Hc Hl. destruct (big_roundtrip c (biguint_from n) rest Hc Hl) as [H1 H2]. split; [exact H1|].
  eexists; split; [exact H2|]. apply (biguint_from_shortest n).
Qed.
Theorem C34_int_roundtrip : forall c z rest, wf_cfg c -> lenN (bigint_from z) < 2 ^ usize_bits c ->
  wresult (ser (big_sval (bigint_from z))) = WeOk /\
  exists w, run c (de_big c) (wbytes (ser (big_sval (bigint_from z))) ++ rest) = OOk w rest /\ bigint_into w = z.
Proof.
  intros c z rest Hc Hl. destruct (big_roundtrip c (bigint_from z) rest Hc Hl) as [H1 H2]. split; [exact H1|].
  eexists; split; [exact H2|]. destruct (bigint_from_shortest z) as (B & V & _). rewrite <- V at 2. apply from_signed_spec, B.
Qed.
Theorem C34_equality : (forall a b, biguint_from a = biguint_from b <-> a = b) /\ (forall a b, bigint_from a = bigint_from b <-> a = b).
Proof.
  split; intros a b; (split; [|intros ->; reflexivity]); intros E.
  - destruct (biguint_from_shortest a) as (_ & <- & _), (biguint_from_shortest b) as (_ & <- & _). rewrite E; reflexivity.
  - destruct (bigint_from_shortest a) as (_ & <- & _), (bigint_from_shortest b) as (_ & <- & _). rewrite E; reflexivity.
Qed.
Example C34_ex :
  map bigint_from [0; 127; 128; -128; -129; 2 ^ 64; - 2 ^ 63]%Z =
    [[]; [127]; [128; 0]; [128]; [127; 255]; [0; 0; 0; 0; 0; 0; 0; 0; 1]; [0; 0; 0; 0; 0; 0; 0; 128]] /\
  map biguint_from [0; 255; 256; 2 ^ 64] = [[]; [255]; [0; 1]; [0; 0; 0; 0; 0; 0; 0; 0; 1]] /\
  bigint_into [255; 255] = (-1)%Z /\ signed_value [255; 255] = (-1)%Z /\
  wbytes (ser (big_sval (bigint_from (-129)))) = [2; 127; 255].
Proof. repeat split; vm_compute; reflexivity. Qed.
Print Assumptions C34_uint_bytes.
Print Assumptions C34_int_bytes.
Print Assumptions C34_into.
Print Assumptions C34_uint_roundtrip.
Print Assumptions C34_int_roundtrip.
Print Assumptions C34_equality.

(** ** C35 *)
(** The same write_all calls with the same bytes. *)
Theorem C35_same_writes : forall c,
  (forall n, ser (fmt_biguint_sval n) = ser (big_sval (biguint_from n))) /\
  (forall z, ser (fmt_bigint_sval z) = ser (big_sval (bigint_from z))) /\
  (forall d, ser (fmt_date_sval c d) = ser (date_sval c (fst (date_from d)) (snd (date_from d)))) /\
  (forall t, ser (fmt_datetime_sval t) = ser (date_time_sval (fst (datetime_from t)) (snd (datetime_from t)))) /\
  (forall v w, bigdecimal_from c v = Some w -> ser (fmt_bigdecimal_sval c v) = ser (big_decimal_sval (fst w) (snd w))) /\
  (forall v, bigdecimal_from c v = None -> ser (fmt_bigdecimal_sval c v) = WPanic POverflow).
Proof.
  intros c. split; [exact ser_fmt_biguint|]. split; [exact ser_fmt_bigint|]. split; [reflexivity|]. split; [reflexivity|].
  split; [intros v w H|intros v H]; pose proof (ser_fmt_bigdecimal c v) as E; rewrite H in E; exact E.
Qed.
(** The same results on every input. *)
Theorem C35_same_reads : forall c s,
  run c (fmt_de_biguint c) s =
    match run c (de_big c) s with OOk w r => OOk (biguint_into w) r | OErr e => OErr e | OPanic p => OPanic p end /\
  run c (fmt_de_bigint c) s =
    match run c (de_big c) s with OOk w r => OOk (bigint_into w) r | OErr e => OErr e | OPanic p => OPanic p end /\
  run c (fmt_de_date c) s =
    match run c (de_date c) s with
    | OOk w r => match date_try_into w with Some d => OOk d r | None => OErr EMsg end
    | OErr e => OErr e | OPanic p => OPanic p end /\
  run c fmt_de_datetime s =
    match run c de_date_time s with
    | OOk w r => match datetime_try_into w with COk t => OOk t r | CErr => OErr EMsg | CPanic p => OPanic p end
    | OErr e => OErr e | OPanic p => OPanic p end.
Proof.
  intros c s. split; [|split; [|split; [apply fmt_de_date_eq|apply fmt_de_datetime_eq]]]; (unfold fmt_de_biguint, fmt_de_bigint; rewrite run_pmap; unfold de_big;
    destruct (run c (de_vec c de_u8) s); reflexivity).
Qed.
(** Decimals are read alike exactly when the digits are not a non-empty encoding of zero. *)
Theorem C35_decimal_reads : forall c s, bytes_ok s ->
  (run c (fmt_de_bigdecimal c) s =
     match run c (de_big_decimal c) s with OOk w r => OOk (bigdecimal_into w) r | OErr e => OErr e | OPanic p => OPanic p end <->
   forall bs r, run c (de_vec c de_u8) s = OOk bs r -> bs = [] \/ signed_value bs <> 0%Z).
Proof. exact fmt_de_bigdecimal_iff. Qed.
Theorem C35_decimal_same_reads_refuted : exists c s, bytes_ok s /\
  run c (fmt_de_bigdecimal c) s = OOk (0, 0)%Z [6] /\
  run c (de_big_decimal c) s = OOk ([0], 3%Z) [].
Proof. exists c64, [1; 0; 6]. split; [repeat constructor; lia|]. split; vm_compute; reflexivity. Qed.
Example C35_ex :
  run c64 (fmt_de_bigdecimal c64) [1; 5; 6; 9] = OOk (5, 3)%Z [9] /\ run c64 (de_big_decimal c64) [1; 5; 6; 9] = OOk ([5], 3%Z) [9] /\
  run c64 (fmt_de_date c64) [44; 41; 9] = OOk (2022%Z, 42) [9] /\ run c64 (fmt_de_date c64) [44; 173; 5] = OErr EMsg.
Proof. repeat split; vm_compute; reflexivity. Qed.
Print Assumptions C35_same_writes.
Print Assumptions C35_same_reads.
Print Assumptions C35_decimal_reads.
Print Assumptions C35_decimal_same_reads_refuted.

(** ** C36 *)
Theorem C36_wrapper_roundtrip : forall c v, wf_cfg c -> scale_room v ->
  exists w, bigdecimal_from c v = Some w /\ (dec_value (bigdecimal_into w) == dec_value v)%Q /\
    (lenN (fst w) < 2 ^ usize_bits c -> wresult (ser (big_decimal_sval (fst w) (snd w))) = WeOk /\
       forall rest, run c (de_big_decimal c) (wbytes (ser (big_decimal_sval (fst w) (snd w))) ++ rest) = OOk w rest).
Proof.
  intros c [d s] Hc Hr. destruct (Z.eq_dec d 0) as [->|Hd].
  - exists ([], 0%Z). split; [reflexivity|]. split.
    + transitivity 0%Q; [|symmetry]; apply dec_value_zero; reflexivity.
    + cbn [fst snd]. intros Hl. split; [reflexivity|]. intros rest. apply (big_decimal_roundtrip c [] 0 rest Hc Hl); reflexivity.
  - destruct (bigdecimal_from_spec c d s Hr Hd) as (d' & s' & E & M & Hs & V). rewrite E. eexists; split; [reflexivity|].
    pose proof (to_signed_spec d' (mod10_nz d' M)) as (B & Vs & _). split.
    + unfold bigdecimal_into. cbn [fst snd]. rewrite from_signed_spec, Vs by exact B. exact V.
    + cbn [fst snd]. intros Hl. assert (H0 : to_signed_bytes_le d' = [] -> s' = 0%Z).
      { intros H0. destruct (to_signed_nonempty d' (mod10_nz d' M) H0). }
      split; [exact (proj1 (big_decimal_roundtrip c _ s' [] Hc Hl Hs H0))|].
      intros rest. exact (proj2 (big_decimal_roundtrip c _ s' rest Hc Hl Hs H0)).
Qed.
Theorem C36_format_roundtrip : forall c v w, wf_cfg c -> scale_room v ->
  bigdecimal_from c v = Some w -> lenN (fst w) < 2 ^ usize_bits c ->
  wresult (ser (fmt_bigdecimal_sval c v)) = WeOk /\
  exists v', (dec_value v' == dec_value v)%Q /\
    forall rest, run c (fmt_de_bigdecimal c) (wbytes (ser (fmt_bigdecimal_sval c v)) ++ rest) = OOk v' rest.
Proof.
  intros c [d s] w Hc Hr Hw Hl. pose proof (ser_fmt_bigdecimal c (d, s)) as E. rewrite Hw in E. rewrite E.
  destruct (Z.eq_dec d 0) as [->|Hd].
  - injection Hw as <-. split; [reflexivity|]. exists (0, 0)%Z. split.
    + transitivity 0%Q; [|symmetry]; apply dec_value_zero; reflexivity.
    + intros rest. unfold fmt_de_bigdecimal. rewrite run_bind. cbn [fst snd] in *. cbn [big_decimal_sval].
      rewrite (proj1 (PrimFacts.parses_vec_u8 c [] Hc Hl)). reflexivity.
  - destruct (bigdecimal_from_spec c d s Hr Hd) as (d' & s' & E' & M & Hs & V). rewrite Hw in E'. injection E' as ->. cbn [fst snd] in *.
    pose proof (to_signed_spec d' (mod10_nz d' M)) as (B & Vs & _). pose proof (to_signed_nonempty d' (mod10_nz d' M)) as Hne.
    destruct (to_signed_bytes_le d') as [|b bs] eqn:Eb; [contradiction|]. destruct (BodyFacts.big_decimal_ser b bs s') as [H1 H2].
    split; [exact H1|]. exists (d', s'). split; [exact V|]. intros rest. rewrite H2, <- app_assoc. unfold fmt_de_bigdecimal. rewrite run_bind.
    rewrite (proj1 (PrimFacts.parses_vec_u8 c (b :: bs) Hc Hl)). cbn [obind]. rewrite from_signed_spec, Vs by exact B.
    destruct (Z.eqb_spec d' 0) as [H0|_]; [destruct (mod10_nz d' M H0)|].
    rewrite run_bind, (proj1 (PrimFacts.parses_de_i64 c s' Hs)). reflexivity.
Qed.
(** Equal wrappers, and equal bytes, exactly for numerically equal decimals. *)
Theorem C36_one_encoding : forall c v1 v2, wf_cfg c -> scale_room v1 -> scale_room v2 ->
  (bigdecimal_from c v1 = bigdecimal_from c v2 <-> (dec_value v1 == dec_value v2)%Q).
Proof.
  intros c [d1 s1] [d2 s2] Hc H1 H2. split; intros E.
  - destruct (C36_wrapper_roundtrip c _ Hc H1) as (w1 & E1 & V1 & _), (C36_wrapper_roundtrip c _ Hc H2) as (w2 & E2 & V2 & _).
    rewrite E1, E2 in E. injection E as ->. rewrite <- V1. exact V2.
  - destruct (Z.eq_dec d1 0) as [->|Hd1].
    + assert (d2 = 0%Z) as -> by (apply (dec_value_zero d2 s2); rewrite <- E; apply dec_value_zero; reflexivity). reflexivity.
    + destruct (Z.eq_dec d2 0) as [->|Hd2].
      { destruct Hd1. apply (dec_value_zero d1 s1). rewrite E. apply dec_value_zero; reflexivity. }
      destruct (bigdecimal_from_spec c d1 s1 H1 Hd1) as (d1' & s1' & E1 & M1 & _ & V1), (bigdecimal_from_spec c d2 s2 H2 Hd2) as (d2' & s2' & E2 & M2 & _ & V2).
      rewrite E1, E2. destruct (dec_canonical d1' s1' d2' s2' M1 M2) as [-> ->]; [|reflexivity]. rewrite V1, V2. exact E.
Qed.
Theorem C36_same_bytes : forall c v1 v2 w1 w2, wf_cfg c -> scale_room v1 -> scale_room v2 ->
  bigdecimal_from c v1 = Some w1 -> bigdecimal_from c v2 = Some w2 ->
  lenN (fst w1) < 2 ^ usize_bits c -> lenN (fst w2) < 2 ^ usize_bits c ->
  (wbytes (ser (big_decimal_sval (fst w1) (snd w1))) = wbytes (ser (big_decimal_sval (fst w2) (snd w2))) <->
     (dec_value v1 == dec_value v2)%Q) /\
  (wbytes (ser (fmt_bigdecimal_sval c v1)) = wbytes (ser (fmt_bigdecimal_sval c v2)) <-> (dec_value v1 == dec_value v2)%Q).
Proof.
  intros c v1 v2 w1 w2 Hc H1 H2 E1 E2 L1 L2.
  pose proof (ser_fmt_bigdecimal c v1) as F1. pose proof (ser_fmt_bigdecimal c v2) as F2. rewrite E1 in F1. rewrite E2 in F2.
  rewrite F1, F2. rewrite <- (C36_one_encoding c v1 v2 Hc H1 H2), E1, E2.
  assert (H : wbytes (ser (big_decimal_sval (fst w1) (snd w1))) = wbytes (ser (big_decimal_sval (fst w2) (snd w2))) <-> Some w1 = Some w2);
    [|split; exact H].
  split; [|intros E; injection E as ->; reflexivity]. intros E.
  destruct (C36_wrapper_roundtrip c v1 Hc H1) as (x1 & X1 & _ & R1), (C36_wrapper_roundtrip c v2 Hc H2) as (x2 & X2 & _ & R2).
  rewrite E1 in X1. rewrite E2 in X2. injection X1 as <-. injection X2 as <-.
  destruct (R1 L1) as [_ D1], (R2 L2) as [_ D2]. specialize (D1 []). specialize (D2 []). rewrite E, D2 in D1. injection D1 as ->. reflexivity.
Qed.
(** Without room for the scale a build without overflow checks changes the number. *)
Theorem C36_every_scale_refuted : exists c v w, overflow_checks c = false /\ in_s 64 (snd v) = true /\
  bigdecimal_from c v = Some w /\ ~ (dec_value (bigdecimal_into w) == dec_value v)%Q.
Proof.
  exists (Cfg false 64 1 1 4096), (10, - 2 ^ 63)%Z, ([1], (2 ^ 63 - 1)%Z). split; [reflexivity|]. split; [reflexivity|]. split; [reflexivity|].
  apply dec_wrap. reflexivity.
Qed.
Example C36_ex : scale_room (-1200, 1)%Z /\ (dec_value (-1200, 1)%Z == dec_value (-12, -1)%Z)%Q /\
  bigdecimal_from c64 (-1200, 1)%Z = Some ([244], (-1)%Z) /\ bigdecimal_from c64 (-12, -1)%Z = Some ([244], (-1)%Z) /\
  bigdecimal_from c64 (0, 7)%Z = Some ([], 0%Z) /\ bigdecimal_from c64 (10, - 2 ^ 63)%Z = None.
Proof.
  split; [|split; [vm_compute; reflexivity|repeat split]]. split; [reflexivity|]. split; [cbn; lia|]. cbn [fst snd]. intros k Hk _ [q Hq].
  destruct (Z.le_gt_cases k 10) as [|Hg]; [lia|]. exfalso. assert (10 ^ 4 <= 10 ^ k)%Z by (apply Z.pow_le_mono_r; lia).
  change (10 ^ 4)%Z with 10000%Z in *. generalize dependent (10 ^ k)%Z. intros m Hm Hl. destruct (Z.lt_trichotomy q 0) as [?|[->|?]]; nia.
Qed.
Print Assumptions C36_wrapper_roundtrip.
Print Assumptions C36_format_roundtrip.
Print Assumptions C36_one_encoding.
Print Assumptions C36_same_bytes.
Print Assumptions C36_every_scale_refuted.
