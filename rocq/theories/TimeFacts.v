(** * Dates and times. *)
From Verif Require Import Base BaseFacts Varint VarintFacts ZigZagFacts SpecVarint SpecBig SpecTime SpecBody Serde Time PrimFacts SerdeFacts BodyFacts Body.
Local Open Scope N_scope.

Lemma is_leap_spec y : is_leap y = true <-> leap y.
Proof.
  unfold is_leap, leap. rewrite andb_true_iff, orb_true_iff, negb_true_iff, !Z.eqb_eq, Z.eqb_neq.
  rewrite !Z.mod_divide by lia. split.
  - intros [H4 [H|H]]; auto.
  - intros [[H4 H]|H]; [auto|]. split; [|auto]. eapply Z.divide_trans; [|exact H]. exists 100%Z; reflexivity.
Qed.
Lemma ordinal_iff l o : (1 <= o <= total_days (months l))%Z <->
  exists m d len, nth_error (months l) m = Some len /\ (1 <= d <= len)%Z /\ o = (total_days (firstn m (months l)) + d)%Z.
Proof.
  split.
  - intros H. assert (Hm : forall m len, nth_error (months l) m = Some len ->
       (total_days (firstn m (months l)) < o <= total_days (firstn m (months l)) + len)%Z ->
       exists m d len, nth_error (months l) m = Some len /\ (1 <= d <= len)%Z /\ o = (total_days (firstn m (months l)) + d)%Z).
    { intros m len Hn Hb. exists m, (o - total_days (firstn m (months l)))%Z, len. split; [exact Hn|]. lia. }
    destruct l; cbn in H, Hm.
    + destruct (Z_le_gt_dec o 31); [eapply (Hm 0%nat); [reflexivity|cbn; lia]|].
      destruct (Z_le_gt_dec o 60); [eapply (Hm 1%nat); [reflexivity|cbn; lia]|].
      destruct (Z_le_gt_dec o 91); [eapply (Hm 2%nat); [reflexivity|cbn; lia]|].
      destruct (Z_le_gt_dec o 121); [eapply (Hm 3%nat); [reflexivity|cbn; lia]|].
      destruct (Z_le_gt_dec o 152); [eapply (Hm 4%nat); [reflexivity|cbn; lia]|].
      destruct (Z_le_gt_dec o 182); [eapply (Hm 5%nat); [reflexivity|cbn; lia]|].
      destruct (Z_le_gt_dec o 213); [eapply (Hm 6%nat); [reflexivity|cbn; lia]|].
      destruct (Z_le_gt_dec o 244); [eapply (Hm 7%nat); [reflexivity|cbn; lia]|].
      destruct (Z_le_gt_dec o 274); [eapply (Hm 8%nat); [reflexivity|cbn; lia]|].
      destruct (Z_le_gt_dec o 305); [eapply (Hm 9%nat); [reflexivity|cbn; lia]|].
      destruct (Z_le_gt_dec o 335); [eapply (Hm 10%nat); [reflexivity|cbn; lia]|].
      eapply (Hm 11%nat); [reflexivity|cbn; lia].
    + destruct (Z_le_gt_dec o 31); [eapply (Hm 0%nat); [reflexivity|cbn; lia]|].
      destruct (Z_le_gt_dec o 59); [eapply (Hm 1%nat); [reflexivity|cbn; lia]|].
      destruct (Z_le_gt_dec o 90); [eapply (Hm 2%nat); [reflexivity|cbn; lia]|].
      destruct (Z_le_gt_dec o 120); [eapply (Hm 3%nat); [reflexivity|cbn; lia]|].
      destruct (Z_le_gt_dec o 151); [eapply (Hm 4%nat); [reflexivity|cbn; lia]|].
      destruct (Z_le_gt_dec o 181); [eapply (Hm 5%nat); [reflexivity|cbn; lia]|].
      destruct (Z_le_gt_dec o 212); [eapply (Hm 6%nat); [reflexivity|cbn; lia]|].
      destruct (Z_le_gt_dec o 243); [eapply (Hm 7%nat); [reflexivity|cbn; lia]|].
      destruct (Z_le_gt_dec o 273); [eapply (Hm 8%nat); [reflexivity|cbn; lia]|].
      destruct (Z_le_gt_dec o 304); [eapply (Hm 9%nat); [reflexivity|cbn; lia]|].
      destruct (Z_le_gt_dec o 334); [eapply (Hm 10%nat); [reflexivity|cbn; lia]|].
      eapply (Hm 11%nat); [reflexivity|cbn; lia].
  - intros (m & d & len & Hn & Hd & ->).
    do 12 (destruct m as [|m]; [cbn [nth_error months] in Hn; injection Hn as <-; destruct l; cbn [firstn months total_days fold_right]; lia|]). destruct m; discriminate.
Qed.
Lemma real_date_iff y o : real_date y o <-> (-9999 <= y <= 9999)%Z /\ 1 <= o /\ o <= days_in_year y.
Proof.
  assert (E : Z.of_N (days_in_year y) = total_days (months (is_leap y))) by (unfold days_in_year; destruct (is_leap y); reflexivity).
  unfold real_date, day_of. split.
  - intros [Hy (m & d & l & len & Hl & Hn & Hd & Ho)]. split; [exact Hy|].
    assert (l = is_leap y) as -> by (pose proof (is_leap_spec y); destruct l, (is_leap y); tauto || (exfalso; intuition congruence) || auto; intuition congruence).
    assert (H : (1 <= Z.of_N o <= total_days (months (is_leap y)))%Z) by (apply ordinal_iff; eauto 8). lia.
  - intros (Hy & H1 & H2). split; [exact Hy|].
    assert (H : (1 <= Z.of_N o <= total_days (months (is_leap y)))%Z) by lia.
    apply ordinal_iff in H as (m & d & len & Hn & Hd & Ho). exists m, d, (is_leap y), len.
    split; [apply is_leap_spec|]. auto.
Qed.
Lemma from_ordinal_iff y o d : from_ordinal_date y o = Some d <-> d = (y, o) /\ real_date y o.
Proof.
  rewrite real_date_iff. unfold from_ordinal_date, MIN_YEAR, MAX_YEAR.
  destruct (_ && _) eqn:E.
  - split; [intros H; injection H as <-; split; [reflexivity|lia]|]. intros [-> _]; reflexivity.
  - split; [discriminate|]. intros [_ H]. lia.
Qed.
Lemma from_ordinal_none y o : from_ordinal_date y o = None <-> ~ real_date y o.
Proof.
  destruct (from_ordinal_date y o) as [d|] eqn:E.
  - apply from_ordinal_iff in E. split; [discriminate|tauto].
  - split; [|auto]. intros _ H. pose proof (proj2 (from_ordinal_iff y o (y, o)) (conj eq_refl H)). congruence.
Qed.

(** ** Order *)
Lemma div_step p k : (0 < k)%Z -> ((p + 1) / k = p / k + (if (p + 1) mod k =? 0 then 1 else 0))%Z.
Proof.
  intros Hk. pose proof (Z.div_mod p k ltac:(lia)) as D. pose proof (Z.mod_pos_bound p k Hk) as M.
  destruct (Z.eqb_spec ((p + 1) mod k) 0) as [E|E].
  - symmetry. apply (Z.div_unique _ _ _ 0); [lia|]. apply Z.mod_divide in E; [|lia]. destruct E as [q E].
    assert (Ke : (k * (q - p / k) = p mod k + 1)%Z) by lia.
    assert (q - p / k = 1)%Z as E1; [|rewrite E1 in Ke; lia]. revert Ke. generalize (q - p / k)%Z. intros e Ke. nia.
  - symmetry. apply (Z.div_unique _ _ _ (p mod k + 1)); [|lia].
    assert (p mod k + 1 <> k)%Z; [|lia]. intros E2. apply E. replace (p + 1)%Z with ((p / k + 1) * k)%Z by lia. apply Z.mod_mul. lia.
Qed.
Lemma day_number_step y : (day_number (y + 1, 1%N) = day_number (y, 1%N) + Z.of_N (days_in_year y))%Z.
Proof.
  unfold day_number. cbn [fst snd]. replace (y + 1 - 1)%Z with ((y - 1) + 1)%Z by lia. rewrite !div_step by lia. replace (y - 1 + 1)%Z with y by lia.
  unfold days_in_year, is_leap.
  destruct (Z.eqb_spec (y mod 4) 0) as [E4|E4], (Z.eqb_spec (y mod 100) 0) as [E1|E1], (Z.eqb_spec (y mod 400) 0) as [E0|E0]; cbn [andb orb negb];
    try lia; exfalso; apply Z.mod_divide in E0 || apply Z.mod_divide in E1; try lia.
Qed.
Lemma day_number_ord y o : (day_number (y, o) = day_number (y, 1%N) + Z.of_N o - 1)%Z.
Proof. unfold day_number. cbn [fst snd]. lia. Qed.
Lemma day_number_mono y n : (day_number (y, 1%N) <= day_number (y + Z.of_nat n, 1%N))%Z.
Proof.
  induction n as [|n IH]; [replace (y + Z.of_nat 0)%Z with y by lia; lia|].
  replace (y + Z.of_nat (S n))%Z with (y + Z.of_nat n + 1)%Z by lia. rewrite day_number_step. lia.
Qed.
Lemma day_number_lt y1 o1 y2 o2 : o1 <= days_in_year y1 -> 1 <= o2 -> (y1 < y2)%Z -> (day_number (y1, o1) < day_number (y2, o2))%Z.
Proof.
  intros H1 H2 H. rewrite (day_number_ord y1 o1), (day_number_ord y2 o2).
  pose proof (day_number_mono (y1 + 1) (Z.to_nat (y2 - (y1 + 1)))) as M. rewrite day_number_step in M.
  replace (y1 + 1 + Z.of_nat (Z.to_nat (y2 - (y1 + 1))))%Z with y2 in M by lia. lia.
Qed.
Lemma date_order y1 o1 y2 o2 : real_date y1 o1 -> real_date y2 o2 ->
  date_cmp (y1, o1) (y2, o2) = Z.compare (day_number (y1, o1)) (day_number (y2, o2)).
Proof.
  rewrite !real_date_iff. intros (_ & L1 & H1) (_ & L2 & H2). unfold date_cmp. cbn [fst snd].
  destruct (Z.compare_spec y1 y2) as [->|H|H].
  - rewrite (day_number_ord y2 o1), (day_number_ord y2 o2).
    destruct (N.compare_spec o1 o2) as [->|H|H]; symmetry; [apply Z.compare_refl|apply Z.compare_lt_iff; lia|apply Z.compare_gt_iff; lia].
  - symmetry. apply Z.compare_lt_iff. apply day_number_lt; auto.
  - symmetry. apply Z.compare_gt_iff. apply day_number_lt; auto.
Qed.
Lemma time_order a b : snd a < 1000000000 -> snd b < 1000000000 -> datetime_cmp a b = Z.compare (nanos a) (nanos b).
Proof.
  destruct a as [t1 n1], b as [t2 n2]; cbn [fst snd]. intros H1 H2. unfold datetime_cmp, nanos. cbn [fst snd].
  destruct (Z.compare_spec t1 t2) as [->|H|H].
  - destruct (N.compare_spec n1 n2) as [->|H|H]; symmetry; [apply Z.compare_refl|apply Z.compare_lt_iff; lia|apply Z.compare_gt_iff; lia].
  - symmetry. apply Z.compare_lt_iff. lia.
  - symmetry. apply Z.compare_gt_iff. lia.
Qed.

(** ** Dates on the wire *)
Lemma de_date_run c y0 o0 rest : in_s 32 y0 = true -> o0 < 2 ^ 16 ->
  run c (de_date c) (varint_bytes 4 (zigzag y0) ++ varint_bytes 2 o0 ++ rest) =
  if overflow_checks c && ((2147481647 <? y0)%Z || (o0 =? 65535)) then OPanic POverflow
  else OOk ((if 2147481647 <? y0 then y0 + 2000 - 2 ^ 32 else y0 + 2000)%Z, if o0 =? 65535 then 0 else o0 + 1) rest.
Proof.
  intros Hy Ho. unfold de_date. rewrite run_bind.
  assert (E1 : varint_bytes 4 (zigzag y0) = enc_u32 (enc_zigzag 32 y0)).
  { rewrite enc_zigzag_spec by (exact Hy || lia). symmetry. apply enc_u32_spec, zigzag_bound; [lia|exact Hy]. }
  rewrite E1, (proj1 (parses_de_i32 c y0 Hy)). cbn [obind]. rewrite run_bind.
  assert (Ro : forall s', run c (o0 <- de_u16 ;; o <- or_overflow (arith_u c 16 (Z.of_N o0 + Z.of_N ORDINAL_OFFSET)) ;; Ret (s', o)) (varint_bytes 2 o0 ++ rest) =
    if overflow_checks c && (o0 =? 65535) then OPanic POverflow else OOk (s' : Z, if o0 =? 65535 then 0%N else (o0 + 1)%N) rest).
  { intros s'. rewrite run_bind, <- enc_u16_spec by exact Ho. rewrite (proj1 (parses_u16 c ERead o0 Ho)). cbn [obind]. rewrite run_bind.
    unfold arith_u, ORDINAL_OFFSET. change (2 ^ Z.of_N 16)%Z with 65536%Z. change (2 ^ 16) with 65536 in Ho.
    destruct (N.eqb_spec o0 65535) as [->|H].
    - cbn. destruct (overflow_checks c); reflexivity.
    - destruct ((0 <=? Z.of_N o0 + Z.of_N 1) && (Z.of_N o0 + Z.of_N 1 <? 65536))%Z eqn:E; [|lia].
      rewrite andb_false_r. cbn [or_overflow run obind]. do 2 f_equal. lia. }
  unfold arith_s, YEAR_OFFSET. unfold in_s in *. change (2 ^ (Z.of_N 32 - 1))%Z with 2147483648%Z in *.
  destruct (Z.ltb_spec 2147481647 y0) as [H|H].
  - destruct ((- (2147483648) <=? y0 + 2000) && (y0 + 2000 <? 2147483648))%Z eqn:E; [lia|].
    destruct (overflow_checks c); [reflexivity|]. cbn [or_overflow run obind]. rewrite Ro. cbn [andb].
    unfold wrap_s. change (2 ^ (Z.of_N 32 - 1))%Z with 2147483648%Z. change (2 ^ Z.of_N 32)%Z with 4294967296%Z. change (2 ^ 32)%Z with 4294967296%Z.
    do 2 f_equal. rewrite <- (Z.mod_unique (y0 + 2000 + 2147483648) 4294967296 1 (y0 + 2000 + 2147483648 - 4294967296)); lia.
  - destruct ((- (2147483648) <=? y0 + 2000) && (y0 + 2000 <? 2147483648))%Z eqn:E; [|lia].
    cbn [or_overflow run obind orb]. rewrite Ro. destruct (overflow_checks c && (o0 =? 65535)); reflexivity.
Qed.
Lemma fmt_de_date_eq c s : run c (fmt_de_date c) s =
  match run c (de_date c) s with
  | OOk w r => match date_try_into w with Some d => OOk d r | None => OErr EMsg end
  | OErr e => OErr e | OPanic p => OPanic p
  end.
Proof.
  unfold fmt_de_date, de_date. rewrite !run_bind. destruct (run c de_i32 s) as [y0 r|e|p]; cbn [obind]; try reflexivity.
  rewrite !run_bind. destruct (arith_s c 32 (y0 + YEAR_OFFSET)) as [y|]; cbn [or_overflow run obind]; [|reflexivity].
  rewrite !run_bind. destruct (run c de_u16 r) as [o0 r'|e|p]; cbn [obind]; try reflexivity.
  rewrite !run_bind. destruct (arith_u c 16 (Z.of_N o0 + Z.of_N ORDINAL_OFFSET)) as [o|]; cbn [or_overflow run obind]; [|reflexivity].
  unfold date_try_into. cbn [fst snd]. destruct (from_ordinal_date y o); reflexivity.
Qed.
Lemma real_date_write c y o : real_date y o ->
  ser (date_sval c y o) = WWrite (varint_bytes 4 (zigzag (y - 2000))) (WWrite (varint_bytes 2 (o - 1)) WDone).
Proof.
  rewrite real_date_iff. intros (Hy & H1 & H2). assert (H366 : o <= 366) by (unfold days_in_year in H2; destruct (is_leap y); lia).
  unfold date_sval, arith_s, arith_u, YEAR_OFFSET, ORDINAL_OFFSET.
  assert (Hi : in_s 32 (y - 2000) = true) by (unfold in_s; change (2 ^ (Z.of_N 32 - 1))%Z with 2147483648%Z; lia).
  rewrite Hi. change (2 ^ Z.of_N 16)%Z with 65536%Z.
  destruct ((0 <=? Z.of_N o - Z.of_N 1) && (Z.of_N o - Z.of_N 1 <? 65536))%Z eqn:E; [|lia].
  cbn [ser map wconcat fold_right ser_i32 ser_u16 wseq wr]. rewrite enc_zigzag_spec by (exact Hi || lia).
  rewrite enc_u32_spec by (apply zigzag_bound; [lia|exact Hi]).
  replace (Z.to_N (Z.of_N o - Z.of_N 1)) with (o - 1) by lia. rewrite enc_u16_spec by (change (2 ^ 16) with 65536; lia). reflexivity.
Qed.
Lemma real_date_read c y o rest : real_date y o ->
  run c (de_date c) (varint_bytes 4 (zigzag (y - 2000)) ++ varint_bytes 2 (o - 1) ++ rest) = OOk (y, o) rest.
Proof.
  rewrite real_date_iff. intros (Hy & H1 & H2). assert (H366 : o <= 366) by (unfold days_in_year in H2; destruct (is_leap y); lia).
  rewrite de_date_run.
  - destruct (Z.ltb_spec 2147481647 (y - 2000)) as [H|_]; [lia|]. destruct (N.eqb_spec (o - 1) 65535) as [H|_]; [lia|].
    rewrite andb_false_r. do 2 f_equal; lia.
  - unfold in_s; change (2 ^ (Z.of_N 32 - 1))%Z with 2147483648%Z; lia.
  - change (2 ^ 16) with 65536; lia.
Qed.

(** ** Times *)
Lemma try_into_spec t n : datetime_try_into (t, n) =
  if ((t <? MIN_TS) || (MAX_TS <? t))%Z then CErr
  else if (last_nano <? nanos (t, n))%Z then CPanic PTime
  else COk (Odt (t + Z.of_N (n / 1000000000)) (n mod 1000000000) 0).
Proof.
  unfold datetime_try_into, from_unix_timestamp. cbn [fst snd].
  destruct (Z.ltb_spec t MIN_TS), (Z.ltb_spec MAX_TS t), (Z.leb_spec MIN_TS t), (Z.leb_spec t MAX_TS); try lia; cbn [andb orb]; try reflexivity.
  unfold odt_add_ns. cbn [odt_ns odt_ts odt_off]. rewrite N.add_0_l. unfold nanos. cbn [fst snd].
  assert (EL : last_nano = (1000000000 * MAX_TS + 999999999)%Z) by reflexivity.
  pose proof (N.div_mod n 1000000000 ltac:(discriminate)) as D. pose proof (N.mod_upper_bound n 1000000000 ltac:(discriminate)) as M.
  set (q := n / 1000000000) in *. set (m := n mod 1000000000) in *. clearbody q m.
  destruct (Z.leb_spec (t + Z.of_N q) MAX_TS), (Z.ltb_spec last_nano (1000000000 * t + Z.of_N n)); try reflexivity; lia.
Qed.
Lemma fmt_de_datetime_eq c s : run c fmt_de_datetime s =
  match run c de_date_time s with
  | OOk w r => match datetime_try_into w with COk t => OOk t r | CErr => OErr EMsg | CPanic p => OPanic p end
  | OErr e => OErr e | OPanic p => OPanic p
  end.
Proof.
  unfold fmt_de_datetime, de_date_time. rewrite !run_bind. destruct (run c de_i64 s) as [t r|e|p]; cbn [obind]; try reflexivity.
  rewrite !run_bind. destruct (run c de_u32 r) as [n r'|e|p]; cbn [obind run]; try reflexivity.
  unfold datetime_try_into. cbn [fst snd]. destruct (from_unix_timestamp t) as [o|]; [|reflexivity]. destruct (odt_add_ns o n); reflexivity.
Qed.
Lemma de_date_time_run c t n rest : in_s 64 t = true -> n < 2 ^ 32 ->
  run c de_date_time (varint_bytes 8 (zigzag t) ++ varint_bytes 4 n ++ rest) = OOk (t, n) rest.
Proof.
  intros Ht Hn. unfold de_date_time. rewrite run_bind.
  assert (E1 : varint_bytes 8 (zigzag t) = enc_u64 (enc_zigzag 64 t)).
  { rewrite enc_zigzag_spec by (exact Ht || lia). symmetry. apply enc_u64_spec, zigzag_bound; [lia|exact Ht]. }
  rewrite E1, (proj1 (parses_de_i64 c t Ht)). cbn [obind]. rewrite run_bind, <- enc_u32_spec by exact Hn.
  rewrite (proj1 (parses_u32 c ERead n Hn)). reflexivity.
Qed.
Lemma datetime_write t n : in_s 64 t = true -> n < 2 ^ 32 ->
  ser (date_time_sval t n) = WWrite (varint_bytes 8 (zigzag t)) (WWrite (varint_bytes 4 n) WDone).
Proof.
  intros Ht Hn. unfold date_time_sval. cbn [ser map wconcat fold_right snd ser_i64 ser_u32 wseq wr].
  rewrite enc_zigzag_spec by (exact Ht || lia). rewrite enc_u64_spec by (apply zigzag_bound; [lia|exact Ht]).
  rewrite enc_u32_spec by exact Hn. reflexivity.
Qed.
