(** * Dates and times: C37 - C39. *)
From Verif Require Import Base BaseFacts SpecVarint SpecMap SpecBig SpecTime Serde SerdeFacts MapFacts Big Time ExSerde TimeFacts.
Local Open Scope N_scope.

(** ** C37 *)
Theorem C37_date_order : forall d1 d2 : Z * N, real_date (fst d1) (snd d1) -> real_date (fst d2) (snd d2) ->
  date_cmp (date_from d1) (date_from d2) = Z.compare (day_number d1) (day_number d2).
Proof. intros [y1 o1] [y2 o2]; exact (date_order y1 o1 y2 o2). Qed.
Theorem C37_time_order : forall t1 t2, odt_ok t1 -> odt_ok t2 ->
  datetime_cmp (datetime_from t1) (datetime_from t2) =
  Z.compare (1000000000 * odt_ts t1 + Z.of_N (odt_ns t1)) (1000000000 * odt_ts t2 + Z.of_N (odt_ns t2)).
Proof. intros t1 t2 [_ H1] [_ H2]. exact (time_order (datetime_from t1) (datetime_from t2) H1 H2). Qed.
(** Decoded values need not come from real times: there the order is not chronological. *)
Theorem C37_decoded_order_refuted : exists c s1 s2 a b, run c de_date_time s1 = OOk a [] /\ run c de_date_time s2 = OOk b [] /\
  datetime_cmp a b = Lt /\ (nanos b < nanos a)%Z.
Proof.
  exists c64, [0; 240; 0; 94; 208; 178], [2; 0], (0%Z, 3000000000), (1%Z, 0).
  split; [vm_compute; reflexivity|]. split; [vm_compute; reflexivity|]. split; [reflexivity|]. cbn; lia.
Qed.
(** Big numbers are ordered by their bytes, least significant first; decimals by digits, then scale. *)
Theorem C37_bytes_order : (forall a b, big_cmp a b = Lt <-> lex_lt a b) /\ (forall a b, big_cmp a b = Eq <-> a = b) /\
  (forall a s b t, bigdecimal_cmp (a, s) (b, t) = Lt <-> lex_lt a b \/ a = b /\ (s < t)%Z) /\
  (forall a b, bigdecimal_cmp a b = Eq <-> a = b).
Proof.
  assert (E : forall a b, bytes_cmp a b = Eq <-> a = b) by (intros a b; split; [apply bytes_cmp_eq|intros ->; apply bytes_cmp_refl]).
  split; [exact bytes_cmp_lt_iff|]. split; [exact E|]. unfold bigdecimal_cmp; cbn [fst snd]. split.
  - intros a s b t. specialize (E a b). pose proof (bytes_cmp_lt_iff a b) as L. destruct (bytes_cmp a b) eqn:C.
    + rewrite Z.compare_lt_iff. apply proj1 in E. specialize (E eq_refl). intuition discriminate.
    + intuition.
    + intuition discriminate.
  - intros [a s] [b t]; cbn [fst snd]. specialize (E a b). destruct (bytes_cmp a b) eqn:C.
    + rewrite Z.compare_eq_iff. apply proj1 in E. specialize (E eq_refl). subst. split; congruence.
    + split; [discriminate|intros H; injection H; intros; apply E; assumption].
    + split; [discriminate|intros H; injection H; intros; apply E; assumption].
Qed.
Theorem C37_numeric_order_refuted :
  (exists a b, a < b /\ big_cmp (biguint_from a) (biguint_from b) = Gt) /\
  (exists a b, (a < b)%Z /\ big_cmp (bigint_from a) (bigint_from b) = Gt) /\
  (forall c, exists v1 v2 w1 w2, bigdecimal_from c v1 = Some w1 /\ bigdecimal_from c v2 = Some w2 /\
     QArith_base.Qlt (dec_value v1) (dec_value v2) /\ bigdecimal_cmp w1 w2 = Gt).
Proof.
  split; [exists 2, 256; split; [lia|reflexivity]|]. split; [exists (-1)%Z, 1%Z; split; [lia|reflexivity]|].
  intros c. exists (2, 0)%Z, (256, 0)%Z, ([2], 0%Z), ([0; 1], 0%Z). split; [reflexivity|]. split; [reflexivity|]. split; reflexivity.
Qed.
Example C37_ex : real_date 1999 365 /\ real_date 2000 1 /\ date_cmp (1999%Z, 365) (2000%Z, 1) = Lt /\
  day_number (2000%Z, 1) = (day_number (1999, 365%N) + 1)%Z /\ day_number (1%Z, 1) = 1%Z /\
  datetime_cmp ((-1)%Z, 999999999) (0%Z, 0) = Lt /\
  bigdecimal_cmp ([1], 5%Z) ([2], 4%Z) = Lt /\ bigdecimal_cmp ([1; 1], 4%Z) ([1; 1], 5%Z) = Lt.
Proof.
  split; [apply real_date_iff; split; [lia|split; vm_compute; discriminate]|].
  split; [apply real_date_iff; split; [lia|split; vm_compute; discriminate]|]. repeat split.
Qed.
Print Assumptions C37_date_order.
Print Assumptions C37_time_order.
Print Assumptions C37_decoded_order_refuted.
Print Assumptions C37_bytes_order.
Print Assumptions C37_numeric_order_refuted.

(** ** C38 *)
(** Conversion to a calendar date succeeds exactly for dates of the calendar. *)
Theorem C38_conversion : forall w d, date_try_into w = Some d <-> d = w /\ real_date (fst w) (snd w).
Proof. intros [y o] d; exact (from_ordinal_iff y o d). Qed.
(** Every calendar date round-trips through both APIs, with or without overflow checks. *)
Theorem C38_roundtrip : forall c d rest, real_date (fst d) (snd d) ->
  wresult (ser (fmt_date_sval c d)) = WeOk /\
  wbytes (ser (fmt_date_sval c d)) = varint_bytes 4 (zigzag (fst d - 2000)) ++ varint_bytes 2 (snd d - 1) /\
  wbytes (ser (date_sval c (fst d) (snd d))) = wbytes (ser (fmt_date_sval c d)) /\
  run c (fmt_de_date c) (wbytes (ser (fmt_date_sval c d)) ++ rest) = OOk d rest /\
  run c (de_date c) (wbytes (ser (fmt_date_sval c d)) ++ rest) = OOk (date_from d) rest /\
  date_try_into (date_from d) = Some d.
Proof.
  intros c [y o] rest H. cbn [fst snd] in *. change (fmt_date_sval c (y, o)) with (date_sval c y o).
  rewrite (real_date_write c y o H). cbn [wresult wbytes]. rewrite app_nil_r.
  assert (Hd : date_try_into (date_from (y, o)) = Some (y, o)) by (apply C38_conversion; auto).
  assert (Hr : run c (de_date c) ((varint_bytes 4 (zigzag (y - 2000)) ++ varint_bytes 2 (o - 1)) ++ rest) = OOk (y, o) rest)
    by (rewrite <- app_assoc; apply real_date_read, H).
  split; [reflexivity|]. split; [reflexivity|]. split; [reflexivity|]. split; [|split; [exact Hr|exact Hd]].
  rewrite fmt_de_date_eq, Hr. change (date_try_into (y, o)) with (date_try_into (date_from (y, o))). rewrite Hd. reflexivity.
Qed.
(** The format module never returns anything but calendar dates. *)
Theorem C38_reads_real_dates : forall c s d r, run c (fmt_de_date c) s = OOk d r -> real_date (fst d) (snd d).
Proof.
  intros c s d r. rewrite fmt_de_date_eq. destruct (run c (de_date c) s) as [w r'|e|p]; try discriminate.
  destruct (date_try_into w) as [d'|] eqn:E; [|discriminate]. intros H; injection H as <- <-. apply C38_conversion in E as [-> E]. exact E.
Qed.
(** All inputs of the wrapper: the overflowing ones, and what they give without overflow checks. *)
Theorem C38_decode : forall c y0 o0 rest, in_s 32 y0 = true -> o0 < 2 ^ 16 ->
  run c (de_date c) (varint_bytes 4 (zigzag y0) ++ varint_bytes 2 o0 ++ rest) =
  if overflow_checks c && ((2147481647 <? y0)%Z || (o0 =? 65535)) then OPanic POverflow
  else OOk ((if 2147481647 <? y0 then y0 + 2000 - 2 ^ 32 else y0 + 2000)%Z, if o0 =? 65535 then 0 else o0 + 1) rest.
Proof. exact de_date_run. Qed.
Example C38_ex : real_date 2024 366 /\ ~ real_date 2023 366 /\ ~ real_date 1900 366 /\ day_of 2024 1 29 60 /\
  date_try_into (2023%Z, 366) = None /\ date_try_into (10000%Z, 1) = None /\
  wbytes (ser (fmt_date_sval c64 (2024%Z, 366))) = [48; 173; 5].
Proof.
  split; [apply real_date_iff; split; [lia|split; vm_compute; discriminate]|].
  split; [rewrite real_date_iff; intros (_ & _ & H); vm_compute in H; auto|].
  split; [rewrite real_date_iff; intros (_ & _ & H); vm_compute in H; auto|].
  split; [exists true, 29%Z; split; [split; [intros _; left; split; [exists 506%Z; reflexivity|intros [q Hq]; lia]|reflexivity]|]; split; [reflexivity|]; split; [lia|reflexivity]|].
  repeat split.
Qed.
Print Assumptions C38_conversion.
Print Assumptions C38_roundtrip.
Print Assumptions C38_reads_real_dates.
Print Assumptions C38_decode.

(** ** C39 *)
(** Every instant of the supported years round-trips through both APIs, in UTC. *)
Theorem C39_roundtrip : forall c t rest, odt_ok t ->
  wresult (ser (fmt_datetime_sval t)) = WeOk /\
  wbytes (ser (fmt_datetime_sval t)) = varint_bytes 8 (zigzag (odt_ts t)) ++ varint_bytes 4 (odt_ns t) /\
  run c de_date_time (wbytes (ser (fmt_datetime_sval t)) ++ rest) = OOk (datetime_from t) rest /\
  datetime_try_into (datetime_from t) = COk (Odt (odt_ts t) (odt_ns t) 0) /\
  run c fmt_de_datetime (wbytes (ser (fmt_datetime_sval t)) ++ rest) = OOk (Odt (odt_ts t) (odt_ns t) 0) rest.
Proof.
  intros c [ts ns off] rest [Ht Hn]. cbn [odt_ts odt_ns] in *.
  change (ser (fmt_datetime_sval (Odt ts ns off))) with (ser (date_time_sval ts ns)).
  assert (Hs : in_s 64 ts = true) by (unfold in_s; change (2 ^ (Z.of_N 64 - 1))%Z with (2 ^ 63)%Z; unfold MIN_TS, MAX_TS in Ht; lia).
  assert (Hu : ns < 2 ^ 32) by (change (2 ^ 32) with 4294967296; lia).
  rewrite datetime_write by assumption. cbn [wresult wbytes]. rewrite app_nil_r, <- app_assoc.
  assert (Hr : run c de_date_time (varint_bytes 8 (zigzag ts) ++ varint_bytes 4 ns ++ rest) = OOk (ts, ns) rest) by (apply de_date_time_run; assumption).
  assert (Ht2 : datetime_try_into (ts, ns) = COk (Odt ts ns 0)).
  { rewrite try_into_spec. destruct (Z.ltb_spec ts MIN_TS); [lia|]. destruct (Z.ltb_spec MAX_TS ts); [lia|]. cbn [orb].
    assert (EL : last_nano = (1000000000 * MAX_TS + 999999999)%Z) by reflexivity.
    unfold nanos; cbn [fst snd]. destruct (Z.ltb_spec last_nano (1000000000 * ts + Z.of_N ns)); [lia|].
    rewrite N.div_small, N.mod_small by exact Hn. do 2 f_equal; lia. }
  split; [reflexivity|]. split; [reflexivity|]. split; [exact Hr|]. split; [exact Ht2|].
  rewrite fmt_de_datetime_eq, Hr, Ht2. reflexivity.
Qed.
(** Conversion of any decoded pair: Err outside the supported seconds, a panic when the nanoseconds
    carry past the last one, otherwise the same instant. *)
Theorem C39_conversion : forall ts ns,
  match datetime_try_into (ts, ns) with
  | CErr => (1000000000 * ts < first_nano \/ last_nano < 1000000000 * ts)%Z
  | CPanic p => p = PTime /\ (first_nano <= 1000000000 * ts <= last_nano)%Z /\ (last_nano < nanos (ts, ns))%Z
  | COk t => (first_nano <= 1000000000 * ts)%Z /\ (nanos (ts, ns) <= last_nano)%Z /\
             nanos (odt_ts t, odt_ns t) = nanos (ts, ns) /\ odt_ok t
  end.
Proof.
  intros ts ns. rewrite try_into_spec.
  assert (EL : last_nano = (1000000000 * MAX_TS + 999999999)%Z) by reflexivity.
  assert (EF : first_nano = (1000000000 * MIN_TS)%Z) by reflexivity.
  destruct (Z.ltb_spec ts MIN_TS); cbn [orb]; [lia|]. destruct (Z.ltb_spec MAX_TS ts); [lia|].
  unfold nanos; cbn [fst snd]. destruct (Z.ltb_spec last_nano (1000000000 * ts + Z.of_N ns)); [split; [reflexivity|lia]|].
  cbn [odt_ts odt_ns]. unfold odt_ok; cbn [odt_ts odt_ns].
  pose proof (N.div_mod ns 1000000000 ltac:(discriminate)) as D. pose proof (N.mod_upper_bound ns 1000000000 ltac:(discriminate)) as M.
  set (q := ns / 1000000000) in *. set (m := ns mod 1000000000) in *. clearbody q m. lia.
Qed.
(** Panics are reachable from bytes, through both APIs. *)
Theorem C39_no_panic_refuted : exists s, bytes_ok s /\ forall c,
  run c fmt_de_datetime s = OPanic PTime /\
  exists w, run c de_date_time s = OOk w [] /\ datetime_try_into w = CPanic PTime.
Proof.
  exists (varint_bytes 8 (zigzag MAX_TS) ++ varint_bytes 4 1000000000). split; [repeat constructor; vm_compute; reflexivity|].
  intros c. split; [vm_compute; reflexivity|]. exists (MAX_TS, 1000000000). split; vm_compute; reflexivity.
Qed.
Example C39_ex : odt_ok (Odt 1640995199 999999999 32400) /\ day_seconds (2022%Z, 1) = 1640995200%Z /\
  last_nano = 253402300799999999999%Z /\ first_nano = (-377705116800000000000)%Z /\
  datetime_try_into (0%Z, 4294967295) = COk (Odt 4 294967295 0) /\ datetime_try_into ((2 ^ 40)%Z, 0) = CErr.
Proof. split; [split; [split; vm_compute; discriminate|reflexivity]|]. repeat split. Qed.
Print Assumptions C39_roundtrip.
Print Assumptions C39_conversion.
Print Assumptions C39_no_panic_refuted.
