(** * Size of dates and times: C64. *)
From Verif Require Import Base BaseFacts SpecVarint VarintFacts SpecTime Serde Big Time ExSerde TimeFacts PropTime TimeSizeFacts.
Local Open Scope N_scope.

(** A calendar date takes 2 to 5 bytes, one for the year from 1936 to 2063. *)
Theorem C64_date_size : forall c d, real_date (fst d) (snd d) ->
  wresult (ser (fmt_date_sval c d)) = WeOk /\
  length (wbytes (ser (fmt_date_sval c d))) = (year_size (fst d) + ordinal_size (snd d))%nat /\
  wbytes (ser (date_sval c (fst d) (snd d))) = wbytes (ser (fmt_date_sval c d)).
Proof.
  intros c d H. destruct (C38_roundtrip c d [] H) as (H1 & H2 & H3 & _). split; [exact H1|]. split; [|exact H3].
  rewrite H2, app_length. apply real_date_iff in H as (Hy & Ho1 & Ho2).
  assert (snd d <= 366) by (unfold days_in_year in Ho2; destruct (is_leap (fst d)); lia).
  rewrite year_length, ordinal_length by assumption. reflexivity.
Qed.
(** An instant takes 2 to 11 bytes. *)
Theorem C64_time_size : forall t, odt_ok t ->
  wresult (ser (fmt_datetime_sval t)) = WeOk /\
  length (wbytes (ser (fmt_datetime_sval t))) = (seconds_size (odt_ts t) + nanos_size (odt_ns t))%nat.
Proof.
  intros t H. destruct (C39_roundtrip c64 t [] H) as (H1 & H2 & _). split; [exact H1|].
  rewrite H2, app_length. destruct H as [Ht Hn]. unfold MIN_TS, MAX_TS in Ht. rewrite seconds_length, nanos_length by lia. reflexivity.
Qed.
Theorem C64_bounds : (forall c d, real_date (fst d) (snd d) -> (2 <= length (wbytes (ser (fmt_date_sval c d))) <= 5)%nat) /\
  (forall t, odt_ok t -> (2 <= length (wbytes (ser (fmt_datetime_sval t))) <= 11)%nat).
Proof.
  split.
  - intros c d H. destruct (C64_date_size c d H) as (_ & -> & _). unfold year_size, ordinal_size.
    repeat match goal with |- context [if ?b then _ else _] => destruct b end; lia.
  - intros t H. destruct (C64_time_size t H) as (_ & ->). unfold seconds_size, nanos_size.
    repeat match goal with |- context [if ?b then _ else _] => destruct b end; lia.
Qed.
Example C64_ex :
  length (wbytes (ser (fmt_date_sval c64 (2022%Z, 59)))) = 2%nat /\ length (wbytes (ser (fmt_date_sval c64 ((-9999)%Z, 365)))) = 5%nat /\
  length (wbytes (ser (fmt_datetime_sval (Odt 0 0 0)))) = 2%nat /\
  length (wbytes (ser (fmt_datetime_sval (Odt 1640995200 999999999 0)))) = 10%nat /\
  length (wbytes (ser (fmt_datetime_sval (Odt (-377705116800) 999999999 0)))) = 11%nat /\
  real_date 2022 59 /\ real_date (-9999) 365 /\ odt_ok (Odt (-377705116800) 999999999 0).
Proof.
  split; [vm_compute; reflexivity|]. split; [vm_compute; reflexivity|]. split; [vm_compute; reflexivity|].
  split; [vm_compute; reflexivity|]. split; [vm_compute; reflexivity|].
  split; [apply real_date_iff; split; [lia|split; vm_compute; discriminate]|].
  split; [apply real_date_iff; split; [lia|split; vm_compute; discriminate]|].
  unfold odt_ok, MIN_TS, MAX_TS; cbn [odt_ts odt_ns]; lia.
Qed.
Print Assumptions C64_date_size.
Print Assumptions C64_time_size.
Print Assumptions C64_bounds.
