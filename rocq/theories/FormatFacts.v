(** * Proofs about SpecFormat.v. *)
From Verif Require Import Base BaseFacts Serde Typing Varint VarintFacts ZigZagFacts SerdeSafe Header HeaderFacts Body Big BigFacts Time TimeFacts SpecVarint SpecUtf8 SpecBig SpecTime SpecBody SpecAccept AcceptFacts SpecReject RejectFacts SpecReads ReadsFacts SpecFormat.
Local Open Scope list_scope.
Local Open Scope N_scope.

Lemma does_omap {A B} c (f : A -> B) (p : prog A) P : does c p P -> does c (pmap f p) (fun s o => exists o', P s o' /\ o = omap f o').
Proof.
  intros Hp s Hs. rewrite run_pmap, obind_omap. destruct (Hp s Hs) as [H1 H2]. split; [eauto|]. intros o (o' & Ho & ->). f_equal. apply H2, Ho.
Qed.
Lemma bytes_read_ok c s bs r : bytes_ok s -> bytes_read (kept c) s (OOk bs r) -> bytes_ok bs /\ bytes_ok r.
Proof.
  intros Hs H. inversion H; subst. apply Forall_app in Hs as [_ Hs]. apply Forall_app in Hs. exact Hs.
Qed.
Lemma does_fmt_decimal c : does c (fmt_de_bigdecimal c) (format_decimal c).
Proof.
  intros s Hs. unfold fmt_de_bigdecimal. fold (de_big c). rewrite run_bind. destruct (does_big c s Hs) as [HT HS]. split.
  - destruct (outcome_cases (run c (de_big c) s)) as [(bs & r & E)|(x & E)]; rewrite E in *; [|rewrite obind_stop; apply fd_stop, HT].
    cbn [obind]. destruct (bytes_read_ok c s bs r Hs HT) as [Hb Hr]. rewrite from_signed_spec by exact Hb. destruct (Z.eqb_spec (signed_value bs) 0) as [Ez|Ez].
    + rewrite Ez. eapply fd_zero; eassumption.
    + rewrite run_bind. unfold de_i64. rewrite run_pmap.
      destruct (u64_cases c r Hr) as [[X ->]|(l & n & r' & -> & Hl & Hn & -> & Hr')]; cbn [obind run]; [eapply fd_short; eassumption|].
      rewrite dec_zigzag_spec by (exact Hn || lia). eapply fd_scale; eassumption.
  - intros o H. inversion H as [? x Hx|? bs r Hb Ez|? bs r Hb Ez Hr|? bs l n r Hb Ez Hl]; subst.
    + rewrite (HS _ Hx), obind_stop. reflexivity.
    + destruct (bytes_read_ok c s bs r Hs Hb) as [Hbs _]. rewrite (HS _ Hb). cbn [obind]. rewrite from_signed_spec, Ez by exact Hbs. reflexivity.
    + destruct (bytes_read_ok c s bs r Hs Hb) as [Hbs Hrs]. rewrite (HS _ Hb). cbn [obind]. rewrite from_signed_spec by exact Hbs.
      apply Z.eqb_neq in Ez. rewrite Ez, run_bind. unfold de_i64. rewrite run_pmap, short_run by assumption. reflexivity.
    + destruct (bytes_read_ok c s bs _ Hs Hb) as [Hbs Hrs]. rewrite (HS _ Hb). cbn [obind]. rewrite from_signed_spec by exact Hbs.
      apply Z.eqb_neq in Ez. rewrite Ez, run_bind. unfold de_i64. rewrite run_pmap, (code_run c l n r Hrs Hl). cbn [obind run].
      rewrite dec_zigzag_spec by (lia || exact (code8_bound l n (app_ok_l _ _ Hrs) Hl)). reflexivity.
Qed.

(** Dates and times by way of bodies. *)
Lemma does_date c : wf_cfg c -> does c (de_date c) (fun s o => (exists x, no_date c s x /\ o = stop x) \/
  exists l k y d r, s = l ++ k ++ r /\ code 4 l y /\ code 2 k d /\ date_range c (unzigzag y) d /\ o = OOk (date_year (unzigzag y), date_ordinal d) r).
Proof.
  intros Hw s Hs. pose proof (does_body_plain c HDate Hw eq_refl s Hs) as [HT HS]. cbn [bde] in HT, HS. rewrite run_pmap, obind_omap in HT, HS. split.
  - remember (omap (fun p => BDate (fst p) (snd p)) (run c (de_date c) s)) as o eqn:Eo. inversion HT; subst; not_plain.
    + match goal with H : body_accepts _ _ _ _ |- _ => inversion H; subst end. right. destruct (run c (de_date c) ((l ++ k) ++ r)) as [[y' o']| |]; try discriminate. cbn in *.
      match goal with E : OOk _ _ = OOk _ _ |- _ => injection E as <- <- <- end. exists l, k, y, o, r. rewrite <- app_assoc. auto.
    + match goal with H : body_rejects _ _ _ _ |- _ => inversion H; subst end. left. exists x. split; [assumption|]. destruct (run c (de_date c) s), x; try discriminate; cbn in *; congruence.
  - intros o [(x & Hx & ->)|(l & k & y & d & r & -> & Hl & Hk & Hd & ->)].
    + specialize (HS (stop x) (bd_plain_stop c HDate s x eq_refl (br_date c s x Hx))). destruct (run c (de_date c) s), x; try discriminate; cbn in *; congruence.
    + rewrite app_assoc in *. specialize (HS _ (bd_plain c HDate (l ++ k) _ r eq_refl (ba_date c l k y d Hl Hk Hd))).
      destruct (run c (de_date c) ((l ++ k) ++ r)) as [[y' o']| |]; try discriminate. cbn in HS. congruence.
Qed.
Lemma does_fmt_date c : wf_cfg c -> does c (fmt_de_date c) (format_date c).
Proof.
  intros Hw s Hs. rewrite fmt_de_date_eq. destruct (does_date c Hw s Hs) as [HT HS]. split.
  - destruct HT as [(x & Hx & ->)|(l & k & y & d & r & -> & Hl & Hk & Hd & ->)]; [destruct x; exact (fa_stop c s _ Hx)|].
    unfold date_try_into. cbn [fst snd]. destruct (from_ordinal_date _ _) as [w|] eqn:E.
    + apply from_ordinal_iff in E as [-> E]. apply fa_real; assumption.
    + apply fa_other with y d; try assumption. intros R. assert (X := proj2 (from_ordinal_iff _ _ (date_year (unzigzag y), date_ordinal d)) (conj eq_refl R)). congruence.
  - intros o H. inversion H as [? x Hx|l k y d r Hl Hk Hd R|l k y d r Hl Hk Hd R]; subst.
    + rewrite (HS (stop x)) by eauto. destruct x; reflexivity.
    + rewrite (HS (OOk (date_year (unzigzag y), date_ordinal d) r)) by (right; eauto 12). unfold date_try_into. cbn [fst snd].
      rewrite (proj2 (from_ordinal_iff _ _ _) (conj eq_refl R)). reflexivity.
    + rewrite (HS (OOk (date_year (unzigzag y), date_ordinal d) r)) by (right; eauto 12). unfold date_try_into. cbn [fst snd].
      destruct (from_ordinal_date _ _) as [w|] eqn:E; [|reflexivity]. apply from_ordinal_iff in E as [_ E]. contradiction.
Qed.
Lemma does_time c : wf_cfg c -> does c de_date_time (fun s o => (no_date_time s /\ o = OErr ERead) \/
  exists l k t n r, s = l ++ k ++ r /\ code 8 l t /\ code 4 k n /\ o = OOk (unzigzag t, n) r).
Proof.
  intros Hw s Hs. pose proof (does_body_plain c HDateTime Hw eq_refl s Hs) as [HT HS]. cbn [bde] in HT, HS. rewrite run_pmap, obind_omap in HT, HS. split.
  - remember (omap (fun p => BDateTime (fst p) (snd p)) (run c de_date_time s)) as o eqn:Eo. inversion HT; subst; not_plain.
    + match goal with H : body_accepts _ _ _ _ |- _ => inversion H; subst end. right. destruct (run c de_date_time ((l ++ k) ++ r)) as [[t' n']| |]; try discriminate. cbn in *.
      match goal with E : OOk _ _ = OOk _ _ |- _ => injection E as <- <- <- end. exists l, k, t, n, r. rewrite <- app_assoc. auto.
    + match goal with H : body_rejects _ _ _ _ |- _ => inversion H; subst end. left. split; [assumption|]. unfold read_error in *. destruct (run c de_date_time s); try discriminate; cbn in *; congruence.
  - intros o [[Hx ->]|(l & k & t & n & r & -> & Hl & Hk & ->)].
    + specialize (HS (stop read_error) (bd_plain_stop c HDateTime s _ eq_refl (br_date_time c s Hx))). unfold read_error in HS. destruct (run c de_date_time s); try discriminate; cbn in *; congruence.
    + rewrite app_assoc in *. specialize (HS _ (bd_plain c HDateTime (l ++ k) _ r eq_refl (ba_date_time c l k t n Hl Hk))).
      destruct (run c de_date_time ((l ++ k) ++ r)) as [[t' n']| |]; try discriminate. cbn in HS. congruence.
Qed.
Lemma nanos_unique t n t' n' : n < 1000000000 -> n' < 1000000000 -> nanos (t, n) = nanos (t', n') -> t = t' /\ n = n'.
Proof. unfold nanos. cbn [fst snd]. lia. Qed.
Lemma does_fmt_time c : wf_cfg c -> does c fmt_de_datetime format_time.
Proof.
  intros Hw s Hs. rewrite fmt_de_datetime_eq. destruct (does_time c Hw s Hs) as [HT HS].
  assert (E1 : last_nano = (1000000000 * MAX_TS + 999999999)%Z) by reflexivity. assert (E2 : first_nano = (1000000000 * MIN_TS)%Z) by reflexivity.
  assert (E3 : MIN_TS = (-377705116800)%Z) by reflexivity. assert (E4 : MAX_TS = 253402300799%Z) by reflexivity.
  assert (N : forall t n, nanos ((t + Z.of_N (n / 1000000000))%Z, n mod 1000000000) = nanos (t, n) /\ n mod 1000000000 < 1000000000).
  { intros t n. unfold nanos. cbn [fst snd]. pose proof (N.div_mod n 1000000000 ltac:(discriminate)) as D. pose proof (N.mod_upper_bound n 1000000000 ltac:(discriminate)) as M.
    revert D M. generalize (n / 1000000000) (n mod 1000000000). intros; lia. }
  split.
  - destruct HT as [[Hx ->]|(l & k & t & n & r & -> & Hl & Hk & ->)]; [apply fm_short, Hx|]. rewrite try_into_spec.
    destruct (Z.ltb_spec (unzigzag t) MIN_TS) as [H1|H1]; [eapply fm_range; [eassumption|eassumption|lia]|].
    destruct (Z.ltb_spec MAX_TS (unzigzag t)) as [H2|H2]; [eapply fm_range; [eassumption|eassumption|lia]|]. cbn [orb].
    destruct (Z.ltb_spec last_nano (nanos (unzigzag t, n))) as [H3|H3]; [eapply fm_crash; [eassumption|eassumption|lia|lia]|].
    destruct (N (unzigzag t) n) as [N1 N2]. eapply fm_time; [eassumption|eassumption|lia|lia|exact N2|exact N1].
  - intros o H. inversion H as [? Hx|l k t n r Hl Hk R|l k t n r Hl Hk R R'|l k t n r t' n' Hl Hk R1 R2 Hn R3]; subst.
    + rewrite (HS (OErr ERead)) by auto. reflexivity.
    + rewrite (HS (OOk (unzigzag t, n) r)) by (right; eauto 12). rewrite try_into_spec. replace ((unzigzag t <? MIN_TS) || (MAX_TS <? unzigzag t))%Z with true by lia. reflexivity.
    + rewrite (HS (OOk (unzigzag t, n) r)) by (right; eauto 12). rewrite try_into_spec. replace ((unzigzag t <? MIN_TS) || (MAX_TS <? unzigzag t))%Z with false by lia.
      apply Z.ltb_lt in R'. rewrite R'. reflexivity.
    + rewrite (HS (OOk (unzigzag t, n) r)) by (right; eauto 12). rewrite try_into_spec.
      assert (unzigzag t <= MAX_TS)%Z by (unfold nanos in R2; cbn [fst snd] in R2; lia). replace ((unzigzag t <? MIN_TS) || (MAX_TS <? unzigzag t))%Z with false by lia.
      apply Z.ltb_ge in R2. rewrite R2. destruct (N (unzigzag t) n) as [N1 N2]. destruct (nanos_unique (unzigzag t + Z.of_N (n / 1000000000))%Z _ t' n' N2 Hn) as [-> ->]; [congruence|reflexivity].
Qed.
Lemma does_fmt_uint c : does c (fmt_de_biguint c) (fun s o => exists o', bytes_read (kept c) s o' /\ o = omap le_value o').
Proof. apply (does_omap c from_bytes_le (de_vec c de_u8)). exact (does_big c). Qed.
Lemma does_fmt_int c : does c (fmt_de_bigint c) (fun s o => exists o', bytes_read (kept c) s o' /\ o = omap signed_value o').
Proof.
  intros s Hs. destruct (does_omap c from_signed_bytes_le (de_vec c de_u8) _ (does_big c) s Hs) as [(o & Ho & E) HS].
  assert (X : forall o, bytes_read (kept c) s o -> omap from_signed_bytes_le o = omap signed_value o).
  { intros [bs r| |] H; try reflexivity. apply bytes_read_ok in H as [H _]; [|exact Hs]. cbn [omap]. rewrite from_signed_spec by exact H. reflexivity. }
  split; [exists o; split; [exact Ho|]; rewrite <- (X o Ho); exact E|]. intros o' (o'' & Ho'' & ->). apply HS. exists o''. rewrite X; auto.
Qed.
