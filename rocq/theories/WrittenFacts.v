(** * Derived types write exactly what [SpecWritten] says. *)
From Coq Require Import String.
From Verif Require Import Base BaseFacts Varint PrimFacts VarintFacts ZigZagFacts Serde Typing Header Body SpecBody BodyFacts SerdeFacts
  SpecVarint SpecOutput OutputFacts Big Time BigFacts SpecBig Derive SpecDerive DeriveFacts SpecWritten.
From Coq Require Import Lia ZifyBool ZifyNat ZifyN.
Local Open Scope list_scope.
Local Open Scope N_scope.

(** Some bytes are written for W, and they are those of w. *)
Definition matches (W : writing) (w : wprog) : Prop := (exists u r, W u r) /\ forall u r, W u r -> traced w u r.
Lemma matches_iff W w : matches W w -> forall u r, W u r <-> wbytes w = u /\ wresult w = r.
Proof.
  intros [(u0 & r0 & H0) H] u r. split; [apply H|]. intros [<- <-]. destruct (H u0 r0 H0) as [-> ->]. exact H0.
Qed.
Lemma matches_one (W : writing) w u r : W u r -> traced w u r -> (forall u' r', W u' r' -> u' = u /\ r' = r) -> matches W w.
Proof. intros H T D. split; [exists u, r; exact H|]. intros u' r' H'. destruct (D u' r' H') as [-> ->]. exact T. Qed.
Lemma matches_after p (W : writing) w0 w : traced w0 p WeOk -> matches W w -> matches (after p W) (wseq w0 w).
Proof.
  intros T [(u & r & H) D]. split; [do 2 eexists; constructor; exact H|]. intros u' r' [u1 r1 H1]. apply traced_seq; auto.
Qed.
Lemma matches_in_order Ws ws : Forall2 matches Ws ws -> matches (one_by_one Ws) (wconcat ws).
Proof.
  induction 1 as [|W w Ws ws [(u & r & H) D] _ [(u' & r' & H') D']].
  - split; [do 2 eexists; constructor|]. intros u r Hn; inversion Hn; subst. split; reflexivity.
  - split.
    + destruct (wend_dec r) as [->|Hr]; do 2 eexists; [eapply ob_cons; eassumption|eapply ob_stop; eassumption].
    + intros u1 r1 Hn; inversion Hn; subst; cbn [wconcat fold_right].
      * apply traced_seq; [auto|apply D'; assumption].
      * apply traced_stop; auto.
Qed.

(** ** Leaves *)
Lemma matches_known (W : writing) w u : traced w u WeOk -> W u WeOk -> (forall u' r', W u' r' -> u' = u /\ r' = WeOk) -> matches W w.
Proof. intros; eapply matches_one; eassumption. Qed.
Lemma traced_output v u r : output v u r -> representable v -> traced (ser v) u r.
Proof. apply (proj1 output_traced_all). Qed.
Lemma traced_big bs : lenN bs < 2 ^ 64 -> traced (ser (big_sval bs)) (text bs) WeOk.
Proof. intros H. destruct (big_ser bs) as [H1 H2]. rewrite enc_u64_spec in H2 by exact H. split; assumption. Qed.
Lemma holds_len value (x : N) bs : holds value x -> shortest value x bs -> lenN bs < 2 ^ 64.
Proof. intros (b & Hb & Hl & Hv) (_ & _ & Hs). specialize (Hs b Hb Hv). unfold lenN in *. lia. Qed.
Lemma holds_len_z value (x : Z) bs : holds value x -> shortest value x bs -> lenN bs < 2 ^ 64.
Proof. intros (b & Hb & Hl & Hv) (_ & _ & Hs). specialize (Hs b Hb Hv). unfold lenN in *. lia. Qed.
Lemma holds_smaller d k d' bs : (0 <= k)%Z -> d = (d' * 10 ^ k)%Z -> holds signed_value d -> d' <> 0%Z -> shortest signed_value d' bs -> lenN bs < 2 ^ 64.
Proof.
  intros Hk E (b & Hb & Hl & Hv) Hd (B & V & S).
  assert (Ha : (Z.abs d' <= Z.abs d)%Z).
  { subst d. rewrite Z.abs_mul. assert (0 < 10 ^ k)%Z by (apply Z.pow_pos_nonneg; lia). rewrite (Z.abs_eq (10 ^ k)) by lia. nia. }
  assert (Hs : (d' < 0 -> d < 0)%Z /\ (0 < d' -> 0 < d)%Z).
  { subst d. assert (0 < 10 ^ k)%Z by (apply Z.pow_pos_nonneg; lia). split; nia. }
  destruct (to_signed_spec d' Hd) as (B' & V' & L). specialize (S _ B' V').
  pose proof (signed_value_range b Hb) as R. rewrite Hv in R. clear E. unfold lenp in *.
  assert (length (to_signed_bytes_le d') <= length b)%nat.
  { apply (pow_len_le _ _ (256 ^ N.of_nat (length (to_signed_bytes_le d')))); unfold lenN in *; [lia|].
    generalize dependent (256 ^ N.of_nat (length (to_signed_bytes_le d'))). generalize dependent (256 ^ N.of_nat (length b)). intros. lia. }
  unfold lenN in *. lia.
Qed.
Lemma fits_in w z : fits_i (Z.of_N w) z <-> in_s w z = true.
Proof. symmetry. apply in_s_iff. Qed.
Lemma traced_decimal bs s : bs <> [] -> lenN bs < 2 ^ 64 -> fits_i 64 s ->
  traced (ser (SSeq None [vec_u8 bs; SI64 s])) (text bs ++ varint_bytes 8 (zigzag s)) WeOk.
Proof.
  intros Hb Hl Hs. apply (fits_in 64) in Hs. destruct bs as [|x bs]; [congruence|].
  destruct (big_decimal_ser x bs s) as [H1 H2]. rewrite enc_u64_spec in H2 by exact Hl. split; [|exact H1].
  change (SSeq None [vec_u8 (x :: bs); SI64 s]) with (big_decimal_sval (x :: bs) s). rewrite H2. unfold text.
  rewrite enc_zigzag_spec by (exact Hs || lia). rewrite (enc_u64_spec (zigzag s)) by (apply zigzag_bound; [lia|exact Hs]). reflexivity.
Qed.
Lemma strip_unique d d' k k' : (d mod 10 <> 0)%Z -> (d' mod 10 <> 0)%Z -> (0 <= k)%Z -> (0 <= k')%Z ->
  (d * 10 ^ k = d' * 10 ^ k')%Z -> d = d' /\ k = k'.
Proof.
  assert (W : forall d d' k k', (d mod 10 <> 0)%Z -> (0 <= k <= k')%Z -> (d * 10 ^ k = d' * 10 ^ k')%Z -> d = d' /\ k = k').
  { clear. intros d d' k k' Hd Hk E. assert (P : (0 < 10 ^ k)%Z) by (apply Z.pow_pos_nonneg; lia).
    replace k' with (k + (k' - k))%Z in E by lia. rewrite Z.pow_add_r in E by lia.
    assert (E' : (d = d' * 10 ^ (k' - k))%Z) by nia. clear E.
    destruct (Z.eq_dec k k') as [->|Hn].
    - rewrite Z.sub_diag in E'. change (10 ^ 0)%Z with 1%Z in E'. lia.
    - exfalso. apply Hd. replace (k' - k)%Z with (Z.succ (k' - k - 1)) in E' by lia. rewrite Z.pow_succ_r in E' by lia.
      replace (d' * (10 * 10 ^ (k' - k - 1)))%Z with (d' * 10 ^ (k' - k - 1) * 10)%Z in E' by lia. rewrite E'. apply Z_mod_mult. }
  intros Hd Hd' Hk Hk' E. destruct (Z.le_ge_cases k k'); [apply W; auto; lia|].
  destruct (W d' d k' k) as [-> ->]; auto; lia.
Qed.
Lemma wrapped_unique a b q q' s : fits_i 64 a -> fits_i 64 b -> a = (s + q * 2 ^ 64)%Z -> b = (s + q' * 2 ^ 64)%Z -> a = b.
Proof. unfold fits_i. change (64 - 1)%Z with 63%Z. change (2 ^ 63)%Z with 9223372036854775808%Z. change (2 ^ 64)%Z with 18446744073709551616%Z. intros. nia. Qed.
Lemma wrap_spec z : exists q, wrap_s 64 z = (z + q * 2 ^ 64)%Z.
Proof.
  unfold wrap_s. change (2 ^ Z.of_N 64)%Z with (2 ^ 64)%Z. change (2 ^ (Z.of_N 64 - 1))%Z with (2 ^ 63)%Z.
  exists (- ((z + 2 ^ 63) / 2 ^ 64))%Z. pose proof (Z.div_mod (z + 2 ^ 63) (2 ^ 64) ltac:(discriminate)). lia.
Qed.
Lemma ext_decimal_matches c d s : holds signed_value d -> fits_i 64 s ->
  matches (leaf_writes c LExtBigDecimal (VDec d s)) (ser (fmt_bigdecimal_sval c (d, s))).
Proof.
  intros Hd Hs. unfold fmt_bigdecimal_sval. cbn [fst]. destruct (Z.eqb_spec d 0) as [->|Hz].
  - eapply matches_known; [|apply lw_ext_decimal_zero|]; [split; reflexivity|]. intros u' r' H. inversion H as [| | | | | | | | | | | | | | | | | |d0 k s0 bs u r Hm Hk Hb Hw E1| | |]; subst.
    + auto.
    + exfalso. apply Hm. assert (0 < 10 ^ k)%Z by (apply Z.pow_pos_nonneg; lia). assert (d0 = 0)%Z as -> by nia. reflexivity.
  - destruct (normalized_spec c d s Hz) as (d' & k & Hk & E & Hm & Hn). rewrite Hn.
    assert (Hd' : d' <> 0%Z) by (intros ->; apply Hm; reflexivity).
    pose proof (to_signed_shortest d' Hd') as Hsh. pose proof (holds_smaller d k d' _ Hk E Hd Hd' Hsh) as Hlen.
    assert (Hne : to_signed_bytes_le d' <> []).
    { intros Ee. destruct Hsh as (_ & V & _). rewrite Ee in V. cbn in V. congruence. }
    assert (M : matches (scale_written c (to_signed_bytes_le d') (s - k)) (ser (match match arith_s c 64 (s - k) with Some s' => Some (d', s') | None => None end with
       | Some (d, s) => SSeq None [vec_u8 (to_signed_bytes_le d); SI64 s]
       | None => SSeq None [SPanic POverflow] end))).
    { unfold arith_s. destruct (in_s 64 (s - k)) eqn:Ei.
      - apply (fits_in 64) in Ei. change (Z.of_N 64) with 64%Z in Ei. eapply matches_known; [apply traced_decimal; assumption|apply sw_fits, Ei|].
        intros u' r' H; inversion H; subst; auto; contradiction.
      - assert (Hf : ~ fits_i 64 (s - k)) by (intros Hf; apply (fits_in 64) in Hf; congruence).
        destruct (overflow_checks c) eqn:Eo.
        + eapply matches_one; [apply sw_panics; assumption|split; reflexivity|]. intros u' r' H; inversion H; subst; auto; [contradiction|congruence].
        + pose proof (wrap_s_in 64 (s - k) ltac:(lia)) as Hw. apply (fits_in 64) in Hw. destruct (wrap_spec (s - k)) as [q Hq].
          eapply matches_known; [apply traced_decimal; [assumption|assumption|exact Hw]|eapply sw_wraps; eassumption|].
          intros u' r' H; inversion H; subst; auto; [contradiction| |congruence]. split; [|reflexivity]. do 3 f_equal.
          eapply wrapped_unique; [| |reflexivity|exact Hq]; assumption. }
    destruct M as [(u & r & Hu) Ht]. split.
    + exists u, r. rewrite E at 1. eapply lw_ext_decimal; eassumption.
    + intros u' r' H. apply Ht. inversion H as [| | | | | | | | | | | | | | | | |s1 E1|d0 k0 s0 bs u0 r0 Hm0 Hk0 Hb0 Hw0 E1| | |]; subst.
      * congruence.
      * destruct (strip_unique d0 d' k0 k) as [-> ->]; auto. replace (to_signed_bytes_le d') with bs; [assumption|].
        apply bigint_unique in Hb0. subst bs. unfold bigint_from. destruct (Z.eqb_spec d' 0); [contradiction|reflexivity].
Qed.
Lemma year_matches c y : fits_i 32 y ->
  matches (year_output c y) (ser (match arith_s c 32 (y - YEAR_OFFSET) with Some z => SI32 z | None => SPanic POverflow end)).
Proof. intros H. split; [apply year_total|]. intros u r. apply traced_year. apply (fits_in 32), H. Qed.
Lemma day_matches c o : o < 2 ^ 16 ->
  matches (day_output c o) (ser (match arith_u c 16 (Z.of_N o - Z.of_N ORDINAL_OFFSET) with Some n => SU16 n | None => SPanic POverflow end)).
Proof. intros H. split; [apply day_total|]. intros u r. apply traced_day, H. Qed.
Lemma date_matches c y o : fits_i 32 y -> o < 2 ^ 16 ->
  matches (one_by_one [year_output c y; day_output c o]) (ser (date_sval c y o)).
Proof.
  intros Hy Ho. unfold date_sval. cbn [ser map]. apply matches_in_order.
  constructor; [apply year_matches, Hy|]. constructor; [apply day_matches, Ho|constructor].
Qed.
Lemma matches_ext (W W' : writing) w : (forall u r, W u r <-> W' u r) -> matches W w -> matches W' w.
Proof. intros H [(u & r & Hu) D]. split; [exists u, r; apply H, Hu|]. intros u' r' H'. apply D, H, H'. Qed.

Lemma in4 {A} (x a b c d : A) : In x [a; b; c; d] -> x = a \/ x = b \/ x = c \/ x = d.
Proof. cbn [In]. intuition congruence. Qed.
Lemma leaf_matches c l v : leaf_value l v -> exists sv, leaf_sval c l v = Some sv /\ matches (leaf_writes c l v) (ser sv).
Proof.
  assert (HO : forall (W : writing) v u, output v u WeOk -> representable v -> W u WeOk -> (forall u' r', W u' r' -> u' = u /\ r' = WeOk) -> matches W (ser v)).
  { intros W sv u Ho Hr Hw Hu. eapply matches_known; [apply traced_output; eassumption|exact Hw|exact Hu]. }
  destruct 1; try (match goal with H : In _ [_; _] |- _ => destruct H as [<-|[<-|[]]] end);
    try (match goal with H : In _ [_; _; _; _] |- _ => apply in4 in H as [->|[->|[->| ->]]] end);
    (eexists; split; [reflexivity|]).
  all: try (eapply HO; [constructor|first [exact I|assumption]|first [solve [constructor]|apply lw_text; cbn [In]; tauto]|intros u' r' Hx; inversion Hx; subst; auto]; fail).
  all: try (eapply matches_known; [apply traced_big; assumption|apply lw_text; cbn [In]; tauto|intros u' r' Hx; inversion Hx; subst; auto]; fail).
  - assert (E : ser (fmt_biguint_sval n) = ser (big_sval (biguint_from n)) \/ n = 0).
    { unfold fmt_biguint_sval, biguint_from, big_sval. destruct (N.eqb_spec n 0); [right; assumption|left; reflexivity]. }
    pose proof (biguint_from_shortest n) as Hs.
    eapply matches_known; [|apply (lw_num_biguint c n _ Hs)|].
    + destruct E as [->| ->]; [apply traced_big; eapply holds_len; eassumption|split; reflexivity].
    + intros u' r' Hx. inversion Hx as [| | | | | | | | | | | | |m bs Hb| | | | | | | |]; subst. apply biguint_unique in Hb as ->. auto.
  - assert (E : ser (fmt_bigint_sval z) = ser (big_sval (bigint_from z)) \/ z = 0%Z).
    { unfold fmt_bigint_sval, bigint_from, big_sval. destruct (Z.eqb_spec z 0); [right; assumption|left; reflexivity]. }
    pose proof (bigint_from_shortest z) as Hs.
    eapply matches_known; [|apply (lw_num_bigint c z _ Hs)|].
    + destruct E as [->| ->]; [apply traced_big; eapply holds_len_z; eassumption|split; reflexivity].
    + intros u' r' Hx. inversion Hx as [| | | | | | | | | | | | | |m bs Hb| | | | | | |]; subst. apply bigint_unique in Hb as ->. auto.
  - destruct bs as [|b bs].
    + eapply matches_known; [|apply lw_decimal_zero|]; [split; reflexivity|]. intros u' r' Hx; inversion Hx; subst; auto; congruence.
    + eapply matches_known; [apply traced_decimal; [discriminate|assumption|assumption]|apply lw_decimal; discriminate|].
      intros u' r' Hx; inversion Hx; subst; auto.
  - apply ext_decimal_matches; assumption.
  - apply (matches_ext (one_by_one [year_output c y; day_output c o])); [|apply date_matches; assumption].
    intros u r; split; [apply lw_date; cbn [In]; tauto|]. intros Hx; inversion Hx; subst; assumption.
  - apply (matches_ext (one_by_one [year_output c y; day_output c o])); [|apply date_matches; assumption].
    intros u r; split; [apply lw_date; cbn [In]; tauto|]. intros Hx; inversion Hx; subst; assumption.
  - eapply matches_known; [|apply lw_date_time|intros u' r' Hx; inversion Hx; subst; auto].
    cbn [date_time_sval ser map wconcat fold_right snd]. apply traced_seq; [apply traced_i64; assumption|].
    rewrite <- (app_nil_r (varint_bytes 4 n)). apply traced_seq; [apply traced_u32; assumption|split; reflexivity].
  - eapply matches_known; [|apply lw_ext_date_time|intros u' r' Hx; inversion Hx; subst; auto].
    unfold fmt_datetime_sval. cbn [ser ser_len map wconcat fold_right wseq]. apply traced_seq; [apply traced_i64; assumption|].
    rewrite <- (app_nil_r (varint_bytes 4 _)). apply traced_seq; [apply traced_u32; assumption|split; reflexivity].
Qed.

(** ** Fields *)
Definition good (f : rval -> option sval) (P : rval -> Prop) (W : rval -> writing) : Prop :=
  forall v, P v -> exists sv, f v = Some sv /\ matches (W v) (ser sv).
Lemma wfields_unique omit fs l Ws Ws' : written_fields omit fs l Ws -> written_fields omit fs l Ws' -> Ws = Ws'.
Proof.
  intros H; revert Ws'. induction H; intros Ws' H'; inversion H'; subst; auto; try contradiction; try (exfalso; tauto).
  f_equal; auto.
Qed.
Lemma wfields_matches (omit : string -> rval -> bool) (A : Type) (F : A -> rval -> option sval) (P : A -> rval -> Prop) (G : A -> rval -> writing)
    (fs : list (attrs * (string * A))) l :
  Forall (fun f => good (F (snd (snd f))) (P (snd (snd f))) (G (snd (snd f)))) fs ->
  fields_value (map (fun f => (fst f, P (snd (snd f)))) fs) l ->
  exists Ws svs, written_fields omit (map (fun f => (fst f, (fst (snd f), G (snd (snd f))))) fs) l Ws /\
    ser_fields omit (map (fun f => (fst f, (fst (snd f), F (snd (snd f))))) fs) l = Some svs /\
    Forall2 matches Ws (map ser (map snd svs)).
Proof.
  intros HG. revert l. induction HG as [|[a [n t]] fs Hf _ IH]; intros l Hl; cbn [map fst snd] in *.
  - inversion Hl; subst. exists [], []. repeat split; constructor.
  - assert (Hl' : exists v l', l = v :: l' /\ fields_value (map (fun f => (fst f, P (snd (snd f)))) fs) l' /\ (skipped a \/ P t v)).
    { inversion Hl; subst; eauto 10. }
    destruct Hl' as (v & l' & -> & Hr & Hv). destruct (IH l' Hr) as (Ws & svs & HW & HS & HM). clear IH Hl.
    cbn [ser_fields]. rewrite serde_skips_eq, serde_skips_if_eq.
    destruct (is_skip_field a) eqn:Ea.
    { apply skip_iff in Ea. exists Ws, svs. cbn [orb]. split; [apply wf_skipped; assumption|]. split; assumption. }
    assert (Hns : ~ skipped a) by (intros Hs; apply skip_iff in Hs; congruence).
    destruct (has_skip_serializing_if a && omit n v) eqn:Eo; cbn [orb].
    { apply andb_prop in Eo as [E1 E2]. exists Ws, svs. split; [apply wf_omitted; [apply skip_if_iff, E1|assumption|assumption]|]. split; assumption. }
    destruct Hv as [Hv|Hv]; [contradiction|]. destruct (Hf v Hv) as (sv & Es & Hm). rewrite Es, HS.
    exists (G t v :: Ws), ((n, sv) :: svs). split; [|split; [reflexivity|constructor; assumption]].
    apply wf_written; [assumption| |assumption]. intros [E1 E2]. apply skip_if_iff in E1. rewrite E1, E2 in Eo. discriminate.
Qed.
Lemma wfields_struct (omit : string -> rval -> bool) (A : Type) (F : A -> rval -> option sval) (P : A -> rval -> Prop) (G : A -> rval -> writing)
    (fs : list (attrs * (string * A))) l :
  Forall (fun f => good (F (snd (snd f))) (P (snd (snd f))) (G (snd (snd f)))) fs ->
  fields_value (map (fun f => (fst f, P (snd (snd f)))) fs) l ->
  exists svs, ser_fields omit (map (fun f => (fst f, (fst (snd f), F (snd (snd f))))) fs) l = Some svs /\
    matches (struct_writes omit (map (fun f => (fst f, (fst (snd f), G (snd (snd f))))) fs) (VSeq l)) (wconcat (map ser (map snd svs))).
Proof.
  intros HG Hl. destruct (wfields_matches omit A F P G fs l HG Hl) as (Ws & svs & HW & HS & HM). exists svs. split; [exact HS|].
  apply matches_in_order in HM. apply (matches_ext (one_by_one Ws)); [|exact HM]. intros u r; split; [intros H; econstructor; eassumption|].
  intros H; inversion H as [l0 Ws' u0 r0 HW' HO]; subst. rewrite (wfields_unique _ _ _ _ _ HW HW'). exact HO.
Qed.
Lemma all_some_good (A : Type) (f : A -> option sval) (W : A -> writing) l :
  Forall (fun a => exists sv, f a = Some sv /\ matches (W a) (ser sv)) l ->
  exists svs, map_some f l = Some svs /\ Forall2 matches (map W l) (map ser svs).
Proof.
  unfold map_some. induction 1 as [|a l (sv & E & Hm) _ (svs & E' & HM)]; [exists []; split; [reflexivity|constructor]|].
  exists (sv :: svs). cbn [map all_some]. rewrite E, E'. split; [reflexivity|constructor; assumption].
Qed.
Lemma entries_good (f : rval -> option sval) (W : rval -> writing) (m : list (list N * rval)) :
  Forall (fun kv => lenN (fst kv) < 2 ^ 64 /\ exists sv, f (snd kv) = Some sv /\ matches (W (snd kv)) (ser sv)) m ->
  exists svs, map_some (fun kv => option_map (pair (SStr (fst kv))) (f (snd kv))) m = Some svs /\
    Forall2 matches (map (fun kv => after (text (fst kv)) (W (snd kv))) m) (map (fun kv => wseq (ser_key (fst kv)) (ser (snd kv))) svs).
Proof.
  unfold map_some. induction 1 as [|kv m (Hk & sv & E & Hm) _ (svs & E' & HM)]; [exists []; split; [reflexivity|constructor]|].
  exists ((SStr (fst kv), sv) :: svs). cbn [map all_some]. rewrite E, E'. split; [reflexivity|]. cbn [map fst snd]. constructor; [|exact HM].
  apply matches_after; [|exact Hm]. apply traced_text, Hk.
Qed.
Lemma never_false n v : never n v = false.
Proof. reflexivity. Qed.
Lemma wconcat_fields (l : list (string * sval)) : wconcat (map (fun kv => ser (snd kv)) l) = wconcat (map ser (map snd l)).
Proof. rewrite map_map. reflexivity. Qed.

Lemma wseq_nothing w : wseq w WDone = w.
Proof. induction w; cbn [wseq]; congruence. Qed.
Lemma variant_matches omit vs a k fs i l w : pickN vs i = Some (a, (k, fs)) -> ~ skipped a -> i < 2 ^ 32 -> (k = Unnamed -> length fs <> 1%nat) ->
  matches (struct_writes omit fs (VSeq l)) w -> matches (enum_writes omit vs (VVariant i l)) (wseq (ser_u32 i) w).
Proof.
  intros Hp Ha Hi Hne Hm. apply (matches_ext (after (varint_bytes 4 i) (struct_writes omit fs (VSeq l)))); [|apply matches_after; [apply traced_u32, Hi|exact Hm]].
  intros u r; split.
  - intros [u0 r0 H]. inversion H as [l0 Ws u1 r1 H1 H2]; subst. eapply ew_variant; [exact Hp|exact Ha|exact Hne|exact H1|constructor; exact H2].
  - intros H. inversion H as [? ? ? ? ? Hq|? ? ? ? ? ? ? Hq|? ? ? ? ? Ws ? ? Hq _ _ HW HO]; subst; rewrite Hp in Hq; injection Hq; intros; subst.
    + contradiction.
    + exfalso. apply Hne; reflexivity.
    + destruct HO as [u0 r0 HO]. constructor. econstructor; eassumption.
Qed.
Lemma newtype_matches omit vs a f i v w : pickN vs i = Some (a, (Unnamed, [f])) -> ~ skipped a -> i < 2 ^ 32 ->
  matches (struct_writes never [f] (VSeq [v])) w -> matches (enum_writes omit vs (VVariant i [v])) (wseq (ser_u32 i) w).
Proof.
  intros Hp Ha Hi Hm. apply (matches_ext (after (varint_bytes 4 i) (struct_writes never [f] (VSeq [v])))); [|apply matches_after; [apply traced_u32, Hi|exact Hm]].
  intros u r; split.
  - intros [u0 r0 H]. inversion H as [l0 Ws u1 r1 H1 H2]; subst. eapply ew_newtype; [exact Hp|exact Ha|exact H1|constructor; exact H2].
  - intros H. inversion H as [? ? ? ? ? Hq|? ? ? ? Ws ? ? Hq _ HW HO|? ? ? ? ? Ws ? ? Hq _ Hne]; subst; rewrite Hp in Hq; injection Hq; intros; subst.
    + contradiction.
    + destruct HO as [u0 r0 HO]. constructor. econstructor; eassumption.
    + exfalso. apply Hne; reflexivity.
Qed.

Lemma written_good c omit t : good (rser c omit t) (value_of t) (derived_writes c omit t).
Proof.
  apply (rty_ind2 (fun t => good (rser c omit t) (value_of t) (derived_writes c omit t))); clear t.
  - intros l v Hv. cbn [rser value_of derived_writes] in *. apply leaf_matches. destruct v; exact Hv.
  - intros t IH v Hv. destruct v; cbn [value_of] in Hv; try contradiction; cbn [rser derived_writes].
    + eexists; split; [reflexivity|]. eapply matches_known; [|apply ow_none|]; [split; reflexivity|]. intros u' r' H; inversion H; auto.
    + destruct (IH v Hv) as (sv & -> & [(u & r & Hu) D]). eexists; split; [reflexivity|]. split; [do 2 eexists; constructor; exact Hu|].
      intros u' r' H; inversion H; subst. apply (traced_seq _ _ [1]); [apply traced_wr|auto].
  - intros t IH v Hv. destruct v as [| | | | | | | | | | | | |l| |]; cbn [value_of] in Hv; try contradiction; cbn [rser derived_writes].
    destruct Hv as [Hl Hv]. destruct (all_some_good _ (rser c omit t) (derived_writes c omit t) l) as (svs & -> & HM).
    { eapply Forall_impl; [|exact Hv]. exact IH. }
    eexists; split; [reflexivity|]. apply (matches_ext (after (varint_bytes 8 (lenN l)) (one_by_one (map (derived_writes c omit t) l)))).
    + intros u r; split; [apply vw|]. intros H; inversion H; assumption.
    + apply (matches_after _ _ (ser_len (Some (lenN l)))); [apply (traced_len (Some _)), Hl|]. apply matches_in_order, HM.
  - intros t IH v Hv. destruct v as [| | | | | | | | | | | | | |m|]; cbn [value_of] in Hv; try contradiction; cbn [rser derived_writes].
    destruct Hv as [Hl Hv]. destruct (entries_good (rser c omit t) (derived_writes c omit t) m) as (svs & -> & HM).
    { eapply Forall_impl; [|exact Hv]. intros kv [H1 H2]. auto. }
    eexists; split; [reflexivity|].
    apply (matches_ext (after (varint_bytes 8 (lenN m)) (one_by_one (map (fun kv => after (text (fst kv)) (derived_writes c omit t (snd kv))) m)))).
    + intros u r; split; [apply mw|]. intros H; inversion H; assumption.
    + apply (matches_after _ _ (ser_len (Some (lenN m)))); [apply (traced_len (Some _)), Hl|]. apply matches_in_order, HM.
  - intros t IH v Hv. destruct v as [| | | | | | | | | | | | | |m|]; cbn [value_of] in Hv; try contradiction; cbn [rser derived_writes].
    destruct Hv as [Hl Hv]. destruct (entries_good (rser c omit t) (derived_writes c omit t) m) as (svs & -> & HM).
    { eapply Forall_impl; [|exact Hv]. intros kv [H1 H2]. auto. }
    eexists; split; [reflexivity|].
    apply (matches_ext (after (varint_bytes 8 (lenN m)) (one_by_one (map (fun kv => after (text (fst kv)) (derived_writes c omit t (snd kv))) m)))).
    + intros u r; split; [apply mw|]. intros H; inversion H; assumption.
    + apply (matches_after _ _ (ser_len (Some (lenN m)))); [apply (traced_len (Some _)), Hl|]. apply matches_in_order, HM.
  - intros ts IH v Hv. destruct v as [| | | | | | | | | | | | |l| |]; cbn [value_of] in Hv; try contradiction; cbn [rser derived_writes].
    set (fs := map (fun t => ([] : attrs, (EmptyString, t))) ts).
    destruct (wfields_struct never rty (rser c omit) value_of (derived_writes c omit) fs l) as (svs & HS & HM).
    + unfold fs. apply Forall_map. eapply Forall_impl; [|exact IH]. intros t Ht; exact Ht.
    + unfold fs. rewrite map_map. exact Hv.
    + unfold fs in *. rewrite map_map in HS, HM. cbn [fst snd] in HS, HM.
      exists (STuple (map snd svs)). split; [|exact HM]. exact (f_equal (option_map (fun l => STuple (map snd l))) HS).
  - intros k fs IH v Hv. destruct v as [| | | | | | | | | | | | |l| |]; cbn [value_of] in Hv; try contradiction; cbn [rser derived_writes].
    destruct Hv as (Hk & Hn & Hv).
    destruct (wfields_struct omit rty (rser c omit) value_of (derived_writes c omit) fs l IH Hv) as (svs & HS & HM).
    destruct k; cbn [rser_struct].
    + rewrite HS. eexists; split; [reflexivity|]. cbn [ser]. rewrite wconcat_fields. exact HM.
    + destruct fs as [|[a [n t]] [|f fs]].
      * rewrite HS. eexists; split; [reflexivity|]. exact HM.
      * cbn [map fst snd ser_fields] in *. destruct (Hn _ eq_refl eq_refl) as [H1 H2]. cbn [fst] in H1, H2.
        rewrite <- skip_iff in H1. rewrite <- skip_if_iff in H2. rewrite serde_skips_eq, serde_skips_if_eq in *.
        destruct (is_skip_field a); [congruence|]. destruct (has_skip_serializing_if a); [congruence|]. cbn [orb andb] in *.
        destruct l as [|v [|v' l]]; try discriminate; [|destruct (rser c omit t v); discriminate]. destruct (rser c omit t v) as [sv|]; [|discriminate]. injection HS as <-.
        eexists; split; [reflexivity|]. cbn [ser map snd wconcat fold_right] in *. destruct HM as [HE HM]. split; [exact HE|].
        intros u r H. destruct (HM u r H) as [<- <-].
        split; [|rewrite wresult_wseq; destruct (wresult (ser sv)); reflexivity].
        destruct (wend_dec (wresult (ser sv))) as [Ew|Ew]; [rewrite wbytes_wseq_done by exact Ew; symmetry; apply app_nil_r|].
        destruct (traced_stop (ser sv) WDone _ _ (conj eq_refl eq_refl) Ew) as [-> _]. reflexivity.
      * change (map (fun f0 => (fst f0, (fst (snd f0), rser c omit (snd (snd f0))))) ((a, (n, t)) :: f :: fs)) with
          ((a, (n, rser c omit t)) :: (fst f, (fst (snd f), rser c omit (snd (snd f)))) :: map (fun f0 => (fst f0, (fst (snd f0), rser c omit (snd (snd f0))))) fs) in *.
        cbv iota. rewrite HS. eexists; split; [reflexivity|]. exact HM.
    + pose proof (Hk eq_refl) as ->. cbn [map] in *. destruct l as [|? ?]; cbn [ser_fields] in HS; [|discriminate]. injection HS as <-. eexists; split; [reflexivity|]. exact HM.
  - intros vs IH v Hv. destruct v as [| | | | | | | | | | | | | | |i l]; cbn [value_of] in Hv; try contradiction; cbn [rser derived_writes].
    destruct Hv as (Hi & a & k & Ps & Hp & Hv). rewrite pickN_map in Hp. rewrite pickN_map. destruct (pickN vs i) as [[a' [k' fs]]|] eqn:Ei; [|discriminate Hp].
    cbn [option_map fst snd] in *. injection Hp as -> -> <-. rewrite serde_skips_eq.
    assert (HIH : Forall (fun f => good (rser c omit (snd (snd f))) (value_of (snd (snd f))) (derived_writes c omit (snd (snd f)))) fs).
    { apply pickN_some in Ei as [Ei _]. rewrite Forall_forall in IH. apply (IH _ Ei). }
    set (WV := map (fun f => (fst f, (fst (snd f), derived_writes c omit (snd (snd f))))) fs).
    assert (HpW : pickN (map (fun v => (fst v, (fst (snd v), map (fun f => (fst f, (fst (snd f), derived_writes c omit (snd (snd f))))) (snd (snd v))))) vs) i = Some (a, (k, WV))).
    { rewrite pickN_map, Ei. reflexivity. }
    set (WS := map (fun v : attrs * (style * list (attrs * (string * rty))) => (fst v, (fst (snd v), map (fun f => (fst f, (fst (snd f), derived_writes c omit (snd (snd f))))) (snd (snd v))))) vs) in *.
    destruct (is_skip_field a) eqn:Ea.
    { apply skip_iff in Ea. exists SError. split; [reflexivity|]. eapply matches_one; [eapply ew_refused; eassumption|split; reflexivity|].
      intros u' r' H; inversion H; subst; auto; exfalso; congruence. }
    assert (Ha : ~ skipped a) by (intros Hs; apply skip_iff in Hs; congruence). destruct Hv as [Hv|[Hk Hv]]; [contradiction|].
    assert (HV : forall om, exists svs, ser_fields om (map (fun f => (fst f, (fst (snd f), rser c omit (snd (snd f))))) fs) l = Some svs /\
      matches (struct_writes om WV (VSeq l)) (wconcat (map ser (map snd svs)))) by (intros om; apply wfields_struct with (P := value_of); assumption).
    destruct k; cbn [rser_variant].
    + destruct (HV omit) as (svs & HS & HM). rewrite HS. eexists; split; [reflexivity|]. cbn [ser]. rewrite wconcat_fields.
      eapply variant_matches; [exact HpW|assumption|assumption|discriminate|exact HM].
    + destruct fs as [|[fa [n t]] [|f fs]].
      * destruct (HV omit) as (svs & HS & HM). rewrite HS. eexists; split; [reflexivity|].
        eapply variant_matches; [exact HpW|assumption|assumption|discriminate|exact HM].
      * destruct (HV never) as (svs & HS & HM). cbn [map fst snd] in *. inversion Hv as [|? ? ? v l' ? Hr|? ? ? v l' ? Hr]; subst; inversion Hr; subst;
          cbn [ser_fields] in HS; rewrite never_false, andb_false_r, orb_false_r in HS; destruct (serde_skips fa);
          try (injection HS as <-; eexists; split; [reflexivity|]; cbn [ser]; rewrite <- (wseq_nothing (ser_u32 i));
               eapply newtype_matches; [exact HpW|assumption|assumption|exact HM]).
        all: destruct (rser c omit t v) as [sv|]; [|discriminate HS]; injection HS as <-; eexists; split; [reflexivity|]; cbn [ser];
          eapply newtype_matches; [exact HpW|assumption|assumption|]; cbn [map snd wconcat fold_right] in HM; rewrite wseq_nothing in HM; exact HM.
      * destruct (HV omit) as (svs & HS & HM).
        change (map (fun f0 => (fst f0, (fst (snd f0), rser c omit (snd (snd f0))))) ((fa, (n, t)) :: f :: fs)) with
          ((fa, (n, rser c omit t)) :: (fst f, (fst (snd f), rser c omit (snd (snd f)))) :: map (fun f0 => (fst f0, (fst (snd f0), rser c omit (snd (snd f0))))) fs) in *.
        cbv iota. rewrite HS. eexists; split; [reflexivity|].
        eapply variant_matches; [exact HpW|assumption|assumption|discriminate|exact HM].
    + destruct (HV omit) as (svs & HS & HM). pose proof (Hk eq_refl) as Hn. destruct fs as [|? ?]; [|discriminate Hn]. cbn [map] in *.
      destruct l as [|? ?]; cbn [ser_fields] in HS; [|discriminate]. injection HS as <-. eexists; split; [reflexivity|]. cbn [ser].
      rewrite <- (wseq_nothing (ser_u32 i)). eapply variant_matches; [exact HpW|assumption|assumption|discriminate|exact HM].
  - intros v []. 
  - intros i v [].
Qed.
Lemma written_iff c omit t v : value_of t v -> exists sv, rser c omit t v = Some sv /\
  forall u r, derived_writes c omit t v u r <-> wbytes (ser sv) = u /\ wresult (ser sv) = r.
Proof.
  intros H. destruct (written_good c omit t v H) as (sv & E & M). exists sv. split; [exact E|]. apply matches_iff, M.
Qed.
