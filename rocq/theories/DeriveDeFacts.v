(** * Reading derived types: proofs. *)
From Coq Require Import String Permutation QArith.
From Verif Require Import Base BaseFacts SpecVarint Varint VarintFacts ZigZagFacts Utf8 Serde Typing PrimFacts SerdeFacts MapFacts Big SpecBig BigFacts Time SpecTime TimeFacts
  Header Body BodyFacts SerdeSafe Derive SpecDerive DeriveFacts DeriveBody DeriveDe SpecDeriveDe.
Local Open Scope list_scope.
Local Open Scope N_scope.

Definition wrd {A} (c : cfg) (p : prog A) (sv : sval) (a : A) : Prop :=
  wresult (ser sv) = WeOk /\ parses c ERead p (wbytes (ser sv)) a.
Lemma wrd_pmap {A B} c (p : prog A) (f : A -> B) sv a : wrd c p sv a -> wrd c (pmap f p) sv (f a).
Proof. intros [H1 H2]. split; [exact H1|apply parses_pmap, H2]. Qed.
Lemma wrd_ser {A} c (p : prog A) sv sv' a : ser sv = ser sv' -> wrd c p sv' a -> wrd c p sv a.
Proof. unfold wrd. intros ->. auto. Qed.

(** ** Leaves *)
Lemma wrd_dty c d sv : wf_cfg c -> 4096 <= heap_limit c -> wf_dty d = true -> has_ty c d sv = true -> wrd c (de c d) sv sv.
Proof. intros Hc Hh Hd Hv. exact (roundtrip c d sv Hc Hh Hd Hv). Qed.
(** A program of Serde.de whose result carries [a]. *)
Lemma wrd_inj {A B} c (p : prog A) (f : A -> B) sv a : (forall x y, f x = f y -> x = y) -> wrd c (pmap f p) sv (f a) -> wrd c p sv a.
Proof.
  intros Hf [H1 [H2 H3]]. split; [exact H1|]. split.
  - intros t. specialize (H2 t). rewrite run_pmap in H2. destruct (run c p _) as [x r| |]; cbn [obind] in H2; try discriminate.
    injection H2 as Hx ->. rewrite (Hf _ _ Hx). reflexivity.
  - intros u x t' E. specialize (H3 u x t' E). rewrite run_pmap in H3. destruct (run c p u); cbn [obind] in H3; congruence.
Qed.
Lemma wrd_big c bs : wf_cfg c -> lenN bs < 2 ^ usize_bits c -> wrd c (de_vec c de_u8) (big_sval bs) bs.
Proof. intros Hc Hl. destruct (big_ser bs) as [H1 H2]. split; [exact H1|]. rewrite H2. apply (parses_vec_u8 c bs Hc Hl). Qed.
Lemma wrd_big_decimal c bs s : wf_cfg c -> lenN bs < 2 ^ usize_bits c -> in_s 64 s = true ->
  wrd c (de_big_decimal c) (big_decimal_sval bs s) (match bs with [] => ([], 0%Z) | _ => (bs, s) end).
Proof.
  intros Hc Hl Hs. destruct bs as [|b bs].
  - split; [reflexivity|]. change (wbytes (ser (big_decimal_sval [] s))) with (enc_u64 (lenN (@nil N)) ++ []).
    unfold de_big_decimal. eapply parses_bind_ret; [apply (parses_vec_u8 c [] Hc Hl)|reflexivity].
  - destruct (big_decimal_ser b bs s) as [H1 H2]. split; [exact H1|]. rewrite H2. unfold de_big_decimal.
    eapply parses_bind; [apply (parses_vec_u8 c (b :: bs) Hc Hl)|]. eapply parses_bind_ret; [apply (parses_de_i64 c s Hs)|reflexivity].
Qed.

Lemma wrd_fmt_decimal c d s d' s' : wf_cfg c -> scale_room (d, s) -> (dec_value (d', s') == dec_value (d, s))%Q ->
  lenN (bigint_from d') < 2 ^ usize_bits c -> ((d' = 0 /\ s' = 0) \/ d' mod 10 <> 0)%Z ->
  wrd c (fmt_de_bigdecimal c) (fmt_bigdecimal_sval c (d, s)) (d', s').
Proof.
  intros Hc Hr HQ Hl Hd'. pose proof (ser_fmt_bigdecimal c (d, s)) as E. destruct (Z.eq_dec d 0) as [->|Hd].
  - assert (d' = 0%Z) as -> by (apply (dec_value_zero d' s'); rewrite HQ; apply dec_value_zero; reflexivity).
    destruct Hd' as [[_ ->]|Hd']; [|destruct (Hd' eq_refl)]. split; [reflexivity|].
    change (wbytes (ser (fmt_bigdecimal_sval c (0, s)%Z))) with (enc_u64 (lenN (@nil N)) ++ []).
    unfold fmt_de_bigdecimal. eapply parses_bind_ret; [apply (parses_vec_u8 c [] Hc Hl)|reflexivity].
  - destruct (bigdecimal_from_spec c d s Hr Hd) as (d2 & s2 & E' & M & Hs & V). rewrite E' in E. cbn [fst snd] in E.
    assert (M' : (d' mod 10 <> 0)%Z).
    { destruct Hd' as [[-> _]|]; [|assumption]. destruct Hd. apply (dec_value_zero d s). rewrite <- HQ. apply dec_value_zero; reflexivity. }
    destruct (dec_canonical d' s' d2 s2 M' M) as [-> ->]; [rewrite HQ, V; reflexivity|].
    eapply wrd_ser; [exact E|]. pose proof (to_signed_spec d2 (mod10_nz d2 M)) as (B & Vs & _). pose proof (to_signed_nonempty d2 (mod10_nz d2 M)) as Hne.
    unfold bigint_from in Hl. destruct (Z.eqb_spec d2 0) as [H0|_]; [destruct (mod10_nz d2 M H0)|].
    destruct (to_signed_bytes_le d2) as [|b bs] eqn:Eb; [contradiction|]. destruct (big_decimal_ser b bs s2) as [H1 H2].
    split; [exact H1|]. rewrite H2. unfold fmt_de_bigdecimal. eapply parses_bind; [apply (parses_vec_u8 c (b :: bs) Hc Hl)|].
    rewrite from_signed_spec, Vs by exact B. destruct (Z.eqb_spec d2 0) as [H0|_]; [destruct (mod10_nz d2 M H0)|].
    eapply parses_bind_ret; [apply (parses_de_i64 c s2 Hs)|reflexivity].
Qed.
Lemma wrd_date {A} c y o (f : Z * N -> prog A) a : in_s 32 y = true -> in_s 32 (y - 2000) = true -> 1 <= o < 2 ^ 16 ->
  f (y, o) = Ret a ->
  wrd c (y0 <- de_i32 ;; y <- or_overflow (arith_s c 32 (y0 + YEAR_OFFSET)) ;; o0 <- de_u16 ;;
         o <- or_overflow (arith_u c 16 (Z.of_N o0 + Z.of_N ORDINAL_OFFSET)) ;; f (y, o)) (date_sval c y o) a.
Proof.
  intros H1 H2 H3 Hf. unfold date_sval, arith_s, arith_u, YEAR_OFFSET, ORDINAL_OFFSET. rewrite H2.
  change (2 ^ 16) with 65536 in H3. change (2 ^ Z.of_N 16)%Z with 65536%Z.
  destruct (Z.leb_spec 0 (Z.of_N o - Z.of_N 1)); [|lia]. destruct (Z.ltb_spec (Z.of_N o - Z.of_N 1) 65536); [|lia]. cbn [andb].
  split; [reflexivity|]. cbn [ser map]. unfold ser_i32, ser_u16, wconcat. cbn [fold_right wseq wr wbytes]. rewrite app_nil_r.
  eapply parses_bind; [apply (parses_de_i32 c _ H2)|].
  replace (y - 2000 + 2000)%Z with y by lia. rewrite H1. cbn [or_overflow bind].
  eapply parses_bind_ret; [apply (parses_u16 c ERead); change (2 ^ 16) with 65536; lia|].
  replace (Z.of_N (Z.to_N (Z.of_N o - Z.of_N 1)) + Z.of_N 1)%Z with (Z.of_N o) by lia.
  destruct (Z.leb_spec 0 (Z.of_N o)); [|lia]. destruct (Z.ltb_spec (Z.of_N o) 65536); [|lia]. cbn [andb or_overflow bind].
  rewrite N2Z.id. exact Hf.
Qed.
Lemma wrd_datetime {A} c t n (f : Z * N -> prog A) a : in_s 64 t = true -> n < 2 ^ 32 -> f (t, n) = Ret a ->
  wrd c (t <- de_i64 ;; n <- de_u32 ;; f (t, n)) (date_time_sval t n) a.
Proof.
  intros Ht Hn Hf. split; [reflexivity|]. cbn [date_time_sval ser map snd]. unfold ser_i64, ser_u32, wconcat. cbn [fold_right wseq wr wbytes].
  rewrite app_nil_r. eapply parses_bind; [apply (parses_de_i64 c _ Ht)|]. eapply parses_bind_ret; [apply (parses_u32 c ERead n Hn)|exact Hf].
Qed.

Lemma leaf_wrd c l v w sv : wf_cfg c -> 4096 <= heap_limit c -> leaf_back c l v w -> leaf_sval c l v = Some sv -> wrd c (leaf_de c l) sv w.
Proof.
  intros Hc Hh Hb Hs.
  assert (D : forall d sv, wf_dty d = true -> has_ty c d sv = true -> wrd c (de c d) sv sv) by (intros; apply wrd_dty; assumption).
  destruct l, v; cbn [leaf_back] in Hb; try (exfalso; exact Hb); cbn [leaf_sval] in Hs; injection Hs as <-; cbn [leaf_de];
    try (match type of Hb with _ /\ _ => destruct Hb as [H H0] end).
  - subst w. split; [reflexivity|apply parses_ret].
  - subst w. apply (wrd_pmap c de_bool VBool), (wrd_inj c de_bool SBool); [congruence|]. apply (D DBool); reflexivity.
  - subst w. apply (wrd_pmap c de_u8 VU), (wrd_inj c de_u8 SU8); [congruence|]. apply (D DU8); [reflexivity|apply N.ltb_lt, H].
  - subst w. apply (wrd_pmap c de_u16 VU), (wrd_inj c de_u16 SU16); [congruence|]. apply (D DU16); [reflexivity|apply N.ltb_lt, H].
  - subst w. apply (wrd_pmap c de_u32 VU), (wrd_inj c de_u32 SU32); [congruence|]. apply (D DU32); [reflexivity|apply N.ltb_lt, H].
  - subst w. apply (wrd_pmap c de_u64 VU), (wrd_inj c de_u64 SU64); [congruence|]. apply (D DU64); [reflexivity|apply N.ltb_lt, H].
  - subst w. apply (wrd_pmap c de_i8 VI), (wrd_inj c de_i8 SI8); [congruence|]. apply (D DI8); [reflexivity|exact H].
  - subst w. apply (wrd_pmap c de_i16 VI), (wrd_inj c de_i16 SI16); [congruence|]. apply (D DI16); [reflexivity|exact H].
  - subst w. apply (wrd_pmap c de_i32 VI), (wrd_inj c de_i32 SI32); [congruence|]. apply (D DI32); [reflexivity|exact H].
  - subst w. apply (wrd_pmap c de_i64 VI), (wrd_inj c de_i64 SI64); [congruence|]. apply (D DI64); [reflexivity|exact H].
  - subst w. apply (wrd_pmap c de_f32 VF), (wrd_inj c de_f32 SF32); [congruence|]. apply (D DF32); [reflexivity|apply N.ltb_lt, H].
  - subst w. apply (wrd_pmap c de_f64 VF), (wrd_inj c de_f64 SF64); [congruence|]. apply (D DF64); [reflexivity|apply N.ltb_lt, H].
  - subst w. apply (wrd_pmap c (de_big c) VB), wrd_big; assumption.
  - (* BigUint of num-bigint *)
    subst w. eapply wrd_ser; [apply ser_fmt_biguint|]. apply (wrd_pmap c (fmt_de_biguint c) VU). unfold fmt_de_biguint.
    destruct (biguint_from_shortest n) as (_ & V & _). rewrite <- V at 2.
    apply (wrd_pmap c (de_vec c de_u8) from_bytes_le), wrd_big; assumption.
  - subst w. apply (wrd_pmap c (de_big c) VB), wrd_big; assumption.
  - subst w. eapply wrd_ser; [apply ser_fmt_bigint|]. apply (wrd_pmap c (fmt_de_bigint c) VI). unfold fmt_de_bigint.
    destruct (bigint_from_shortest z) as (B & V & _). rewrite <- V at 2. rewrite <- from_signed_spec by exact B.
    apply (wrd_pmap c (de_vec c de_u8) from_signed_bytes_le), wrd_big; assumption.
  - destruct H0 as [Hi ->].
    replace (match bs with [] => VBDec [] 0 | _ :: _ => VBDec bs scale end)
      with ((fun p => VBDec (fst p) (snd p)) (match bs with [] => ([], 0%Z) | _ => (bs, scale) end)) by (destruct bs; reflexivity).
    apply (wrd_pmap c (de_big_decimal c) (fun p => VBDec (fst p) (snd p))), wrd_big_decimal; assumption.
  - destruct H0 as (d' & s' & -> & HQ & Hl & Hd). apply (wrd_pmap c (fmt_de_bigdecimal c) (fun p => VDec (fst p) (snd p))) with (a := (d', s')).
    apply wrd_fmt_decimal; assumption.
  - subst w. apply (wrd_pmap c (de_string c) VB), (wrd_inj c (de_string c) SStr); [congruence|]. apply (D DString); [reflexivity|exact H].
  - subst w. apply (wrd_pmap c (de_byte_buf c) VB). split; [reflexivity|]. cbn [ser]. unfold ser_bytes, ser_u64. cbn [wseq wr wbytes]. rewrite app_nil_r.
    apply parses_byte_buf; assumption.
  - destruct H0 as (H0 & H1 & ->). apply (wrd_pmap c (de_date c) (fun p => VDate (fst p) (snd p))) with (a := (year, ordinal)).
    apply (wrd_date c year ordinal (fun p => Ret p)); auto.
  - subst w. apply (wrd_pmap c (fmt_de_date c) (fun p => VDate (fst p) (snd p))) with (a := (year, ordinal)).
    pose proof H as R. apply real_date_iff in H as (Hy & Ho1 & Ho2). assert (ordinal <= 366) by (unfold days_in_year in Ho2; destruct (is_leap year); lia).
    apply (wrd_date c year ordinal (fun p => match from_ordinal_date (fst p) (snd p) with Some d => Ret d | None => Fail EMsg end)).
    + apply in_s_iff. cbn. lia.
    + apply in_s_iff. cbn. lia.
    + change (2 ^ 16) with 65536. lia.
    + cbn [fst snd]. rewrite (proj2 (from_ordinal_iff year ordinal (year, ordinal))) by auto. reflexivity.
  - destruct H0 as (H0 & ->). apply (wrd_pmap c de_date_time (fun p => VDateTime (fst p) (snd p))) with (a := (ts, ns)).
    apply (wrd_datetime c ts ns (fun p => Ret p)); auto.
  - subst w. apply (wrd_pmap c fmt_de_datetime VOdt). destruct t as [ts ns off]. destruct H as [Ht Hn]. cbn [odt_ts odt_ns] in *.
    apply (wrd_ser _ _ _ (date_time_sval ts ns)); [reflexivity|].
    apply (wrd_datetime c ts ns (fun p => match from_unix_timestamp (fst p) with None => Fail EMsg
      | Some t => match odt_add_ns t (snd p) with Some t' => Ret t' | None => Crash PTime end end)).
    + unfold in_s; change (2 ^ (Z.of_N 64 - 1))%Z with (2 ^ 63)%Z. unfold MIN_TS, MAX_TS in Ht. lia.
    + change (2 ^ 32) with 4294967296. lia.
    + cbn [fst snd]. unfold from_unix_timestamp. destruct (Z.leb_spec MIN_TS ts); [|lia]. destruct (Z.leb_spec ts MAX_TS); [|lia]. cbn [andb].
      unfold odt_add_ns. cbn [odt_ns odt_ts odt_off]. rewrite N.add_0_l, N.div_small, N.mod_small by exact Hn. rewrite Z.add_0_r.
      destruct (Z.leb_spec ts MAX_TS); [reflexivity|lia].
Qed.

(** ** Attributes *)
Lemma skip_de_iff l : serde_skips_de l = true <-> skipped_de l.
Proof.
  unfold serde_skips_de, skipped_de, serde_attr. rewrite existsb_exists. split.
  - intros (a & Ha & H). destruct (attr_path a) as [p|] eqn:Ep; [|discriminate]. destruct (attr_list a) as [ns|] eqn:El; [|discriminate].
    apply andb_prop in H as [Hp H]. apply String.eqb_eq in Hp as ->. apply existsb_exists in H as ([|[i|]] & Hn & H); try discriminate.
    apply orb_prop in H as [H|H]; apply String.eqb_eq in H as ->; [left|right]; exists a, ns; auto.
  - intros [(a & ns & Ha & Hp & Hl & Hn)|(a & ns & Ha & Hp & Hl & Hn)]; exists a; (split; [exact Ha|]); rewrite Hp, Hl;
      (apply andb_true_intro; split; [reflexivity|]); apply existsb_exists; eexists; (split; [exact Hn|reflexivity]).
Qed.
Lemma skip_de_false l : serde_skips_de l = false <-> ~ skipped_de l.
Proof. rewrite <- skip_de_iff. destruct (serde_skips_de l); intuition congruence. Qed.

(** ** Members *)
Inductive mem (c : cfg) : list dfield -> list sval -> list rval -> Prop :=
| mem_nil : mem c [] [] []
| mem_skip f fs ss ws : serde_skips_de (df_attrs f) = true -> mem c fs ss ws -> mem c (f :: fs) ss (df_dflt f :: ws)
| mem_keep f fs s ss w ws : serde_skips_de (df_attrs f) = false -> wrd c (df_read f) s w -> mem c fs ss ws ->
    mem c (f :: fs) (s :: ss) (w :: ws).
Lemma mem_ok c fs ss ws : mem c fs ss ws -> Forall (fun s => wresult (ser s) = WeOk) ss.
Proof. induction 1 as [| |f fs s ss w ws _ [Hw _] _ IH]; [constructor|assumption|constructor; assumption]. Qed.
Lemma mem_seq c fs ss ws : mem c fs ss ws -> parses c ERead (seq_fields fs) (wbytes (wconcat (map ser ss))) ws.
Proof.
  induction 1 as [|f fs ss ws Hs _ IH|f fs s ss w ws Hs [Hw Hp] _ IH]; cbn [seq_fields map].
  - apply parses_ret.
  - rewrite Hs. eapply parses_bind_ret; [exact IH|reflexivity].
  - rewrite Hs. change (wconcat (ser s :: map ser ss)) with (wseq (ser s) (wconcat (map ser ss))). rewrite wbytes_wseq_done by exact Hw.
    eapply parses_bind; [exact Hp|]. eapply parses_bind_ret; [exact IH|reflexivity].
Qed.
Lemma mem_map c fs ss ws : mem c fs ss ws -> NoDup (map df_name (kept fs)) ->
  parses c ERead (map_fields fs) (wbytes (wconcat (map ser ss))) ws.
Proof.
  intros H Hnd. pose proof (mem_ok _ _ _ _ H) as Hok.
  rewrite (proj2 (wconcat_ok ser ss Hok)).
  assert (K : exists l, Forall2 (fun pu a => parses c ERead (fst pu) (snd pu) a)
      (combine (map df_read (kept fs)) (map (fun s => wbytes (ser s)) ss)) l /\ length (kept fs) = length ss /\ fill_fields fs (map Some l) = Ret ws).
  { clear Hnd Hok. induction H as [|f fs ss ws Hs _ (l & IH1 & IH2 & IH3)|f fs s ss w ws Hs [_ Hp] _ (l & IH1 & IH2 & IH3)].
    - exists []. repeat split. constructor.
    - exists l. cbn [kept filter]. unfold kept in *. cbn [filter]. rewrite Hs. cbn [negb]. split; [exact IH1|]. split; [exact IH2|].
      cbn [fill_fields]. rewrite Hs, IH3. reflexivity.
    - exists (w :: l). unfold kept in *. cbn [filter]. rewrite Hs. cbn [negb map combine length]. split; [constructor; assumption|]. split; [congruence|].
      cbn [fill_fields]. rewrite Hs, IH3. reflexivity. }
  destruct K as (l & K1 & K2 & K3). unfold map_fields. eapply parses_bind_ret; [|exact K3].
  replace (map df_name (kept fs)) with (map fst (map (fun f => (df_name f, df_read f)) (kept fs))) by (rewrite map_map; reflexivity).
  replace (map (fun _ => None) (kept fs)) with (map (fun _ => @None rval) (map (fun f => (df_name f, df_read f)) (kept fs))) by (rewrite map_map; reflexivity).
  apply parses_struct_loop.
  - rewrite map_map. exact Hnd.
  - rewrite map_map. exact K1.
  - rewrite !map_length. exact K2.
Qed.

Definition dfl (c : cfg) (dflt : rty -> rval) (f : attrs * (string * rty)) : dfield :=
  DField (fst f) (fst (snd f)) (dflt (snd (snd f))) (is_option (snd (snd f))) (rde c dflt (snd (snd f))).
Definition fback (c : cfg) (dflt : rty -> rval) (f : attrs * (string * rty)) (v w : rval) : Prop :=
  (skipped (fst f) /\ w = dflt (snd (snd f))) \/ (~ skipped (fst f) /\ comes_back c dflt (snd (snd f)) v w).
Definition fser (c : cfg) (omit : string -> rval -> bool) (f : attrs * (string * rty)) : attrs * (string * (rval -> option sval)) :=
  (fst f, (fst (snd f), rser c omit (snd (snd f)))).
Definition rd (c : cfg) (dflt : rty -> rval) (omit : string -> rval -> bool) (t : rty) : Prop :=
  forall v w sv, comes_back c dflt t v w -> rser c omit t v = Some sv -> wrd c (rde c dflt t) sv w.
Definition fok (c : cfg) (dflt : rty -> rval) (omit : string -> rval -> bool) (f : attrs * (string * rty)) : Prop :=
  (skipped (fst f) /\ skipped_de (fst f)) \/
  (~ skipped (fst f) /\ ~ skipped_de (fst f) /\ ~ skipped_if (fst f) /\ rd c dflt omit (snd (snd f))).

Lemma members_mem c dflt omit om fs : Forall (fok c dflt omit) fs -> forall vs ws l,
  pairwise (map (fback c dflt) fs) vs ws -> ser_fields om (map (fser c omit) fs) vs = Some l ->
  mem c (map (dfl c dflt) fs) (map snd l) ws.
Proof.
  induction 1 as [|[a [n t]] fs Hf _ IH]; intros [|v vs] [|w ws] l Hb Hs; cbn [map pairwise ser_fields fser fst snd] in *; try contradiction.
  - injection Hs as <-. constructor.
  - destruct Hb as [Hb Hbs]. rewrite serde_skips_eq, serde_skips_if_eq in Hs. unfold fok, fback in Hf, Hb. cbn [fst snd] in Hf, Hb.
    destruct Hf as [[F1 F2]|(F1 & F2 & F3 & F4)].
    + rewrite (proj2 (skip_iff a)) in Hs by exact F1. cbn [orb] in Hs. destruct Hb as [[_ ->]|[Hb _]]; [|contradiction].
      apply (mem_skip c (dfl c dflt (a, (n, t)))); [apply skip_de_iff, F2|]. apply (IH vs); assumption.
    + rewrite (proj2 (skip_false a)), (proj2 (skip_if_false a)) in Hs by assumption. cbn [orb andb] in Hs.
      destruct Hb as [[Hb _]|[_ Hb]]; [contradiction|].
      destruct (rser c omit t v) as [s|] eqn:E1; [|discriminate]. destruct (ser_fields _ _ vs) as [l'|] eqn:E2; [|discriminate].
      injection Hs as <-. cbn [map snd]. apply mem_keep; [apply skip_de_false, F2|apply (F4 v); assumption|]. apply (IH vs); assumption.
Qed.
Lemma kept_names c dflt fs :
  (forall fs1 f fs2 g fs3, fs = fs1 ++ f :: fs2 ++ g :: fs3 -> ~ skipped_de (fst f) -> ~ skipped_de (fst g) -> fst (snd f) <> fst (snd g)) ->
  NoDup (map df_name (kept (map (dfl c dflt) fs))).
Proof.
  induction fs as [|f fs IH]; intros H; [constructor|]. assert (Hi : NoDup (map df_name (kept (map (dfl c dflt) fs)))).
  { apply IH. intros fs1 g fs2 h fs3 E. apply (H (f :: fs1) g fs2 h fs3). rewrite E. reflexivity. }
  unfold kept in *. cbn [map filter]. change (df_attrs (dfl c dflt f)) with (fst f). destruct (serde_skips_de (fst f)) eqn:E; cbn [negb]; [exact Hi|].
  cbn [map]. constructor; [|exact Hi]. intros Hin. apply in_map_iff in Hin as (g & Hg & Hin). apply filter_In in Hin as [Hin Hs].
  apply in_map_iff in Hin as (g' & <- & Hin). apply in_split in Hin as (l1 & l2 & ->).
  apply (H [] f l1 g' l2 eq_refl); [apply skip_de_false, E| |symmetry; exact Hg].
  apply skip_de_false. apply negb_true_iff in Hs. exact Hs.
Qed.

Lemma struct_wrd c dflt omit k fs vs ws sv : Forall (fok c dflt omit) fs -> NoDup (map df_name (kept (map (dfl c dflt) fs))) ->
  pairwise (map (fback c dflt) fs) vs ws -> rser_struct omit k (map (fser c omit) fs) vs = Some sv ->
  wrd c (members_de k (map (dfl c dflt) fs)) sv ws.
Proof.
  intros Hf Hnd Hb Hs. pose proof (members_mem c dflt omit omit fs Hf vs ws) as HM. unfold rser_struct in Hs. destruct k; cbn [members_de].
  - apply option_map_some in Hs as (l & Hl & ->). specialize (HM l Hb Hl). split.
    + cbn [ser]. rewrite <- (map_map snd ser l). apply (wconcat_ok ser), (mem_ok _ _ _ _ HM).
    + cbn [ser]. rewrite <- (map_map snd ser l). apply mem_map; assumption.
  - assert (G : forall l, ser_fields omit (map (fser c omit) fs) vs = Some l -> wrd c (seq_fields (map (dfl c dflt) fs)) (STupleStruct (map snd l)) ws).
    { intros l Hl. specialize (HM l Hb Hl). split; cbn [ser]; [apply (wconcat_ok ser), (mem_ok _ _ _ _ HM)|apply mem_seq; assumption]. }
    destruct fs as [|[a [n t]] [|f2 fs]].
    + cbn [map] in Hs. apply option_map_some in Hs as (l & Hl & ->). apply G, Hl.
    + cbn [map fser fst snd] in Hs. destruct (serde_skips a || serde_skips_if a) eqn:E; [discriminate|]. apply orb_false_iff in E as [E1 E2].
      destruct vs as [|v [|v' vs]]; try discriminate. apply option_map_some in Hs as (s & Hs & ->).
      specialize (G [(n, s)]). cbn [map fser fst snd ser_fields] in G. rewrite E1, E2, Hs in G. specialize (G eq_refl). destruct G as [G1 G2].
      cbn [ser map] in G1, G2. change (wconcat [ser s]) with (wseq (ser s) WDone) in G1, G2. rewrite wseq_done_r in G1, G2. split; assumption.
    + cbn [map] in Hs. apply option_map_some in Hs as (l & Hl & ->). apply G, Hl.
  - destruct fs as [|f fs]; cbn [map] in Hs; [|discriminate]. destruct vs; [|discriminate]. injection Hs as <-. destruct ws; [|contradiction].
    split; [reflexivity|apply parses_ret].
Qed.
Lemma variant_wrd c dflt omit i k fs vs ws sv : Forall (fok c dflt omit) fs -> NoDup (map df_name (kept (map (dfl c dflt) fs))) ->
  pairwise (map (fback c dflt) fs) vs ws -> rser_variant omit i k (map (fser c omit) fs) vs = Some sv ->
  wresult (ser sv) = WeOk /\ exists u, wbytes (ser sv) = enc_u32 i ++ u /\ parses c ERead (members_de k (map (dfl c dflt) fs)) u ws.
Proof.
  intros Hf Hnd Hb Hs. pose proof (members_mem c dflt omit omit fs Hf vs ws) as HM. unfold rser_variant in Hs. destruct k; cbn [members_de].
  - apply option_map_some in Hs as (l & Hl & ->). specialize (HM l Hb Hl). cbn [ser]. unfold ser_u32.
    rewrite wresult_seq_wr, wbytes_seq_wr, <- (map_map snd ser l). split; [apply (wconcat_ok ser), (mem_ok _ _ _ _ HM)|].
    eexists; split; [reflexivity|]. apply mem_map; assumption.
  - assert (G : forall l, ser_fields omit (map (fser c omit) fs) vs = Some l -> wrd c (seq_fields (map (dfl c dflt) fs)) (STupleStruct (map snd l)) ws).
    { intros l Hl. specialize (HM l Hb Hl). split; cbn [ser]; [apply (wconcat_ok ser), (mem_ok _ _ _ _ HM)|apply mem_seq; assumption]. }
    assert (GV : forall l, ser_fields omit (map (fser c omit) fs) vs = Some l -> wresult (ser (STupleVariant i (map snd l))) = WeOk /\
      exists u, wbytes (ser (STupleVariant i (map snd l))) = enc_u32 i ++ u /\ parses c ERead (seq_fields (map (dfl c dflt) fs)) u ws).
    { intros l Hl. destruct (G l Hl) as [G1 G2]. cbn [ser] in *. unfold ser_u32. rewrite wresult_seq_wr, wbytes_seq_wr. split; [exact G1|].
      eexists; split; [reflexivity|exact G2]. }
    destruct fs as [|[a [n t]] [|f2 fs]].
    + cbn [map] in Hs. apply option_map_some in Hs as (l & Hl & ->). apply GV, Hl.
    + cbn [map fser fst snd] in Hs. destruct vs as [|v [|v' vs]]; try discriminate. inversion Hf as [|? ? F _]; subst. unfold fok in F. cbn [fst snd] in F.
      rewrite serde_skips_eq in Hs. destruct F as [[F1 F2]|(F1 & F2 & F3 & F4)].
      * rewrite (proj2 (skip_iff a)) in Hs by exact F1. injection Hs as <-. split; [reflexivity|]. exists []. split; [reflexivity|].
        cbn [map seq_fields dfl df_attrs fst]. rewrite (proj2 (skip_de_iff a)) by exact F2. cbn [bind dfl df_dflt fst snd].
        destruct ws as [|w [|w' ws]]; try (destruct Hb; contradiction). destruct Hb as [[[_ ->]|[Hb _]] _]; [apply parses_ret|contradiction].
      * rewrite (proj2 (skip_false a)) in Hs by exact F1. apply option_map_some in Hs as (s & Hs & ->).
        specialize (G [(n, s)]). cbn [map fser fst snd ser_fields] in G. rewrite serde_skips_eq, serde_skips_if_eq, (proj2 (skip_false a)), (proj2 (skip_if_false a)), Hs in G by assumption.
        specialize (G eq_refl). destruct G as [G1 G2].
        cbn [ser map] in G1, G2. change (wconcat [ser s]) with (wseq (ser s) WDone) in G1, G2. rewrite wseq_done_r in G1, G2.
        cbn [ser]. unfold ser_u32. rewrite wresult_seq_wr, wbytes_seq_wr. split; [exact G1|]. eexists; split; [reflexivity|exact G2].
    + cbn [map] in Hs. apply option_map_some in Hs as (l & Hl & ->). apply GV, Hl.
  - destruct fs as [|f fs]; cbn [map] in Hs; [|discriminate]. destruct vs; [|discriminate]. injection Hs as <-. destruct ws; [|contradiction].
    split; [reflexivity|]. exists []. split; [reflexivity|apply parses_ret].
Qed.

Lemma alts_pick vs tail : forall j i a p, Forall (fun v => serde_skips_de (fst v) = false) vs -> pickN vs i = Some (a, p) ->
  pickN (enum_alts j (vs ++ tail)) i = Some (pmap (VVariant (j + i)) p).
Proof.
  induction vs as [|[a0 p0] vs IH]; intros j i a p Hf Hp; [discriminate|]. inversion Hf as [|? ? F Hf']; subst. cbn [fst] in F.
  cbn [app enum_alts pickN] in *. rewrite F. cbn [pickN]. destruct (N.eqb_spec i 0) as [->|Hi].
  - injection Hp as <- <-. rewrite N.add_0_r. reflexivity.
  - rewrite (IH (j + 1) (i - 1) a p Hf' Hp). do 3 f_equal. lia.
Qed.

(** ** Elements and entries *)
Lemma elems_wrd c dflt omit t vs ws ss : rd c dflt omit t -> Forall2 (comes_back c dflt t) vs ws ->
  all_some (map (rser c omit t) vs) = Some ss -> Forall2 (wrd c (rde c dflt t)) ss ws.
Proof.
  intros Ht H. revert ss; induction H as [|v w vs ws Hv _ IH]; intros ss Hs; cbn [map] in Hs.
  - injection Hs as <-. constructor.
  - apply all_some_cons in Hs as (s & ss' & H1 & H2 & ->). constructor; [apply (Ht v); assumption|apply IH, H2].
Qed.
Lemma list_wrd {A} c (p : prog A) ss ws : Forall2 (wrd c p) ss ws ->
  wresult (wconcat (map ser ss)) = WeOk /\ wbytes (wconcat (map ser ss)) = concat (map (fun s => wbytes (ser s)) ss) /\
  Forall2 (parses c ERead p) (map (fun s => wbytes (ser s)) ss) ws.
Proof.
  intros H. destruct (wconcat_ok ser ss) as [H1 H2]; [induction H as [|s b ss ws [Hw _] _ IH]; constructor; assumption|].
  split; [exact H1|]. split; [exact H2|]. clear H1 H2. induction H as [|s b ss ws [_ Hp] _ IH]; constructor; assumption.
Qed.
Lemma entries_wrd {A} c (p : prog A) ks ss (bs : list A) : wf_cfg c -> Forall (fun k => str_ok c k = true) ks -> length ks = length bs ->
  Forall2 (wrd c p) ss bs ->
  let l := combine (map SStr ks) ss in
  wresult (wconcat (map (fun kv => wseq (ser_key (fst kv)) (ser (snd kv))) l)) = WeOk /\
  parses c ERead (de_map_n c (lenN ks) p)
    (wbytes (wconcat (map (fun kv => wseq (ser_key (fst kv)) (ser (snd kv))) l)))
    (insert_all (combine ks bs) []).
Proof.
  intros Hc Hk Hl HF. cbv zeta.
  set (xs := combine ks (combine bs (map (fun s => wbytes (ser s)) ss))).
  assert (Hlss : length ss = length bs) by (eapply Forall2_length; exact HF).
  assert (E1 : wresult (wconcat (map (fun kv => wseq (ser_key (fst kv)) (ser (snd kv))) (combine (map SStr ks) ss))) = WeOk /\
     wbytes (wconcat (map (fun kv => wseq (ser_key (fst kv)) (ser (snd kv))) (combine (map SStr ks) ss))) =
     concat (map (fun x => enc_str (fst x) ++ snd (snd x)) xs)).
  { destruct (wconcat_ok (fun kv => wseq (ser_key (fst kv)) (ser (snd kv))) (combine (map SStr ks) ss)) as [H1 H2].
    - clear - HF. revert ks; induction HF as [|s b ss bs [Hw _] _ IH]; intros [|k ks]; cbn [map combine]; constructor; [|apply IH].
      cbn [fst snd ser_key]. exact Hw.
    - split; [exact H1|]. rewrite H2. f_equal. unfold xs. clear - HF Hl. revert ks Hl.
      induction HF as [|s b ss bs _ _ IH]; intros [|k ks] Hl; try discriminate; [reflexivity|]. cbn [map combine fst snd].
      f_equal; [|apply IH; injection Hl as Hl; exact Hl]. cbn [ser_key]. unfold ser_str, ser_u64, enc_str. cbn [wseq wr wbytes].
      rewrite <- app_assoc. reflexivity. }
  destruct E1 as [E1 E2]. split; [exact E1|]. rewrite E2.
  assert (Hlx : lenN ks = lenN xs).
  { unfold lenN, xs. rewrite !combine_length, map_length. lia. }
  rewrite Hlx. unfold de_map_n.
  assert (E3 : insert_all (combine ks bs) [] = fold_left (fun acc x => map_insert (fst x) (fst (snd x)) acc) xs []).
  { unfold insert_all. replace (combine ks bs) with (map (fun x : list N * (A * list N) => (fst x, fst (snd x))) xs).
    - rewrite fold_left_map. reflexivity.
    - unfold xs. clear - Hl Hlss. revert bs ss Hl Hlss. induction ks as [|k ks IH]; intros [|b bs] [|s ss] H1 H2; try discriminate; [reflexivity|].
      cbn [map combine fst snd]. f_equal. apply IH; [injection H1 as H1; exact H1|injection H2 as H2; exact H2]. }
  rewrite E3.
  apply (parses_foldN c ERead (fun m => k <- de_string c ;; v <- p ;; Ret (map_insert k v m))
           (fun x => enc_str (fst x) ++ snd (snd x)) (fun acc x => map_insert (fst x) (fst (snd x)) acc)).
  unfold xs. clear - Hc Hk HF Hl. revert ks Hk Hl. induction HF as [|s b ss bs [_ Hp] _ IH]; intros [|k ks] Hk Hl; try discriminate; [constructor|].
  inversion Hk; subst. cbn [map combine]. constructor; [|apply IH; [assumption|injection Hl as Hl; exact Hl]].
  intros m. cbn [fst snd]. apply andb_prop in H1 as [Hk1 Hk2].
  eapply parses_bind; [apply parses_string; [exact Hc|exact Hk1|apply N.ltb_lt, Hk2]|].
  eapply parses_bind_ret; [exact Hp|reflexivity].
Qed.

Lemma map_wrd c dflt omit t m ws m' sv : wf_cfg c -> rd c dflt omit t -> lenN m < 2 ^ usize_bits c ->
  Forall (fun kv => str_ok c (fst kv) = true) m -> NoDup (map fst m) -> Forall2 (comes_back c dflt t) (map snd m) ws ->
  Permutation (combine (map fst m) ws) m' -> sorted_keys m' = true ->
  option_map (SMap (Some (lenN m))) (map_some (fun kv => option_map (pair (SStr (fst kv))) (rser c omit t (snd kv))) m) = Some sv ->
  wrd c (pmap VMap (de_map c (rde c dflt t))) sv (VMap m').
Proof.
  intros Hc Ht Hl Hk Hnd Hall Hperm Hsort Hs. apply option_map_some in Hs as (l & Hs & ->).
  assert (Hlen : length (map fst m) = length ws).
  { apply Forall2_length in Hall. rewrite map_length in *. exact Hall. }
  assert (Hsplit : exists ss, all_some (map (rser c omit t) (map snd m)) = Some ss /\ l = combine (map SStr (map fst m)) ss).
  { clear - Hs. unfold map_some in Hs. revert l Hs. induction m as [|[k v] m IH]; intros l Hs; cbn [map fst snd] in *.
    - injection Hs as <-. exists []. auto.
    - apply all_some_cons in Hs as (a & l' & H1 & H2 & ->). apply option_map_some in H1 as (s & H1 & ->).
      destruct (IH l' H2) as (ss & H3 & ->). exists (s :: ss). rewrite all_some_cons. split; [eauto|reflexivity]. }
  destruct Hsplit as (ss & Hss & ->).
  pose proof (elems_wrd c dflt omit t _ ws ss Ht Hall Hss) as HF.
  destruct (entries_wrd c (rde c dflt t) (map fst m) ss ws Hc) as [H1 H2]; try assumption.
  { apply Forall_map. exact Hk. }
  apply (wrd_pmap c (de_map c (rde c dflt t)) VMap) with (a := m'). split; cbn [ser ser_len]; unfold ser_u64; rewrite ?wresult_seq_wr, ?wbytes_seq_wr; [exact H1|].
  unfold de_map. eapply parses_bind; [apply parses_u64, (lt_usize_64 c); assumption|]. rewrite as_usize_id by exact Hl.
  replace (lenN m) with (lenN (map fst m)) by (unfold lenN; rewrite map_length; reflexivity).
  replace m' with (insert_all (combine (map fst m) ws) []); [exact H2|].
  rewrite (insert_all_perm _ m'); [|rewrite map_fst_combine by exact Hlen; exact Hnd|exact Hperm].
  unfold insert_all. rewrite insert_all_sorted; [reflexivity|exact Hsort|apply Forall_forall; intros; constructor].
Qed.

Lemma not_skipped_de_nil : ~ skipped_de [].
Proof. intros [(a & ns & [] & _)|(a & ns & [] & _)]. Qed.
Lemma run_seq_plain c dflt ts : forall s,
  run c (seq_fields (map (dfl c dflt) (map (fun t => ([], (EmptyString, t))) ts))) s = run c (sequence (map (rde c dflt) ts)) s.
Proof.
  induction ts as [|t ts IH]; intros s; [reflexivity|]. cbn [map seq_fields sequence dfl df_attrs df_read fst snd].
  change (serde_skips_de []) with false. cbv iota. rewrite !run_bind. destruct (run c (rde c dflt t) s); cbn [obind]; [|reflexivity|reflexivity].
  rewrite !run_bind, IH. reflexivity.
Qed.

Lemma fok_fields c dflt omit fs : readable_fields fs ->
  Forall (fun f => readable (snd (snd f)) -> rd c dflt omit (snd (snd f))) fs ->
  Forall (fok c dflt omit) fs /\ NoDup (map df_name (kept (map (dfl c dflt) fs))).
Proof.
  intros H IH. inversion H as [? Hf Hn]; subst. split; [|apply kept_names, Hn].
  rewrite Forall_forall in IH, Hf |- *. intros f Hin. destruct (Hf f Hin) as [Hs|(H1 & H2 & H3 & H4)]; [left; exact Hs|right].
  split; [exact H1|split; [exact H2|split; [exact H3|]]]. apply IH; assumption.
Qed.

Theorem rde_rser c dflt omit t : wf_cfg c -> 4096 <= heap_limit c -> readable t -> rd c dflt omit t.
Proof.
  intros Hc Hh. apply (rty_ind2 (fun t => readable t -> rd c dflt omit t)); clear t.
  - intros l _ v w sv Hb Hs. exact (leaf_wrd c l v w sv Hc Hh Hb Hs).
  - intros t IH Hr v w sv Hb Hs. inversion Hr; subst. cbn [comes_back] in Hb. cbn [rde].
    destruct Hb as [[-> ->]|(v' & w' & -> & -> & Hb)]; cbn [rser] in Hs.
    + injection Hs as <-. split; [reflexivity|]. cbn [ser]. apply (parses_pmap _ _ (de_option (rde c dflt t)) (fun o => match o with Some v => VSome v | None => VNone end) [0] None).
      apply (parses_bind_ret c ERead _ _ [0] false); [apply (parses_bool c false)|reflexivity].
    + apply option_map_some in Hs as (s & Hs & ->). destruct (IH H0 v' w' s Hb Hs) as [H1 H2].
      split; cbn [ser]; rewrite ?wresult_seq_wr, ?wbytes_seq_wr; [exact H1|].
      apply (parses_pmap _ _ (de_option (rde c dflt t)) (fun o => match o with Some v => VSome v | None => VNone end) _ (Some w')).
      eapply parses_bind; [apply (parses_bool c true)|]. apply parses_pmap, H2.
  - intros t IH Hr v w sv Hb Hs. inversion Hr; subst. cbn [comes_back] in Hb. destruct Hb as (vs & ws & -> & -> & Hl & Hall).
    cbn [rser] in Hs. apply option_map_some in Hs as (ss & Hs & ->). pose proof (elems_wrd c dflt omit t vs ws ss (IH H0) Hall Hs) as HF.
    destruct (list_wrd c _ ss ws HF) as (W1 & W2 & W3). cbn [rde].
    apply (wrd_pmap c (de_vec c (rde c dflt t)) VSeq) with (a := ws).
    split; cbn [ser ser_len]; unfold ser_u64; rewrite ?wresult_seq_wr, ?wbytes_seq_wr; [exact W1|]. rewrite W2.
    assert (Hlen : lenN vs = lenN ws) by (unfold lenN; f_equal; eapply Forall2_length; exact Hall).
    unfold de_vec. eapply parses_bind; [apply parses_u64, (lt_usize_64 c); assumption|]. rewrite as_usize_id by exact Hl.
    apply parses_repeatN; [exact W3|symmetry; exact Hlen].
  - intros t IH Hr v w sv Hb Hs. inversion Hr; subst. cbn [comes_back] in Hb. destruct Hb as (m & ws & m' & -> & -> & Hl & Hk & Hnd & Hall & Hp & Hsd).
    cbn [rser] in Hs. cbn [rde]. eapply map_wrd; eauto.
  - intros t IH Hr v w sv Hb Hs. inversion Hr; subst. cbn [comes_back] in Hb. destruct Hb as (m & ws & m' & -> & -> & Hl & Hk & Hnd & Hall & Hp & Hsd).
    cbn [rser] in Hs. cbn [rde]. eapply map_wrd; eauto.
  - intros ts IH Hr v w sv Hb Hs. inversion Hr as [| | | | |? HR| |]; subst. cbn [comes_back] in Hb. destruct Hb as (vs & ws & -> & -> & Hb).
    cbn [rser] in Hs. apply option_map_some in Hs as (l & Hl & ->). cbn [rde].
    assert (HM : mem c (map (dfl c dflt) (map (fun t => ([], (EmptyString, t))) ts)) (map snd l) ws).
    { apply (members_mem c dflt omit (fun _ _ => false)) with (vs := vs).
      - apply Forall_map. rewrite Forall_forall in IH, HR |- *. intros t Ht. right. cbn [fst snd].
        split; [apply not_skipped_nil|]. split; [apply not_skipped_de_nil|]. split; [apply not_skipped_if_nil|]. apply IH; [exact Ht|apply HR, Ht].
      - clear - Hb. revert vs ws Hb. induction ts as [|t ts IH]; intros [|v vs] [|w ws] Hb; cbn [map pairwise] in *; try exact Hb.
        destruct Hb as [H1 H2]. split; [|apply IH, H2]. right. cbn [fst snd]. split; [apply not_skipped_nil|exact H1].
      - rewrite map_map. exact Hl. }
    apply (wrd_pmap c (sequence (map (rde c dflt) ts)) VSeq) with (a := ws). split; cbn [ser].
    + apply (wconcat_ok ser), (mem_ok _ _ _ _ HM).
    + eapply parses_ext; [intros s; symmetry; apply run_seq_plain|]. apply mem_seq, HM.
  - intros k fs IH Hr v w sv Hb Hs. inversion Hr as [| | | | | |? ? HR|]; subst. cbn [comes_back] in Hb. destruct Hb as (vs & ws & -> & -> & Hb).
    destruct (fok_fields c dflt omit fs HR IH) as [HF Hnd]. cbn [rser rde] in *.
    apply (wrd_pmap c (members_de k (map (dfl c dflt) fs)) VSeq) with (a := ws). eapply struct_wrd; eassumption.
  - intros vars IH Hr v w sv Hb Hs. inversion Hr as [| | | | | | |kept tail HK HT HL E]; subst. cbn [comes_back] in Hb.
    destruct Hb as (i & vs & ws & R & -> & -> & HA & HP & HB). cbn [rser] in Hs. rewrite pickN_map in Hs. pose proof (eq_trans (eq_sym (pickN_map _ _ _)) HP) as HP2. clear HP. rename HP2 into HP.
    destruct (pickN (kept ++ tail) i) as [[a [k fs]]|] eqn:E; [|discriminate]. cbn [option_map fst snd] in Hs, HP. injection HP as <-.
    pose proof (HA _ eq_refl) as Ea. cbn [fst] in Ea. rewrite serde_skips_eq, (proj2 (skip_false a)) in Hs by exact Ea.
    assert (Hi : pickN kept i = Some (a, (k, fs))).
    { clear - E HT Ea. revert i E. induction kept as [|x kept IHk]; intros i E; cbn [app pickN] in *.
      - exfalso. apply pickN_some in E as [Hin _]. rewrite Forall_forall in HT. apply HT in Hin. contradiction.
      - destruct (i =? 0); [exact E|]. apply IHk, E. }
    pose proof (pickN_some _ _ _ Hi) as [Hin Hlt].
    rewrite Forall_forall in HK. destruct (HK _ Hin) as [_ HRF]. cbn [snd] in HRF.
    rewrite Forall_forall in IH. specialize (IH _ (in_or_app kept tail _ (or_introl Hin))). cbn [snd] in IH.
    destruct (fok_fields c dflt omit fs HRF IH) as [HF Hnd].
    destruct (variant_wrd c dflt omit i k fs vs ws sv HF Hnd HB Hs) as (W1 & u & W2 & W3).
    split; [exact W1|]. rewrite W2. cbn [rde]. rewrite idx_agree by lia.
    eapply parses_bind; [apply parses_u16; change (2 ^ 16) with 65536; lia|]. rewrite map_app.
    rewrite (alts_pick _ _ 0 i a (members_de k (map (dfl c dflt) fs))).
    + rewrite N.add_0_l. apply parses_pmap, W3.
    + apply Forall_map, Forall_forall. intros x Hx. cbn [fst]. apply skip_de_false. apply (HK x Hx).
    + rewrite pickN_map, Hi. reflexivity.
  - intros Hr. inversion Hr.
  - intros i Hr. inversion Hr.
Qed.

(** ** Which panics a type admits *)
Definition anyE (_ : derr) : Prop := True.
Lemma ends_leaf c l : wf_cfg c -> 4096 <= heap_limit c -> ends c anyE (leaf_panics c l) (leaf_de c l).
Proof.
  intros Hc Hh. assert (He : forall e, anyE e) by (intros; exact I).
  assert (Hd : forall l, (overflow_checks c = true -> leaf_panics c l POverflow) -> ends c anyE (leaf_panics c l) (fmt_de_date c) /\ ends c anyE (leaf_panics c l) (de_date c)).
  { intros l0 Ho. split; (apply ends_bind; [apply ends_pmap, ends_u32, He|]; intros y0; apply ends_bind;
      [unfold arith_s; destruct (in_s _ _); [apply ends_Ret|]; destruct (overflow_checks c); [apply ends_Crash, Ho, eq_refl|apply ends_Ret]|];
      intros y; apply ends_bind; [apply ends_u16, He|]; intros o0; apply ends_bind;
      [unfold arith_u; destruct (_ && _); [apply ends_Ret|]; destruct (overflow_checks c); [apply ends_Crash, Ho, eq_refl|apply ends_Ret]|]; intros o).
    - destruct (from_ordinal_date y o); [apply ends_Ret|apply ends_Fail, He].
    - apply ends_Ret. }
  destruct l; cbn [leaf_de]; try apply ends_Ret; try (apply ends_Crash; reflexivity);
    try (apply ends_pmap; first [apply ends_bool, He | apply ends_byte, He | apply ends_u16, He | apply ends_u32, He | apply ends_u64, He | apply ends_string, He | apply ends_byte_buf; auto
      | apply ends_vec; [apply He|apply ends_byte, He]
      | apply ends_pmap; first [apply ends_byte, He | apply ends_u16, He | apply ends_u32, He | apply ends_u64, He | apply ends_vec; [apply He|apply ends_byte, He]]
      | apply ends_ReadExact; [apply He|intros; apply ends_Ret]
      | apply Hd; cbn; auto]).
  - apply ends_pmap, ends_bind; [apply ends_vec; [apply He|apply ends_byte, He]|]. intros [|b bs]; [apply ends_Ret|].
    apply ends_bind; [apply ends_pmap, ends_u64, He|]. intros; apply ends_Ret.
  - apply ends_pmap, ends_bind; [apply ends_vec; [apply He|apply ends_byte, He]|]. intros bs. cbv zeta. destruct (_ =? 0)%Z; [apply ends_Ret|].
    apply ends_bind; [apply ends_pmap, ends_u64, He|]. intros; apply ends_Ret.
  - apply ends_pmap, ends_bind; [apply ends_pmap, ends_u64, He|]. intros t. apply ends_bind; [apply ends_u32, He|]. intros; apply ends_Ret.
  - apply ends_pmap, ends_bind; [apply ends_pmap, ends_u64, He|]. intros t. apply ends_bind; [apply ends_u32, He|]. intros n.
    destruct (from_unix_timestamp t); [|apply ends_Fail, He]. destruct (odt_add_ns _ _); [apply ends_Ret|apply ends_Crash; reflexivity].
Qed.
Lemma ends_struct_loop {A} c Q (fs : list (string * prog A)) : Forall (fun f => ends c anyE Q (snd f)) fs ->
  forall keys slots, incl keys (map fst fs) -> ends c anyE Q (struct_loop keys fs slots).
Proof.
  intros Hf keys; induction keys as [|k keys IH]; intros slots Hk; cbn [struct_loop]; [apply ends_Ret|].
  assert (E : exists i p, find_field k fs = Some (i, p) /\ ends c anyE Q p).
  { assert (Hin : In k (map fst fs)) by (apply Hk; left; reflexivity). clear - Hf Hin. induction Hf as [|[n p] fs Hp _ IHf]; [destruct Hin|].
    cbn [find_field]. destruct (String.eqb_spec k n) as [->|Hn]; [exists O, p; auto|].
    destruct Hin as [Hin|Hin]; [cbn [fst] in Hin; congruence|]. destruct (IHf Hin) as (i & q & -> & Hq). exists (S i), q; auto. }
  destruct E as (i & p & -> & Hp). destruct (nth_error slots i) as [[|]|]; try (apply ends_Fail; exact I).
  apply ends_bind; [exact Hp|]. intros a. apply IH. intros x Hx. apply Hk. right. exact Hx.
Qed.
Lemma ends_members c Q k fs : Forall (fun f => serde_skips_de (df_attrs f) = true \/ ends c anyE Q (df_read f)) fs -> ends c anyE Q (members_de k fs).
Proof.
  intros Hf. destruct k; cbn [members_de]; [| |apply ends_Ret].
  - unfold map_fields. apply ends_bind.
    + apply ends_struct_loop.
      * apply Forall_map. cbn [snd]. apply Forall_forall. intros f Hin. unfold kept in Hin. apply filter_In in Hin as [Hin Hs].
        rewrite Forall_forall in Hf. destruct (Hf f Hin) as [H|H]; [|exact H]. rewrite H in Hs. discriminate.
      * rewrite map_map. cbn [fst]. apply incl_refl.
    + intros slots. clear Hf. revert slots. induction fs as [|f fs IH]; intros slots; cbn [fill_fields]; [apply ends_Ret|].
      destruct (serde_skips_de (df_attrs f)); [apply ends_bind; [apply IH|intros; apply ends_Ret]|].
      destruct slots as [|[v|] slots]; [apply ends_Fail; exact I|apply ends_bind; [apply IH|intros; apply ends_Ret]|].
      destruct (df_miss f); [apply ends_bind; [apply IH|intros; apply ends_Ret]|apply ends_Fail; exact I].
  - induction Hf as [|f fs H _ IH]; cbn [seq_fields]; [apply ends_Ret|].
    destruct (serde_skips_de (df_attrs f)); [apply ends_bind; [exact IH|intros; apply ends_Ret]|]. destruct H as [H|H]; [discriminate|].
    apply ends_bind; [exact H|]. intros v. apply ends_bind; [exact IH|intros; apply ends_Ret].
Qed.
Definition type_panics (c : cfg) (t : rty) (q : panic) : Prop := exists l, reads_leaf l t /\ leaf_panics c l q.
Lemma ends_alts c Q vs : Forall (fun v => serde_skips_de (fst v) = true \/ ends c anyE Q (snd v)) vs -> forall j, Forall (ends c anyE Q) (enum_alts j vs).
Proof.
  induction 1 as [|[a p] vs H _ IH]; intros j; cbn [enum_alts]; [constructor|]. cbn [fst snd] in H.
  destruct (serde_skips_de a); [apply IH|]. destruct H as [H|H]; [discriminate|]. constructor; [apply ends_pmap, H|apply IH].
Qed.
Lemma ends_fields c dflt t fs : Forall (fun f => ends c anyE (type_panics c (snd (snd f))) (rde c dflt (snd (snd f)))) fs ->
  (forall f l, In f fs -> ~ skipped_de (fst f) -> reads_leaf l (snd (snd f)) -> reads_leaf l t) ->
  Forall (fun f => serde_skips_de (df_attrs f) = true \/ ends c anyE (type_panics c t) (df_read f)) (map (dfl c dflt) fs).
Proof.
  intros Hf Ht. apply Forall_map, Forall_forall. intros f Hin. cbn [dfl df_attrs df_read]. destruct (serde_skips_de (fst f)) eqn:E; [left; reflexivity|right].
  rewrite Forall_forall in Hf. eapply ends_weaken; [apply (Hf f Hin)|auto|]. intros q (l & H1 & H2). exists l. split; [|exact H2].
  apply (Ht f); [exact Hin|apply skip_de_false, E|exact H1].
Qed.
Theorem ends_rde c dflt t : wf_cfg c -> 4096 <= heap_limit c -> ends c anyE (type_panics c t) (rde c dflt t).
Proof.
  intros Hc Hh. assert (He : forall e, anyE e) by (intros; exact I).
  assert (HW : forall A t t' (p : prog A), ends c anyE (type_panics c t) p -> (forall l, reads_leaf l t -> reads_leaf l t') -> ends c anyE (type_panics c t') p).
  { intros A t0 t' p H Hr. eapply ends_weaken; [exact H|auto|]. intros q (l & H1 & H2). exists l; auto. }
  apply (rty_ind2 (fun t => ends c anyE (type_panics c t) (rde c dflt t))); clear t; cbn [rde].
  - intros l. eapply ends_weaken; [apply ends_leaf; assumption|auto|]. intros q Hq. exists l. split; [constructor|exact Hq].
  - intros t IH. apply ends_pmap, ends_bind; [apply ends_bool, He|]. intros [|]; [|apply ends_Ret]. apply ends_pmap.
    apply (HW _ t); [exact IH|]. intros; constructor; assumption.
  - intros t IH. apply ends_pmap, ends_vec; [apply He|]. apply (HW _ t); [exact IH|]. intros; constructor; assumption.
  - intros t IH. apply ends_pmap, ends_map; [apply He|]. apply (HW _ t); [exact IH|]. intros; constructor; assumption.
  - intros t IH. apply ends_pmap, ends_map; [apply He|]. apply (HW _ t); [exact IH|]. intros; constructor; assumption.
  - intros ts IH. apply ends_pmap, ends_sequence, Forall_map, Forall_forall. intros t Ht. rewrite Forall_forall in IH.
    apply (HW _ t); [apply IH, Ht|]. intros l Hl. exact (rl_tuple l ts t Ht Hl).
  - intros k fs IH. apply ends_pmap. apply (ends_members c _ k (map (dfl c dflt) fs)), ends_fields; [exact IH|].
    intros f l Hin Hs Hl. exact (rl_struct l k fs f Hin Hs Hl).
  - intros vs IH. apply ends_bind; [apply ends_u16, He|]. intros i.
    destruct (pickN _ i) as [p|] eqn:E; [|apply ends_Fail, He]. apply pickN_some in E as [Hin _].
    eapply Forall_forall; [|exact Hin]. apply ends_alts, Forall_map, Forall_forall. intros v Hv. cbn [fst snd].
    destruct (serde_skips_de (fst v)) eqn:E; [left; reflexivity|right]. rewrite Forall_forall in IH.
    apply (ends_members c _ (fst (snd v)) (map (dfl c dflt) (snd (snd v)))), ends_fields; [apply (IH v Hv)|].
    intros f l Hf Hs Hl. apply (rl_enum l vs v f); try assumption. apply skip_de_false, E.
  - apply ends_Fail, He.
  - intros i. apply ends_Fail, He.
Qed.

(** ** Skipped variants *)
Lemma alts_from vs : forall j i p, pickN (enum_alts j vs) i = Some p -> exists q m, p = pmap (VVariant m) q /\ j + i <= m.
Proof.
  induction vs as [|[a p0] vs IH]; intros j i p H; cbn [enum_alts] in H; [discriminate|].
  destruct (serde_skips_de a).
  - destruct (IH _ _ _ H) as (q & m & -> & Hm). exists q, m. split; [reflexivity|lia].
  - cbn [pickN] in H. destruct (N.eqb_spec i 0) as [->|Hi].
    + injection H as <-. exists p0, j. split; [reflexivity|lia].
    + destruct (IH _ _ _ H) as (q & m & -> & Hm). exists q, m. split; [reflexivity|lia].
Qed.
Lemma alts_shift vs : forall j i k b p, k <= i -> pickN vs k = Some b -> serde_skips_de (fst b) = true ->
  pickN (enum_alts j vs) i = Some p -> exists q m, p = pmap (VVariant m) q /\ j + i < m.
Proof.
  induction vs as [|[a p0] vs IH]; intros j i k b p Hk Hb Hs H; [discriminate|]. cbn [enum_alts] in H. cbn [pickN] in Hb.
  destruct (N.eqb_spec k 0) as [->|Hk0].
  - injection Hb as <-. cbn [fst] in Hs. rewrite Hs in H. destruct (alts_from _ _ _ _ H) as (q & m & -> & Hm). exists q, m. split; [reflexivity|lia].
  - destruct (serde_skips_de a).
    + destruct (alts_from _ _ _ _ H) as (q & m & -> & Hm). exists q, m. split; [reflexivity|lia].
    + cbn [pickN] in H. destruct (N.eqb_spec i 0) as [->|Hi]; [lia|].
      destruct (IH (j + 1) (i - 1) (k - 1) b p) as (q & m & -> & Hm); try assumption; [lia|]. exists q, m. split; [reflexivity|lia].
Qed.
Lemma ser_variant_bytes c omit vs i l sv : (forall var, pickN vs i = Some var -> ~ skipped (fst var)) ->
  rser c omit (REnum vs) (VVariant i l) = Some sv -> i < lenN vs /\ exists u, wbytes (ser sv) = enc_u32 i ++ u.
Proof.
  cbn [rser]. rewrite pickN_map. destruct (pickN vs i) as [[a [k fs]]|] eqn:E; [|discriminate]. intros Ha. apply pickN_some in E as [_ Hi]. cbn [option_map fst snd].
  rewrite serde_skips_eq, (proj2 (skip_false a)) by exact (Ha _ eq_refl). unfold rser_variant. intros H. split; [exact Hi|]. destruct k.
  - apply option_map_some in H as (x & _ & ->). eexists. cbn [ser]. unfold ser_u32. apply wbytes_seq_wr.
  - destruct fs as [|[a1 [n1 t1]] [|f fs]]; cbn [map fst snd] in H.
    + apply option_map_some in H as (x & _ & ->). eexists. cbn [ser]. unfold ser_u32. apply wbytes_seq_wr.
    + destruct l as [|v [|v' l]]; try discriminate. destruct (serde_skips a1).
      * injection H as <-. exists []. reflexivity.
      * apply option_map_some in H as (x & _ & ->). eexists. cbn [ser]. unfold ser_u32. apply wbytes_seq_wr.
    + apply option_map_some in H as (x & _ & ->). eexists. cbn [ser]. unfold ser_u32. apply wbytes_seq_wr.
  - destruct fs; [|discriminate]. destruct l; [|discriminate]. injection H as <-. exists []. reflexivity.
Qed.
Lemma variant_moves c dflt omit vs k b i l sv : k <= i -> pickN vs k = Some b -> skipped_de (fst b) -> lenN vs <= 16384 ->
  (forall var, pickN vs i = Some var -> ~ skipped (fst var)) ->
  rser c omit (REnum vs) (VVariant i l) = Some sv -> forall rest w r,
  run c (rde c dflt (REnum vs)) (wbytes (ser sv) ++ rest) = OOk w r -> exists j l', w = VVariant j l' /\ i < j.
Proof.
  intros Hk Hb Hs Hn Ha H rest w r. destruct (ser_variant_bytes _ _ _ _ _ _ Ha H) as [Hi (u & ->)]. cbn [rde]. rewrite run_bind, idx_agree by lia.
  rewrite <- app_assoc, (proj1 (parses_u16 c ERead i ltac:(change (2 ^ 16) with 65536; lia))). cbn [obind].
  destruct (pickN (enum_alts 0 _) i) as [p|] eqn:E; [|discriminate].
  eapply alts_shift with (k := k) in E; [|exact Hk|rewrite pickN_map, Hb; reflexivity|apply skip_de_iff, Hs].
  destruct E as (q & m & -> & Hm). rewrite run_pmap. destruct (run c q _) as [x r'| |]; cbn [obind]; try discriminate.
  intros E; injection E as <- _. exists m, x. split; [reflexivity|lia].
Qed.

Lemma alts_number {A} (f : attrs * A -> prog (list rval)) vs : forall j i p, pickN (enum_alts j (map (fun v => (fst v, f v)) vs)) i = Some p ->
  exists vs1 b vs2 q, vs = vs1 ++ b :: vs2 /\ read_variants vs1 i /\ ~ skipped_de (fst b) /\ p = pmap (VVariant (j + lenN vs1)) q.
Proof.
  induction vs as [|v vs IH]; intros j i p H; cbn [map enum_alts] in H; [discriminate|].
  destruct (serde_skips_de (fst v)) eqn:E.
  - destruct (IH _ _ _ H) as (vs1 & b & vs2 & q & -> & H1 & H2 & ->). exists (v :: vs1), b, vs2, q. split; [reflexivity|].
    split; [apply rv_skip; [apply skip_de_iff, E|exact H1]|]. split; [exact H2|]. rewrite lenN_cons. do 2 f_equal. lia.
  - apply skip_de_false in E. cbn [pickN] in H. destruct (N.eqb_spec i 0) as [->|Hi].
    + injection H as <-. exists [], v, vs, (f v). split; [reflexivity|]. split; [constructor|]. split; [exact E|]. rewrite lenN_nil, N.add_0_r. reflexivity.
    + destruct (IH _ _ _ H) as (vs1 & b & vs2 & q & -> & H1 & H2 & ->). exists (v :: vs1), b, vs2, q. split; [reflexivity|].
      split; [replace i with (i - 1 + 1) by lia; apply rv_keep; assumption|]. split; [exact H2|]. rewrite lenN_cons. do 2 f_equal. lia.
Qed.
Lemma alts_short {A} (f : attrs * A -> prog (list rval)) vs n : read_variants vs n -> forall j i, n <= i ->
  pickN (enum_alts j (map (fun v => (fst v, f v)) vs)) i = None.
Proof.
  induction 1 as [|v vs n Hs _ IH|v vs n Hs _ IH]; intros j i Hi; cbn [map enum_alts]; [reflexivity|..].
  - apply skip_de_iff in Hs. rewrite Hs. apply IH, Hi.
  - apply skip_de_false in Hs. rewrite Hs. cbn [pickN]. destruct (N.eqb_spec i 0); [lia|]. apply IH. lia.
Qed.
Lemma variant_number c dflt vs i s : i < 2 ^ 16 ->
  (forall w r, run c (rde c dflt (REnum vs)) (varint_bytes 2 i ++ s) = OOk w r ->
    exists vs1 b vs2 l, vs = vs1 ++ b :: vs2 /\ read_variants vs1 i /\ ~ skipped_de (fst b) /\ w = VVariant (lenN vs1) l) /\
  (forall n, read_variants vs n -> n <= i -> run c (rde c dflt (REnum vs)) (varint_bytes 2 i ++ s) = OErr EMsg).
Proof.
  intros Hi. cbn [rde]. rewrite <- enc_u16_spec by exact Hi. rewrite run_bind, (proj1 (parses_u16 c ERead i Hi)). cbn [obind]. split.
  - intros w r. destruct (pickN (enum_alts 0 _) i) as [p|] eqn:E; [|discriminate].
    apply (alts_number (fun v => members_de _ _)) in E as (vs1 & b & vs2 & q & -> & H1 & H2 & ->). rewrite run_pmap.
    destruct (run c q s) as [x r'| |]; cbn [obind]; try discriminate. intros E; injection E as <- _.
    exists vs1, b, vs2, x. split; [reflexivity|]. split; [exact H1|]. split; [exact H2|reflexivity].
  - intros n Hn Hle. rewrite (alts_short (fun v => members_de _ _) vs n Hn) by exact Hle. reflexivity.
Qed.

(** ** Deciding [readable] *)
Fixpoint before_skipped {A} (vs : list (attrs * A)) : list (attrs * A) * list (attrs * A) :=
  match vs with
  | [] => ([], [])
  | v :: t => if is_skip_field (fst v) then ([], vs) else let (k, r) := before_skipped t in (v :: k, r)
  end.
Definition fields_b (rb : rty -> bool) (fs : list (attrs * (string * rty))) : bool :=
  forallb (fun f => (is_skip_field (fst f) && serde_skips_de (fst f)) ||
    (negb (is_skip_field (fst f)) && negb (serde_skips_de (fst f)) && negb (has_skip_serializing_if (fst f)) && rb (snd (snd f)))) fs &&
  nodupb (map (fun f => fst (snd f)) (filter (fun f => negb (serde_skips_de (fst f))) fs)).
Fixpoint readable_b (t : rty) : bool :=
  match t with
  | RLeaf _ => true
  | ROption t | RVec t | RBTreeMap t | RHashMap t => readable_b t
  | RTuple ts => forallb readable_b ts
  | RStruct _ fs => fields_b readable_b fs
  | REnum vs =>
      let (k, r) := before_skipped vs in
      forallb (fun v => is_skip_field (fst v)) r && (lenN k <=? 16384) &&
      forallb (fun v => is_skip_field (fst v) || (negb (serde_skips_de (fst v)) && fields_b readable_b (snd (snd v)))) vs
  | RUnion | RItem _ => false
  end.
Lemma before_skipped_spec {A} (vs : list (attrs * A)) : vs = fst (before_skipped vs) ++ snd (before_skipped vs) /\
  Forall (fun v => is_skip_field (fst v) = false) (fst (before_skipped vs)).
Proof.
  induction vs as [|v vs [IH1 IH2]]; [split; constructor|]. cbn [before_skipped]. destruct (is_skip_field (fst v)) eqn:E; [split; [reflexivity|constructor]|].
  destruct (before_skipped vs) as [k r]. cbn [fst snd] in *. split; [cbn [app]; f_equal; exact IH1|constructor; assumption].
Qed.
Lemma fields_b_ok rb fs : Forall (fun f => rb (snd (snd f)) = true -> readable (snd (snd f))) fs -> fields_b rb fs = true -> readable_fields fs.
Proof.
  intros IH H. apply andb_prop in H as [H1 H2]. constructor.
  - rewrite forallb_forall in H1. rewrite Forall_forall in IH |- *. intros f Hin. specialize (H1 f Hin). apply orb_prop in H1 as [H1|H1].
    + apply andb_prop in H1 as [Ha Hb]. left. split; [apply skip_iff, Ha|apply skip_de_iff, Hb].
    + apply andb_prop in H1 as [H1 Hd]. apply andb_prop in H1 as [H1 Hc]. apply andb_prop in H1 as [Ha Hb]. apply negb_true_iff in Ha, Hb, Hc.
      right. split; [apply skip_false, Ha|split; [apply skip_de_false, Hb|split; [apply skip_if_false, Hc|apply IH; assumption]]].
  - intros fs1 f fs2 g fs3 -> Hf Hg. apply nodupb_NoDup in H2. apply skip_de_false in Hf, Hg.
    rewrite filter_app in H2. cbn [filter] in H2. rewrite Hf in H2. cbn [negb] in H2. rewrite filter_app in H2. cbn [filter] in H2. rewrite Hg in H2. cbn [negb] in H2.
    rewrite map_app in H2. cbn [map] in H2. apply NoDup_remove_2 in H2. intros E. apply H2. rewrite map_app. cbn [map]. apply in_or_app; right. apply in_or_app; right. left. symmetry. exact E.
Qed.
Lemma readable_b_ok t : readable_b t = true -> readable t.
Proof.
  apply (rty_ind2 (fun t => readable_b t = true -> readable t)); clear t; cbn [readable_b].
  - intros; constructor.
  - intros t IH H. constructor; auto.
  - intros t IH H. constructor; auto.
  - intros t IH H. constructor; auto.
  - intros t IH H. constructor; auto.
  - intros ts IH H. constructor. rewrite forallb_forall in H. rewrite Forall_forall in *. auto.
  - intros k fs IH H. constructor. eapply fields_b_ok; eassumption.
  - intros vs IH H. destruct (before_skipped_spec vs) as [E Hk]. destruct (before_skipped vs) as [k r]. cbn [fst snd] in *.
    apply andb_prop in H as [H H3]. apply andb_prop in H as [H1 H2]. subst vs. constructor.
    + rewrite Forall_forall in *. rewrite forallb_forall in H3. intros v Hin. specialize (H3 v (in_or_app _ _ _ (or_introl Hin))).
      rewrite (Hk v Hin) in H3. cbn [orb] in H3. apply andb_prop in H3 as [Ha Hb]. apply negb_true_iff in Ha.
      split; [apply skip_de_false, Ha|]. eapply fields_b_ok; [|exact Hb]. apply (IH v). apply in_or_app; left; exact Hin.
    + rewrite forallb_forall in H1. apply Forall_forall. intros v Hin. apply skip_iff, H1, Hin.
    + apply N.leb_le, H2.
  - discriminate.
  - discriminate.
Qed.

Lemma skipped_variant_fails c omit vs i l b : pickN vs i = Some b -> skipped (fst b) ->
  exists sv, rser c omit (REnum vs) (VVariant i l) = Some sv /\ wbytes (ser sv) = [] /\ wresult (ser sv) = WeErr SEMsg.
Proof.
  intros Hp Hs. exists SError. split; [|split; reflexivity]. cbn [rser]. rewrite pickN_map, Hp. destruct b as [a [k fs]]. cbn [option_map fst snd] in *.
  apply skip_iff in Hs. rewrite serde_skips_eq, Hs. reflexivity.
Qed.
