(** * Proofs for PropAgain.v: writing what was read. *)
From Coq Require Import String Permutation.
From Verif Require Import Base BaseFacts Varint VarintFacts SpecVarint Utf8 Serde Typing SerdeFacts PrimFacts SerdeMore Consume SerdeSize WidthFacts MapFacts SerdeProps
  Big SpecBig BigFacts Time SpecTime TimeFacts BodyFacts Derive SpecDerive DeriveFacts DeriveBody DeriveDe SpecDeriveDe DeriveDeFacts DerivedFacts SpecWritten SpecAgain.
Local Open Scope list_scope.
Local Open Scope N_scope.

(** ** Derived types: what is written is read back *)
Lemma back_again c l v : wf_cfg c -> 4096 <= heap_limit c -> leaf_back c l v v ->
  exists sv, leaf_sval c l v = Some sv /\ wrd c (leaf_de c l) sv v.
Proof.
  intros Hc Hh Hb. assert (exists sv, leaf_sval c l v = Some sv) as [sv Hs].
  { destruct l, v; cbn [leaf_back leaf_sval] in *; try (destruct Hb; fail); eauto. }
  exists sv. split; [exact Hs|]. exact (leaf_wrd c l v v sv Hc Hh Hb Hs).
Qed.
Lemma wrd_wrapped_date c y0 o0 y o : in_s 32 y0 = true -> o0 < 2 ^ 16 -> arith_s c 32 (y0 + YEAR_OFFSET) = Some y ->
  arith_u c 16 (Z.of_N o0 + Z.of_N ORDINAL_OFFSET) = Some o -> wrd c (de_date c) (date_sval c y o) (y, o).
Proof.
  intros Hy Ho Ey Eo. unfold date_sval. rewrite (arith_s_inv _ _ _ Hy Ey), (arith_u_inv _ _ _ Ho Eo).
  split; [reflexivity|]. cbn [ser map]. unfold ser_i32, ser_u16, wconcat. cbn [fold_right wseq wr wbytes]. rewrite app_nil_r.
  eapply parses_bind; [apply (parses_de_i32 c _ Hy)|]. rewrite Ey. cbn [or_overflow bind].
  eapply parses_bind_ret; [apply (parses_u16 c ERead), Ho|]. rewrite Eo. reflexivity.
Qed.
Lemma yields_big_len c : yields c (de_big c) (fun bs => lenN bs < 2 ^ usize_bits c /\ bytes_ok bs).
Proof. eapply yields_weaken; [apply yields_vec, yields_byte|]. intros bs H. exact H. Qed.
Lemma shortest_len {A} (value : list N -> A) bs us : bytes_ok bs -> shortest value (value bs) us -> lenN us <= lenN bs.
Proof. intros Hb (_ & _ & H). unfold lenN. specialize (H bs Hb eq_refl). lia. Qed.

Lemma leaf_again_but c l : wf_cfg c -> 4096 <= heap_limit c -> l <> LExtBigDecimal -> l <> LByteBuf ->
  yields c (leaf_de c l) (fun v => exists sv, leaf_sval c l v = Some sv /\ wrd c (leaf_de c l) sv v).
Proof.
  intros Hc Hh Hl Hl2.
  assert (B : forall v, leaf_back c l v v -> exists sv, leaf_sval c l v = Some sv /\ wrd c (leaf_de c l) sv v) by (intros v; apply back_again; assumption).
  destruct l; cbn [leaf_de] in *.
  - apply yields_Ret, B. reflexivity.
  - eapply yields_pmap with (P := fun _ => True); [intros s a r _ _; exact I|]. intros b _. apply B. reflexivity.
  - eapply yields_pmap; [apply yields_byte|]. intros n Hn. apply B. split; [exact Hn|reflexivity].
  - eapply yields_pmap; [apply yields_u16|]. intros n Hn. apply B. split; [exact Hn|reflexivity].
  - eapply yields_pmap; [apply yields_u32|]. intros n Hn. apply B. split; [exact Hn|reflexivity].
  - eapply yields_pmap; [apply yields_u64|]. intros n Hn. apply B. split; [exact Hn|reflexivity].
  - eapply yields_pmap with (P := fun z => in_s 8 z = true); [|intros n Hn; apply B; split; [exact Hn|reflexivity]].
    eapply yields_pmap; [apply yields_byte|]. intros n _. apply as_i_in; lia.
  - eapply yields_pmap; [apply yields_i16|]. intros n Hn. apply B. split; [exact Hn|reflexivity].
  - eapply yields_pmap; [apply yields_i32|]. intros n Hn. apply B. split; [exact Hn|reflexivity].
  - eapply yields_pmap; [apply yields_i64|]. intros n Hn. apply B. split; [exact Hn|reflexivity].
  - eapply yields_pmap; [apply (yields_float c 4)|]. intros n Hn. apply B. split; [exact Hn|reflexivity].
  - eapply yields_pmap; [apply (yields_float c 8)|]. intros n Hn. apply B. split; [exact Hn|reflexivity].
  - eapply yields_pmap; [apply yields_big_len|]. intros bs [Hn _]. apply B. split; [exact Hn|reflexivity].
  - eapply yields_pmap with (P := fun n => lenN (biguint_from n) < 2 ^ usize_bits c); [|intros n Hn; apply B; split; [exact Hn|reflexivity]].
    eapply yields_pmap; [apply yields_big_len|]. intros bs [Hn Hb]. eapply N.le_lt_trans; [|exact Hn].
    apply (shortest_len le_value); [exact Hb|]. change (from_bytes_le bs) with (le_value bs). apply biguint_from_shortest.
  - eapply yields_pmap; [apply yields_big_len|]. intros bs [Hn _]. apply B. split; [exact Hn|reflexivity].
  - eapply yields_pmap with (P := fun n => lenN (bigint_from n) < 2 ^ usize_bits c); [|intros n Hn; apply B; split; [exact Hn|reflexivity]].
    eapply yields_pmap; [apply yields_big_len|]. intros bs [Hn Hb]. eapply N.le_lt_trans; [|exact Hn].
    apply (shortest_len signed_value); [exact Hb|]. rewrite from_signed_spec by exact Hb. apply bigint_from_shortest.
  - eapply yields_pmap with (P := fun p => leaf_back c LBigDecimal (VBDec (fst p) (snd p)) (VBDec (fst p) (snd p))); [|intros p Hp; apply B, Hp].
    eapply yields_bind; [apply yields_big_len|]. intros [|b bs] [Hn _].
    + apply yields_Ret. cbn [leaf_back fst snd]. split; [exact Hn|]. split; reflexivity.
    + eapply yields_bind; [apply yields_i64|]. intros z Hz. apply yields_Ret. cbn [leaf_back fst snd]. split; [exact Hn|]. split; [exact Hz|reflexivity].
  - contradiction.
  - apply yields_Crash.
  - eapply yields_pmap; [apply yields_string, Hc|]. intros bs [H1 H2]. apply B. cbn [leaf_back]. split; [|reflexivity].
    unfold str_ok, usize_ok. rewrite H1. apply N.ltb_lt, H2.
  - apply yields_Crash.
  - contradiction.
  - eapply yields_pmap with (P := fun p => wrd c (de_date c) (date_sval c (fst p) (snd p)) p).
    + eapply yields_bind; [apply yields_i32|]. intros y0 Hy. unfold or_overflow at 1.
      destruct (arith_s c 32 (y0 + YEAR_OFFSET)) as [y|] eqn:Ey; [|apply yields_Crash]. cbn [bind].
      eapply yields_bind; [apply yields_u16|]. intros o0 Ho. unfold or_overflow.
      destruct (arith_u c 16 (Z.of_N o0 + Z.of_N ORDINAL_OFFSET)) as [o|] eqn:Eo; [|apply yields_Crash]. cbn [bind].
      apply yields_Ret. cbn [fst snd]. apply (wrd_wrapped_date c y0 o0); assumption.
    + intros [y o] H. cbn [fst snd] in H |- *. exists (date_sval c y o). split; [reflexivity|].
      exact (wrd_pmap c (de_date c) (fun p => VDate (fst p) (snd p)) _ _ H).
  - eapply yields_pmap with (P := fun p => real_date (fst p) (snd p)); [|intros [y o] H; apply B; split; [exact H|reflexivity]].
    eapply yields_bind with (P := fun _ => True); [intros s a r _ _; exact I|]. intros y0 _.
    eapply yields_bind with (P := fun _ => True); [intros s a r _ _; exact I|]. intros y _.
    eapply yields_bind with (P := fun _ => True); [intros s a r _ _; exact I|]. intros o0 _.
    eapply yields_bind with (P := fun _ => True); [intros s a r _ _; exact I|]. intros o _.
    destruct (from_ordinal_date y o) as [d|] eqn:E; [|apply yields_Fail]. apply yields_Ret. apply from_ordinal_iff in E as [-> E]. exact E.
  - eapply yields_pmap with (P := fun p => in_s 64 (fst p) = true /\ snd p < 2 ^ 32); [|intros [t n] [H1 H2]; apply B; split; [exact H1|split; [exact H2|reflexivity]]].
    eapply yields_bind; [apply yields_i64|]. intros t Ht. eapply yields_bind; [apply yields_u32|]. intros n Hn. apply yields_Ret. split; assumption.
  - eapply yields_pmap with (P := fun t => odt_ok t /\ odt_off t = 0%Z).
    + eapply yields_bind with (P := fun _ => True); [intros s a r _ _; exact I|]. intros ts _.
      eapply yields_bind with (P := fun _ => True); [intros s a r _ _; exact I|]. intros ns _.
      unfold from_unix_timestamp. destruct (_ && _) eqn:E; [|apply yields_Fail]. apply andb_prop in E as [E1 E2]. apply Z.leb_le in E1, E2.
      unfold odt_add_ns. cbn [odt_ts odt_ns odt_off]. destruct (Z.leb_spec (ts + Z.of_N ((0 + ns) / 1000000000)) MAX_TS) as [E3|]; [|apply yields_Crash].
      apply yields_Ret. split; [|reflexivity]. unfold odt_ok. cbn [odt_ts odt_ns]. split; [|apply N.mod_lt; discriminate].
      split; [|exact E3]. eapply Z.le_trans; [exact E1|]. apply Z.le_sub_le_add_l. rewrite Z.sub_diag. apply N2Z.is_nonneg.
    + intros [ts ns off] [H1 H2]. apply B. cbn [leaf_back odt_off odt_ts odt_ns] in *. subst off. split; [exact H1|reflexivity].
Qed.
Lemma leaf_again c l : wf_cfg c -> 4096 <= heap_limit c -> l <> LExtBigDecimal ->
  short c (leaf_de c l) (fun v => exists sv, leaf_sval c l v = Some sv /\ wrd c (leaf_de c l) sv v).
Proof.
  intros Hc Hh Hl. assert (D : l = LByteBuf \/ l <> LByteBuf) by (destruct l; auto; right; discriminate).
  destruct D as [->|D]; [|apply short_of, leaf_again_but; assumption].
  cbn [leaf_de]. eapply short_pmap; [apply short_byte_buf; assumption|]. intros bs Hn. apply back_again; [exact Hc|exact Hh|]. split; [exact Hn|reflexivity].
Qed.

Definition again (c : cfg) (dflt : rty -> rval) (omit : string -> rval -> bool) (t : rty) (v : rval) : Prop :=
  exists sv, rser c omit t v = Some sv /\ wrd c (rde c dflt t) sv v.
Definition fagain (c : cfg) (dflt : rty -> rval) (omit : string -> rval -> bool) (f : attrs * (string * rty)) : Prop :=
  (skipped (fst f) /\ skipped_de (fst f)) \/
  (~ skipped (fst f) /\ ~ skipped_de (fst f) /\ ~ skipped_if (fst f) /\ short c (rde c dflt (snd (snd f))) (again c dflt omit (snd (snd f)))).

Lemma fields_again c dflt omit fs : Forall (fagain c dflt omit) fs ->
  short c (seq_fields (map (dfl c dflt) fs)) (fun ws => forall om, exists l,
    ser_fields om (map (fser c omit) fs) ws = Some l /\ mem c (map (dfl c dflt) fs) (map snd l) ws).
Proof.
  induction 1 as [|[a [n t]] fs Hf _ IH]; cbn [map seq_fields].
  - apply short_Ret. intros om. exists []. split; [reflexivity|constructor].
  - unfold fagain in Hf. cbn [fst snd] in Hf. change (df_attrs (dfl c dflt (a, (n, t)))) with a. destruct Hf as [[F1 F2]|(F1 & F2 & F3 & F4)].
    + rewrite (proj2 (skip_de_iff a)) by exact F2. eapply short_bind; [exact IH|]. intros ws Hw. apply short_Ret. intros om.
      destruct (Hw om) as (l & E & M). exists l. split.
      * cbn [ser_fields fser fst snd]. rewrite serde_skips_eq, (proj2 (skip_iff a)) by exact F1. exact E.
      * apply (mem_skip c (dfl c dflt (a, (n, t)))); [apply skip_de_iff, F2|exact M].
    + rewrite (proj2 (skip_de_false a)) by exact F2. eapply short_bind; [exact F4|]. intros v (s & Es & W).
      eapply short_bind; [exact IH|]. intros ws Hw. apply short_Ret. intros om. destruct (Hw om) as (l & E & M). exists ((n, s) :: l). split.
      * cbn [ser_fields fser fst snd]. rewrite serde_skips_eq, serde_skips_if_eq, (proj2 (skip_false a)), (proj2 (skip_if_false a)) by assumption.
        cbn [orb andb]. rewrite Es, E. reflexivity.
      * cbn [map snd]. apply mem_keep; [apply skip_de_false, F2|exact W|exact M].
Qed.
Lemma short_run {A} c (p q : prog A) P : (forall s, run c p s = run c q s) -> short c q P -> short c p P.
Proof. intros E H s a r Hs Hn Hr. rewrite E in Hr. eapply H; eassumption. Qed.
Lemma members_again c dflt omit k fs : Forall (fagain c dflt omit) fs -> NoDup (map df_name (kept (map (dfl c dflt) fs))) -> style_fits k fs ->
  short c (members_de k (map (dfl c dflt) fs)) (fun ws => forall om, exists l,
    ser_fields om (map (fser c omit) fs) ws = Some l /\ mem c (map (dfl c dflt) fs) (map snd l) ws).
Proof.
  intros Hf Hn Hk. destruct k; cbn [members_de].
  - eapply short_run; [apply run_map_fields, Hn|]. apply fields_again, Hf.
  - apply fields_again, Hf.
  - rewrite (Hk eq_refl). apply short_Ret. intros om. exists []. split; [reflexivity|constructor].
Qed.
Lemma struct_again c dflt omit k fs : Forall (fagain c dflt omit) fs -> NoDup (map df_name (kept (map (dfl c dflt) fs))) -> style_fits k fs -> struct_fits k fs ->
  short c (members_de k (map (dfl c dflt) fs)) (fun ws => exists sv,
    rser_struct omit k (map (fser c omit) fs) ws = Some sv /\ wrd c (members_de k (map (dfl c dflt) fs)) sv ws).
Proof.
  intros Hf Hn Hk Hs. eapply short_weaken; [apply members_again; eassumption|]. intros ws H. destruct (H omit) as (l & E & M). clear H.
  pose proof (mem_ok _ _ _ _ M) as Mok. destruct k; cbn [members_de rser_struct].
  - exists (SStruct l). rewrite E. split; [reflexivity|]. split; cbn [ser]; rewrite <- (map_map snd ser l); [apply (wconcat_ok ser), Mok|apply mem_map; assumption].
  - assert (G : wrd c (seq_fields (map (dfl c dflt) fs)) (STupleStruct (map snd l)) ws).
    { split; cbn [ser]; [apply (wconcat_ok ser), Mok|apply mem_seq; exact M]. }
    destruct fs as [|[a [n t]] [|f2 fs]]; [exists (STupleStruct (map snd l)); split; [cbn [map] in *; rewrite E; reflexivity|exact G]| |
      exists (STupleStruct (map snd l)); split; [cbn [map] in *; rewrite E; reflexivity|exact G]].
    destruct (Hs _ eq_refl eq_refl) as [S1 S2]. cbn [fst] in S1, S2. apply skip_false in S1. apply skip_if_false in S2.
    cbn [map fser fst snd ser_fields] in E |- *. rewrite serde_skips_eq, serde_skips_if_eq, S1, S2 in *. cbn [orb andb] in *.
    destruct ws as [|v [|v' ws]]; try discriminate; [|destruct (rser c omit t v); discriminate].
    destruct (rser c omit t v) as [s|] eqn:Ev; [|discriminate]. injection E as <-. exists (SNewtypeStruct s). split; [reflexivity|].
    destruct G as [G1 G2]. cbn [ser map snd] in G1, G2. change (wconcat [ser s]) with (wseq (ser s) WDone) in G1, G2. rewrite wseq_done_r in G1, G2. split; assumption.
  - rewrite (Hk eq_refl) in *. cbn [map] in *. destruct ws; [|discriminate]. exists SUnitStruct. split; [reflexivity|]. split; [reflexivity|apply parses_ret].
Qed.
Lemma variant_again c dflt omit i k fs : Forall (fagain c dflt omit) fs -> NoDup (map df_name (kept (map (dfl c dflt) fs))) -> style_fits k fs ->
  short c (members_de k (map (dfl c dflt) fs)) (fun ws => exists sv,
    rser_variant omit i k (map (fser c omit) fs) ws = Some sv /\ wresult (ser sv) = WeOk /\
    exists u, wbytes (ser sv) = enc_u32 i ++ u /\ parses c ERead (members_de k (map (dfl c dflt) fs)) u ws).
Proof.
  intros Hf Hn Hk. eapply short_weaken; [apply members_again; eassumption|]. intros ws H. destruct (H omit) as (l & E & M). clear H.
  pose proof (mem_ok _ _ _ _ M) as Mok. destruct k; cbn [members_de rser_variant].
  - exists (SStructVariant i l). rewrite E. split; [reflexivity|]. cbn [ser]. unfold ser_u32. rewrite wresult_seq_wr, wbytes_seq_wr, <- (map_map snd ser l).
    split; [apply (wconcat_ok ser), Mok|]. eexists; split; [reflexivity|apply mem_map; assumption].
  - pose proof (mem_seq _ _ _ _ M) as MS. assert (G : exists sv, Some (STupleVariant i (map snd l)) = Some sv /\ wresult (ser sv) = WeOk /\
      exists u, wbytes (ser sv) = enc_u32 i ++ u /\ parses c ERead (seq_fields (map (dfl c dflt) fs)) u ws).
    { eexists; split; [reflexivity|]. cbn [ser]. unfold ser_u32. rewrite wresult_seq_wr, wbytes_seq_wr. split; [apply (wconcat_ok ser), Mok|].
      eexists; split; [reflexivity|exact MS]. }
    destruct fs as [|[a [n t]] [|f2 fs]]; [cbn [map] in *; rewrite E; exact G| |cbn [map] in *; rewrite E; exact G]. clear G.
    inversion Hf as [|? ? F _]; subst. unfold fagain in F. cbn [fst snd] in F. cbn [map fser fst snd ser_fields] in E |- *.
    rewrite serde_skips_eq, serde_skips_if_eq in *. destruct F as [[F1 F2]|(F1 & F2 & F3 & F4)].
    + rewrite (proj2 (skip_iff a)) in * by exact F1. cbn [orb] in E. destruct ws as [|v [|v' ws]]; try discriminate. injection E as <-.
      exists (SUnitVariant i). split; [reflexivity|]. split; [reflexivity|]. exists []. split; [reflexivity|exact MS].
    + rewrite (proj2 (skip_false a)), (proj2 (skip_if_false a)) in * by assumption. cbn [orb andb] in E.
      destruct ws as [|v [|v' ws]]; try discriminate; [|destruct (rser c omit t v); discriminate].
      destruct (rser c omit t v) as [s|] eqn:Ev; [|discriminate]. injection E as <-. exists (SNewtypeVariant i s). split; [reflexivity|].
      inversion Mok as [|? ? W _]; subst. cbn [map snd] in MS, W. change (wconcat [ser s]) with (wseq (ser s) WDone) in MS. rewrite wseq_done_r in MS.
      cbn [ser]. unfold ser_u32. rewrite wresult_seq_wr, wbytes_seq_wr. split; [exact W|]. eexists; split; [reflexivity|exact MS].
  - rewrite (Hk eq_refl) in *. cbn [map] in *. destruct ws; [|discriminate]. exists (SUnitVariant i). split; [reflexivity|]. split; [reflexivity|].
    exists []. split; [reflexivity|apply parses_ret].
Qed.

Lemma elems_again c dflt omit t vs : Forall (again c dflt omit t) vs ->
  exists ss, map_some (rser c omit t) vs = Some ss /\ Forall2 (wrd c (rde c dflt t)) ss vs.
Proof.
  unfold map_some. induction 1 as [|v vs (s & E & W) _ (ss & IH1 & IH2)]; cbn [map]; [exists []; split; [reflexivity|constructor]|].
  exists (s :: ss). rewrite all_some_cons. split; [eauto|constructor; assumption].
Qed.
Lemma map_again c dflt omit t m : wf_cfg c -> lenN m < 2 ^ usize_bits c -> sorted_keys m = true ->
  Forall (fun kv => str_ok c (fst kv) = true /\ again c dflt omit t (snd kv)) m ->
  exists sv, option_map (SMap (Some (lenN m))) (map_some (fun kv => option_map (pair (SStr (fst kv))) (rser c omit t (snd kv))) m) = Some sv /\
    wrd c (pmap VMap (de_map c (rde c dflt t))) sv (VMap m).
Proof.
  intros Hc Hl Hsort Hm.
  assert (HA : Forall (again c dflt omit t) (map snd m)) by (apply Forall_map; eapply Forall_impl; [|exact Hm]; intros kv H; apply H).
  assert (HK : Forall (fun k => str_ok c k = true) (map fst m)) by (apply Forall_map; eapply Forall_impl; [|exact Hm]; intros kv H; apply H).
  destruct (elems_again c dflt omit t _ HA) as (ss & E & W).
  exists (SMap (Some (lenN m)) (combine (map SStr (map fst m)) ss)). split.
  { replace (map_some (fun kv => option_map (pair (SStr (fst kv))) (rser c omit t (snd kv))) m) with (Some (combine (map SStr (map fst m)) ss)); [reflexivity|].
    clear -E. unfold map_some in *. symmetry. revert ss E. induction m as [|[k v] m IH]; intros ss E; cbn [map fst snd] in *; [injection E as <-; reflexivity|].
    apply all_some_cons in E as (s & ss' & H1 & H2 & ->). apply all_some_cons. exists (SStr k, s), (combine (map SStr (map fst m)) ss').
    rewrite H1. split; [reflexivity|]. split; [apply IH, H2|reflexivity]. }
  destruct (entries_wrd c (rde c dflt t) (map fst m) ss (map snd m) Hc HK) as [H1 H2]; [rewrite !map_length; reflexivity|exact W|].
  apply (wrd_pmap c (de_map c (rde c dflt t)) VMap) with (a := m). split; cbn [ser ser_len]; unfold ser_u64; rewrite ?wresult_seq_wr, ?wbytes_seq_wr; [exact H1|].
  unfold de_map. eapply parses_bind; [apply parses_u64, (lt_usize_64 c); assumption|]. rewrite as_usize_id by exact Hl.
  replace (lenN m) with (lenN (map fst m)) by (unfold lenN; rewrite map_length; reflexivity).
  assert (EI : insert_all (combine (map fst m) (map snd m)) [] = m).
  { replace (combine (map fst m) (map snd m)) with m by (clear; induction m as [|[k v] m IH]; cbn [map combine fst snd]; congruence).
    unfold insert_all. rewrite insert_all_sorted; [reflexivity|exact Hsort|apply Forall_forall; intros; constructor]. }
  rewrite EI in H2. exact H2.
Qed.

Lemma fields_regular c dflt omit t fs : readable_fields fs -> Forall (fun f => skipped (fst f) \/ regular (snd (snd f))) fs ->
  (forall f l, In f fs -> ~ skipped_de (fst f) -> reads_leaf l (snd (snd f)) -> reads_leaf l t) -> ~ reads_leaf LExtBigDecimal t ->
  Forall (fun f => readable (snd (snd f)) -> regular (snd (snd f)) -> ~ reads_leaf LExtBigDecimal (snd (snd f)) ->
                   short c (rde c dflt (snd (snd f))) (again c dflt omit (snd (snd f)))) fs ->
  Forall (fagain c dflt omit) fs /\ NoDup (map df_name (kept (map (dfl c dflt) fs))).
Proof.
  intros H HR HL HN IH. inversion H as [? Hf Hn]; subst. split; [|apply kept_names, Hn].
  rewrite Forall_forall in IH, Hf, HR |- *. intros f Hin. destruct (Hf f Hin) as [Hs|(H1 & H2 & H3 & H4)]; [left; exact Hs|right].
  split; [exact H1|split; [exact H2|split; [exact H3|]]]. apply IH; [exact Hin|exact H4| |].
  - destruct (HR f Hin) as [X|X]; [contradiction|exact X].
  - intros X. apply HN. exact (HL f _ Hin H2 X).
Qed.

Lemma pickN_app_l {A} (l tail : list A) i a : pickN l i = Some a -> pickN (l ++ tail) i = Some a.
Proof. revert i; induction l as [|x l IH]; intros i H; [discriminate|]. cbn [app pickN] in *. destruct (i =? 0); [exact H|apply IH, H]. Qed.
Theorem rde_again c dflt omit t : wf_cfg c -> 4096 <= heap_limit c -> readable t -> regular t -> ~ reads_leaf LExtBigDecimal t ->
  short c (rde c dflt t) (again c dflt omit t).
Proof.
  intros Hc Hh. apply (rty_ind2 (fun t => readable t -> regular t -> ~ reads_leaf LExtBigDecimal t -> short c (rde c dflt t) (again c dflt omit t))); clear t.
  - intros l _ _ Hn. cbn [rde]. apply leaf_again; try assumption. intros ->. apply Hn. constructor.
  - intros t IH Hr Hg Hn. inversion Hr; inversion Hg; subst. specialize (IH H0 H2 ltac:(intros X; apply Hn; constructor; exact X)). unfold again. cbn [rde rser].
    eapply short_pmap with (P := fun o => match o with Some v => again c dflt omit t v | None => True end).
    + eapply short_bind with (P := fun _ => True); [intros s a r _ _ _; exact I|]. intros [|] _; [|apply short_Ret; exact I].
      eapply short_pmap; [exact IH|]. intros v Hv. exact Hv.
    + intros [v|] Hv.
      * destruct Hv as (s & E & W1 & W2). exists (SSome s). rewrite E. split; [reflexivity|].
        split; cbn [ser]; rewrite ?wresult_seq_wr, ?wbytes_seq_wr; [exact W1|].
        apply (parses_pmap _ _ (de_option (rde c dflt t)) (fun o => match o with Some v => VSome v | None => VNone end) _ (Some v)).
        eapply parses_bind; [apply (parses_bool c true)|]. apply parses_pmap, W2.
      * exists SNone. split; [reflexivity|]. split; [reflexivity|]. cbn [ser].
        apply (parses_pmap _ _ (de_option (rde c dflt t)) (fun o => match o with Some v => VSome v | None => VNone end) [0] None).
        apply (parses_bind_ret c ERead _ _ [0] false); [apply (parses_bool c false)|reflexivity].
  - intros t IH Hr Hg Hn. inversion Hr; inversion Hg; subst. specialize (IH H0 H2 ltac:(intros X; apply Hn; constructor; exact X)). unfold again. cbn [rde rser].
    eapply short_pmap; [apply short_vec, IH|]. intros vs [Hl Hv]. destruct (elems_again _ _ _ _ _ Hv) as (ss & E & W). rewrite E.
    exists (SSeq (Some (lenN vs)) ss). split; [reflexivity|]. destruct (list_wrd c _ ss vs W) as (W1 & W2 & W3).
    apply (wrd_pmap c (de_vec c (rde c dflt t)) VSeq) with (a := vs).
    split; cbn [ser ser_len]; unfold ser_u64; rewrite ?wresult_seq_wr, ?wbytes_seq_wr; [exact W1|]. rewrite W2. apply parses_vec; assumption.
  - intros t IH Hr Hg Hn. inversion Hr; inversion Hg; subst. specialize (IH H0 H2 ltac:(intros X; apply Hn; constructor; exact X)). unfold again. cbn [rde rser].
    eapply short_pmap; [apply short_map; [exact Hc|exact IH]|]. intros m (H1 & H3 & H4). apply map_again; assumption.
  - intros t IH Hr Hg Hn. inversion Hr; inversion Hg; subst. specialize (IH H0 H2 ltac:(intros X; apply Hn; constructor; exact X)). unfold again. cbn [rde rser].
    eapply short_pmap; [apply short_map; [exact Hc|exact IH]|]. intros m (H1 & H3 & H4). apply map_again; assumption.
  - intros ts IH Hr Hg Hn. inversion Hr as [| | | | |? HR| |]; inversion Hg as [| | | | |? HG| |]; subst. unfold again. cbn [rde rser].
    set (fs := map (fun t => ([] : attrs, (EmptyString, t))) ts).
    assert (HF : Forall (fagain c dflt omit) fs).
    { apply Forall_map. rewrite Forall_forall in IH, HR, HG |- *. intros t Ht. right. cbn [fst snd].
      split; [apply not_skipped_nil|]. split; [apply not_skipped_de_nil|]. split; [apply not_skipped_if_nil|].
      apply IH; [exact Ht|apply HR, Ht|apply HG, Ht|]. intros X. apply Hn. exact (rl_tuple _ ts t Ht X). }
    eapply short_pmap; [eapply short_run; [intros s; symmetry; apply (run_seq_plain c dflt ts)|apply fields_again, HF]|].
    intros ws H. destruct (H (fun _ _ => false)) as (l & E & M). unfold fs in E. rewrite map_map in E. cbn [fser fst snd] in E.
    exists (STuple (map snd l)). split; [|].
    + exact (f_equal (option_map (fun l => STuple (map snd l))) E).
    + apply (wrd_pmap c (sequence (map (rde c dflt) ts)) VSeq) with (a := ws). split; cbn [ser].
      * apply (wconcat_ok ser), (mem_ok _ _ _ _ M).
      * eapply parses_ext; [intros s; symmetry; apply run_seq_plain|]. apply mem_seq, M.
  - intros k fs IH Hr Hg Hn. inversion Hr as [| | | | | |? ? HR|]; inversion Hg as [| | | | | |? ? HS1 HS2 HG|]; subst.
    destruct (fields_regular c dflt omit (RStruct k fs) fs HR HG (fun f l H1 H2 H3 => rl_struct l k fs f H1 H2 H3) Hn IH) as [HF Hnd].
    unfold again. cbn [rde rser]. eapply short_pmap; [apply (struct_again c dflt omit k fs HF Hnd HS1 HS2)|].
    intros ws (sv & E & W). exists sv. split; [exact E|].
    apply (wrd_pmap c (members_de k (map (dfl c dflt) fs)) VSeq) with (a := ws). exact W.
  - intros vars IH Hr Hg Hn. inversion Hr as [| | | | | | |kept tail HK HT HL E]; inversion Hg as [| | | | | | |? HG]; subst.
    unfold again. change (rde c dflt (REnum (kept ++ tail))) with (i <- de_u16 ;;
      match pickN (enum_alts 0 (map (fun v => (fst v, members_de (fst (snd v)) (map (dfl c dflt) (snd (snd v))))) (kept ++ tail))) i with
      | Some p => p | None => Fail EMsg end).
    eapply short_bind; [apply short_of, yields_u16|]. intros i Hi. rewrite map_app.
    destruct (pickN kept i) as [[a [k fs]]|] eqn:E.
    + pose proof (pickN_some _ _ _ E) as [Hin Hlt]. rewrite Forall_forall in HK, IH, HG. destruct (HK _ Hin) as [Ha HRF]. cbn [fst snd] in Ha, HRF.
      pose proof (in_or_app kept tail _ (or_introl Hin)) as Hin'. specialize (IH _ Hin'). cbn [snd] in IH.
      destruct (HG _ Hin') as [[_ X]|(Hs & HS & HGF)]; [contradiction|]. cbn [fst snd] in Hs, HS, HGF.
      destruct (fields_regular c dflt omit (REnum (kept ++ tail)) fs HRF HGF (fun f l H1 H2 H3 => rl_enum l _ (a, (k, fs)) f Hin' Ha H1 H2 H3) Hn IH) as [HF Hnd].
      assert (HA : pickN (enum_alts 0 (map (fun v => (fst v, members_de (fst (snd v)) (map (dfl c dflt) (snd (snd v))))) kept ++
          map (fun v => (fst v, members_de (fst (snd v)) (map (dfl c dflt) (snd (snd v))))) tail)) i = Some (pmap (VVariant i) (members_de k (map (dfl c dflt) fs)))).
      { rewrite (alts_pick _ _ 0 i a (members_de k (map (dfl c dflt) fs))); [rewrite N.add_0_l; reflexivity| |rewrite pickN_map, E; reflexivity].
        apply Forall_map, Forall_forall. intros x Hx. cbn [fst]. apply skip_de_false. apply (HK x Hx). }
      rewrite HA. eapply short_pmap; [apply (variant_again c dflt omit i k fs HF Hnd HS)|]. intros ws (sv & Es & W1 & u & W2 & W3).
      exists sv. split.
      * cbn [rser]. rewrite pickN_map, (pickN_app_l kept tail i _ E). cbn [option_map fst snd]. rewrite serde_skips_eq, (proj2 (skip_false a)) by exact Hs. exact Es.
      * split; [exact W1|]. rewrite W2, idx_agree by lia. eapply parses_bind; [apply parses_u16, Hi|]. rewrite HA. apply parses_pmap, W3.
    + rewrite <- map_app. rewrite (alts_short (fun v => members_de (fst (snd v)) (map (dfl c dflt) (snd (snd v)))) (kept ++ tail) (lenN kept)).
      * apply short_Fail.
      * assert (HT' : Forall (fun v => skipped_de (fst v)) tail).
        { rewrite Forall_forall in HT, HG |- *. intros v Hv. destruct (HG v (in_or_app _ _ _ (or_intror Hv))) as [[_ X]|[X _]]; [exact X|destruct (X (HT v Hv))]. }
        clear -HK HT'. induction HK as [|v kept [Hv _] _ IHk].
        -- cbn [app]. induction HT' as [|v tail Hv _ IHt]; [constructor|apply rv_skip; assumption].
        -- cbn [app]. rewrite lenN_cons. apply rv_keep; assumption.
      * apply pickN_none, E.
  - intros Hr. inversion Hr.
  - intros i Hr. inversion Hr.
Qed.

(** ** Derived types: room *)
Definition osize (o : option sval) : N := match o with Some sv => vsize sv | None => 0 end.
Lemma vsize_big_sval bs : vsize (big_sval bs) = vsize (vec_u8 bs).
Proof. unfold vsize, big_sval. change (ser (SSeq None [vec_u8 bs])) with (wseq (ser (vec_u8 bs)) WDone). rewrite wseq_done_r. reflexivity. Qed.
Lemma vsize_vec_u8_mono us bs : lenN us <= lenN bs -> lenN bs < 2 ^ 64 -> vsize (vec_u8 us) <= vsize (vec_u8 bs).
Proof. intros H Hb. rewrite !vsize_vec_u8. pose proof (enc_u64_mono _ _ H Hb). lia. Qed.
Lemma leaf_size c l : wf_cfg c -> 4096 <= heap_limit c -> l <> LExtBigDecimal -> l <> LExtDateTime ->
  consumes c (leaf_de c l) (fun v n => osize (leaf_sval c l v) <= n).
Proof.
  intros Hc Hh Hl1 Hl2.
  destruct l; cbn [leaf_de leaf_sval] in *.
  - apply consumes_Ret. cbn. lia.
  - eapply consumes_pmap; [apply consumes_bool|]. cbv beta. intros b n Hn. cbn [osize]. unfold vsize; cbn [ser]. rewrite wsize_wr. exact Hn.
  - eapply consumes_pmap; [apply consumes_byte|]. cbv beta. intros b n [Hn _]. cbn [osize]. unfold vsize; cbn [ser]. rewrite wsize_wr. exact Hn.
  - eapply consumes_pmap; [apply consumes_u16|]. cbv beta. intros z n [Hn _]. cbn [osize]. unfold vsize; cbn [ser]. unfold ser_u16. rewrite wsize_wr. exact Hn.
  - eapply consumes_pmap; [apply consumes_u32|]. cbv beta. intros z n [Hn _]. cbn [osize]. unfold vsize; cbn [ser]. unfold ser_u32. rewrite wsize_wr. exact Hn.
  - eapply consumes_pmap; [apply consumes_u64|]. cbv beta. intros z n [Hn _]. cbn [osize]. unfold vsize; cbn [ser]. unfold ser_u64. rewrite wsize_wr. exact Hn.
  - eapply consumes_pmap with (R := fun _ n => 1 <= n).
    + eapply consumes_pmap; [apply consumes_byte|]. cbv beta; tauto.
    + cbv beta. intros b n Hn. cbn [osize]. unfold vsize; cbn [ser]. rewrite wsize_wr. exact Hn.
  - eapply consumes_pmap; [apply consumes_i16|]. cbv beta. intros z n [Hn _]. cbn [osize]. unfold vsize; cbn [ser]. unfold ser_i16. rewrite wsize_wr. exact Hn.
  - eapply consumes_pmap; [apply consumes_i32|]. cbv beta. intros z n [Hn _]. cbn [osize]. unfold vsize; cbn [ser]. unfold ser_i32. rewrite wsize_wr. exact Hn.
  - eapply consumes_pmap; [apply consumes_i64|]. cbv beta. intros z n [Hn _]. cbn [osize]. unfold vsize; cbn [ser]. unfold ser_i64. rewrite wsize_wr. exact Hn.
  - eapply consumes_pmap; [apply consumes_float|]. cbv beta. intros z n ->. cbn [osize]. unfold vsize; cbn [ser]. rewrite wsize_wr, lenN_le_bytes. lia.
  - eapply consumes_pmap; [apply consumes_float|]. cbv beta. intros z n ->. cbn [osize]. unfold vsize; cbn [ser]. rewrite wsize_wr, lenN_le_bytes. lia.
  - eapply consumes_pmap; [apply consumes_vec_u8|]. cbv beta. intros bs n Hn. cbn [osize]. rewrite vsize_big_sval. exact Hn.
  - eapply consumes_pmap with (R := fun x n => vsize (fmt_biguint_sval x) <= n); [|auto].
    eapply consumes_pmap; [apply consumes_yields; [apply consumes_vec_u8|apply yields_big_len]|]. cbv beta. intros bs n (Hn & Hl & Hb). apply (N.lt_le_trans _ _ (2 ^ 64)) in Hl; [|exact (wf_cfg_64 c Hc)].
    unfold vsize at 1. rewrite ser_fmt_biguint. fold (vsize (big_sval (biguint_from (from_bytes_le bs)))). rewrite vsize_big_sval.
    eapply N.le_trans; [apply vsize_vec_u8_mono; [|exact Hl]|exact Hn]. apply (shortest_len le_value); [exact Hb|]. apply biguint_from_shortest.
  - eapply consumes_pmap; [apply consumes_vec_u8|]. cbv beta. intros bs n Hn. cbn [osize]. rewrite vsize_big_sval. exact Hn.
  - eapply consumes_pmap with (R := fun x n => vsize (fmt_bigint_sval x) <= n); [|auto].
    eapply consumes_pmap; [apply consumes_yields; [apply consumes_vec_u8|apply yields_big_len]|]. cbv beta. intros bs n (Hn & Hl & Hb). apply (N.lt_le_trans _ _ (2 ^ 64)) in Hl; [|exact (wf_cfg_64 c Hc)].
    unfold vsize at 1. rewrite ser_fmt_bigint. fold (vsize (big_sval (bigint_from (from_signed_bytes_le bs)))). rewrite vsize_big_sval.
    eapply N.le_trans; [apply vsize_vec_u8_mono; [|exact Hl]|exact Hn]. apply (shortest_len signed_value); [exact Hb|].
    rewrite from_signed_spec by exact Hb. apply bigint_from_shortest.
  - eapply consumes_pmap with (R := fun p n => vsize (big_decimal_sval (fst p) (snd p)) <= n); [|auto].
    pose proof (reencode c DBigDecimal Hc Hh eq_refl) as R. cbn [de] in R. intros s p r Hs Hr.
    destruct (R s (big_decimal_sval (fst p) (snd p)) r Hs) as (n & H1 & H2); [rewrite run_pmap, Hr; reflexivity|]. exists n. split; assumption.
  - contradiction.
  - apply consumes_Crash.
  - eapply consumes_pmap; [apply consumes_string|]. auto.
  - apply consumes_Crash.
  - eapply consumes_pmap; [apply consumes_byte_buf; assumption|]. auto.
  - eapply consumes_pmap with (R := fun p n => vsize (date_sval c (fst p) (snd p)) <= n); [|auto].
    pose proof (reencode c DDate Hc Hh eq_refl) as R. cbn [de] in R. intros s p r Hs Hr.
    destruct (R s (date_sval c (fst p) (snd p)) r Hs) as (n & H1 & H2); [rewrite run_pmap, Hr; reflexivity|]. exists n. split; assumption.
  - eapply consumes_pmap with (R := fun p n => vsize (fmt_date_sval c p) <= n); [|intros [y o] n Hn; exact Hn].
    eapply consumes_bind; [apply consumes_yields; [apply consumes_i32|apply yields_i32]|]. cbv beta. intros y0 n [[Hn _] Hy0].
    destruct (arith_s c 32 (y0 + YEAR_OFFSET)) as [y|] eqn:Ey; cbn [or_overflow bind]; [|apply consumes_Crash].
    eapply consumes_bind; [apply consumes_u16|]. cbv beta. intros o0 m (Hm & _ & Ho0).
    destruct (arith_u c 16 (Z.of_N o0 + Z.of_N ORDINAL_OFFSET)) as [o|] eqn:Eo; cbn [or_overflow bind]; [|apply consumes_Crash].
    destruct (from_ordinal_date y o) as [d|] eqn:E; [|apply consumes_Fail]. apply from_ordinal_iff in E as [-> _].
    apply consumes_Ret. unfold fmt_date_sval. cbn [fst snd].
    rewrite (arith_s_inv _ _ _ Hy0 Ey), (arith_u_inv _ _ _ Ho0 Eo).
    unfold vsize, wsize. cbn [ser map wconcat fold_right ser_i32 ser_u16 wseq wr wbytes]. rewrite app_nil_r, lenN_app. lia.
  - eapply consumes_pmap with (R := fun p n => vsize (date_time_sval (fst p) (snd p)) <= n); [|auto].
    pose proof (reencode c DDateTime Hc Hh eq_refl) as R. cbn [de] in R. intros s p r Hs Hr.
    destruct (R s (date_time_sval (fst p) (snd p)) r Hs) as (n & H1 & H2); [rewrite run_pmap, Hr; reflexivity|]. exists n. split; assumption.
  - contradiction.
Qed.

Definition fsized (c : cfg) (dflt : rty -> rval) (omit : string -> rval -> bool) (f : attrs * (string * rty)) : Prop :=
  (skipped (fst f) /\ skipped_de (fst f)) \/
  (~ skipped_de (fst f) /\ consumes c (rde c dflt (snd (snd f))) (fun v n => osize (rser c omit (snd (snd f)) v) <= n)).
Lemma fields_size c dflt omit fs : Forall (fsized c dflt omit) fs ->
  consumes c (seq_fields (map (dfl c dflt) fs)) (fun ws n => forall om l,
    ser_fields om (map (fser c omit) fs) ws = Some l -> sumN vsize (map snd l) <= n).
Proof.
  induction 1 as [|[a [n t]] fs Hf _ IH]; cbn [map seq_fields].
  - apply consumes_Ret. intros om l E. injection E as <-. cbn. lia.
  - unfold fsized in Hf. cbn [fst snd] in Hf. change (df_attrs (dfl c dflt (a, (n, t)))) with a. destruct Hf as [[F1 F2]|(F2 & F4)].
    + rewrite (proj2 (skip_de_iff a)) by exact F2. eapply consumes_bind; [exact IH|]. cbv beta. intros ws m Hw. apply consumes_Ret. intros om l E.
      cbn [ser_fields fser fst snd] in E. rewrite serde_skips_eq, (proj2 (skip_iff a)) in E by exact F1. specialize (Hw om l E). lia.
    + rewrite (proj2 (skip_de_false a)) by exact F2. eapply consumes_bind; [exact F4|]. cbv beta. intros v k Hk.
      eapply consumes_bind; [exact IH|]. cbv beta. intros ws m Hw. apply consumes_Ret. intros om l E. cbn [ser_fields fser fst snd] in E.
      destruct (serde_skips a || _); [specialize (Hw om l E); lia|].
      destruct (rser c omit t v) as [s|] eqn:Ev; [|discriminate]. destruct (ser_fields om _ ws) as [l'|] eqn:El; [|discriminate]. injection E as <-.
      specialize (Hw om l' El). cbn [map snd sumN osize] in *. lia.
Qed.
Lemma members_size c dflt omit k fs : Forall (fsized c dflt omit) fs -> NoDup (map df_name (kept (map (dfl c dflt) fs))) -> style_fits k fs ->
  consumes c (members_de k (map (dfl c dflt) fs)) (fun ws n => forall om l,
    ser_fields om (map (fser c omit) fs) ws = Some l -> sumN vsize (map snd l) <= n).
Proof.
  intros Hf Hn Hk. destruct k; cbn [members_de].
  - eapply consumes_ext; [intros s; apply run_map_fields, Hn|]. apply fields_size, Hf.
  - apply fields_size, Hf.
  - rewrite (Hk eq_refl). apply consumes_Ret. intros om l E. injection E as <-. cbn. lia.
Qed.
Lemma wsize_concat_vals l : wsize (wconcat (map ser l)) <= sumN vsize l.
Proof. apply (wsize_wconcat_map ser l). Qed.
Lemma struct_size omit k fs ws n sv : (forall om l, ser_fields om fs ws = Some l -> sumN vsize (map snd l) <= n) ->
  rser_struct omit k fs ws = Some sv -> vsize sv <= n.
Proof.
  intros H E. unfold rser_struct in E. destruct k.
  - apply option_map_some in E as (l & El & ->). specialize (H omit l El). unfold vsize. cbn [ser]. rewrite <- (map_map snd ser l).
    pose proof (wsize_concat_vals (map snd l)). lia.
  - assert (G : forall l, ser_fields omit fs ws = Some l -> vsize (STupleStruct (map snd l)) <= n).
    { intros l El. specialize (H omit l El). unfold vsize. cbn [ser]. pose proof (wsize_concat_vals (map snd l)). lia. }
    destruct fs as [|[a [x f]] [|f2 fs]].
    + apply option_map_some in E as (l & El & ->). apply G, El.
    + destruct (serde_skips a || serde_skips_if a) eqn:Ea; [discriminate|]. apply orb_false_iff in Ea as [E1 E2].
      destruct ws as [|v [|v' ws]]; try discriminate. apply option_map_some in E as (s & Es & ->).
      specialize (H omit [(x, s)]). cbn [ser_fields] in H. rewrite E1, E2, Es in H. specialize (H eq_refl). cbn [map snd sumN] in H.
      change (vsize (SNewtypeStruct s)) with (vsize s). lia.
    + apply option_map_some in E as (l & El & ->). apply G, El.
  - destruct fs, ws; try discriminate. injection E as <-. unfold vsize. cbn. lia.
Qed.
Lemma variant_size omit i k fs ws n sv : (forall om l, ser_fields om fs ws = Some l -> sumN vsize (map snd l) <= n) ->
  rser_variant omit i k fs ws = Some sv -> vsize sv <= lenN (enc_u32 i) + n.
Proof.
  intros H E.
  assert (G : forall w, wsize w <= n -> wsize (wseq (ser_u32 i) w) <= lenN (enc_u32 i) + n).
  { intros w Hw. pose proof (wsize_wseq (ser_u32 i) w) as G. unfold ser_u32 in *. rewrite wsize_wr in G. lia. }
  unfold rser_variant in E. destruct k.
  - apply option_map_some in E as (l & El & ->). specialize (H omit l El). unfold vsize. cbn [ser]. apply G. rewrite <- (map_map snd ser l).
    pose proof (wsize_concat_vals (map snd l)). lia.
  - assert (G' : forall l, ser_fields omit fs ws = Some l -> vsize (STupleVariant i (map snd l)) <= lenN (enc_u32 i) + n).
    { intros l El. specialize (H omit l El). unfold vsize. cbn [ser]. apply G. pose proof (wsize_concat_vals (map snd l)). lia. }
    assert (G0 : vsize (SUnitVariant i) <= lenN (enc_u32 i) + n).
    { unfold vsize. cbn [ser]. unfold ser_u32. rewrite wsize_wr. lia. }
    destruct fs as [|[a [x f]] [|f2 fs]].
    + apply option_map_some in E as (l & El & ->). apply G', El.
    + destruct ws as [|v [|v' ws]]; try discriminate. destruct (serde_skips a) eqn:E1; [injection E as <-; exact G0|].
      apply option_map_some in E as (s & Es & ->).
      specialize (H (fun _ _ => false) [(x, s)]). cbn [ser_fields] in H. rewrite E1, andb_false_r, Es in H. specialize (H eq_refl). cbn [map snd sumN] in H.
      unfold vsize. cbn [ser]. apply G. unfold vsize in H. lia.
    + apply option_map_some in E as (l & El & ->). apply G', El.
  - destruct fs, ws; try discriminate. injection E as <-. unfold vsize. cbn [ser]. unfold ser_u32. rewrite wsize_wr. lia.
Qed.
Lemma map_some_sum {A} (f : A -> option sval) l ss : map_some f l = Some ss -> sumN vsize ss = sumN (fun a => osize (f a)) l.
Proof.
  unfold map_some. revert ss. induction l as [|a l IH]; intros ss E; cbn [map] in E; [injection E as <-; reflexivity|].
  apply all_some_cons in E as (s & ss' & H1 & H2 & ->). cbn [sumN]. rewrite H1, (IH ss' H2). reflexivity.
Qed.
Lemma entries_size c omit t m n sv : lenN (enc_u64 (lenN m)) + sumN (fun kv => wsize (ser_str (fst kv)) + osize (rser c omit t (snd kv))) m <= n ->
  option_map (SMap (Some (lenN m))) (map_some (fun kv : list N * rval => option_map (pair (SStr (fst kv))) (rser c omit t (snd kv))) m) = Some sv -> vsize sv <= n.
Proof.
  intros Hn E. apply option_map_some in E as (l & E & ->). unfold vsize. cbn [ser ser_len].
  match goal with |- wsize (wseq ?a ?b) <= _ => pose proof (wsize_wseq a b) as H1 end. unfold ser_u64 in *. rewrite wsize_wr in H1.
  pose proof (wsize_wconcat_map (fun kv : sval * sval => wseq (ser_key (fst kv)) (ser (snd kv))) l) as H2.
  assert (H3 : sumN (fun kv : sval * sval => wsize (wseq (ser_key (fst kv)) (ser (snd kv)))) l <= sumN (fun kv => wsize (ser_str (fst kv)) + osize (rser c omit t (snd kv))) m).
  { clear -E. unfold map_some in E. revert l E. induction m as [|[k v] m IH]; intros l E; cbn [map fst snd] in E; [injection E as <-; cbn; lia|].
    apply all_some_cons in E as (s & ss' & E1 & E2 & ->). apply option_map_some in E1 as (sv & Ev & ->). cbn [sumN fst snd]. rewrite Ev. specialize (IH ss' E2).
    pose proof (wsize_wseq (ser_str k) (ser sv)). cbn [ser_key osize]. unfold vsize. lia. }
  lia.
Qed.

Lemma sized_fields c dflt omit t fs : readable_fields fs -> Forall (fun f => skipped (fst f) \/ regular (snd (snd f))) fs ->
  (forall f l, In f fs -> ~ skipped_de (fst f) -> reads_leaf l (snd (snd f)) -> reads_leaf l t) ->
  ~ reads_leaf LExtBigDecimal t -> ~ reads_leaf LExtDateTime t ->
  Forall (fun f => readable (snd (snd f)) -> regular (snd (snd f)) -> ~ reads_leaf LExtBigDecimal (snd (snd f)) -> ~ reads_leaf LExtDateTime (snd (snd f)) ->
                   consumes c (rde c dflt (snd (snd f))) (fun v n => osize (rser c omit (snd (snd f)) v) <= n)) fs ->
  Forall (fsized c dflt omit) fs /\ NoDup (map df_name (kept (map (dfl c dflt) fs))).
Proof.
  intros H HR HL HN HN2 IH. inversion H as [? Hf Hn]; subst. split; [|apply kept_names, Hn].
  rewrite Forall_forall in IH, Hf, HR |- *. intros f Hin. destruct (Hf f Hin) as [Hs|(H1 & H2 & H3 & H4)]; [left; exact Hs|right].
  split; [exact H2|]. apply IH; [exact Hin|exact H4| | |].
  - destruct (HR f Hin) as [X|X]; [contradiction|exact X].
  - intros X. apply HN. exact (HL f _ Hin H2 X).
  - intros X. apply HN2. exact (HL f _ Hin H2 X).
Qed.
Lemma osize_le o n : (forall sv, o = Some sv -> vsize sv <= n) -> osize o <= n.
Proof. intros H. destruct o; cbn [osize]; [auto|lia]. Qed.
Theorem rde_size c dflt omit t : wf_cfg c -> 4096 <= heap_limit c -> readable t -> regular t ->
  ~ reads_leaf LExtBigDecimal t -> ~ reads_leaf LExtDateTime t ->
  consumes c (rde c dflt t) (fun v n => osize (rser c omit t v) <= n).
Proof.
  intros Hc Hh. apply (rty_ind2 (fun t => readable t -> regular t -> ~ reads_leaf LExtBigDecimal t -> ~ reads_leaf LExtDateTime t ->
    consumes c (rde c dflt t) (fun v n => osize (rser c omit t v) <= n))); clear t.
  - intros l _ _ Hn Hn2. cbn [rde rser]. apply leaf_size; try assumption; intros ->; [apply Hn|apply Hn2]; constructor.
  - intros t IH Hr Hg Hn Hn2. inversion Hr; inversion Hg; subst.
    specialize (IH H0 H2 ltac:(intros X; apply Hn; constructor; exact X) ltac:(intros X; apply Hn2; constructor; exact X)). cbn [rde].
    eapply consumes_pmap with (R := fun o n => match o with Some v => 1 + osize (rser c omit t v) <= n | None => 1 <= n end).
    + eapply consumes_bind; [apply consumes_bool|]. cbv beta. intros [|] n Hb; [|apply consumes_Ret; lia].
      eapply consumes_pmap; [exact IH|]. cbv beta. intros v m Hv. lia.
    + intros [v|] n Hv; cbn [rser]; apply osize_le; intros sv E.
      * apply option_map_some in E as (s & E & ->). rewrite E in Hv. cbn [osize] in Hv. unfold vsize in *. cbn [ser].
        pose proof (wsize_wseq (wr [1]) (ser s)). rewrite wsize_wr in *. change (lenN [1]) with 1 in *. lia.
      * injection E as <-. unfold vsize. cbn [ser]. rewrite wsize_wr. exact Hv.
  - intros t IH Hr Hg Hn Hn2. inversion Hr; inversion Hg; subst.
    specialize (IH H0 H2 ltac:(intros X; apply Hn; constructor; exact X) ltac:(intros X; apply Hn2; constructor; exact X)). cbn [rde].
    eapply consumes_pmap; [apply consumes_vec, IH|]. cbv beta. intros l n Hl. cbn [rser]. apply osize_le; intros sv E.
    apply option_map_some in E as (ss & E & ->). rewrite <- (map_some_sum _ _ _ E) in Hl. unfold vsize at 1; cbn [ser ser_len].
    pose proof (wsize_wseq (ser_u64 (lenN l)) (wconcat (map ser ss))) as H1. pose proof (wsize_concat_vals ss) as H3.
    unfold ser_u64 in *. rewrite wsize_wr in H1. lia.
  - intros t IH Hr Hg Hn Hn2. inversion Hr; inversion Hg; subst.
    specialize (IH H0 H2 ltac:(intros X; apply Hn; constructor; exact X) ltac:(intros X; apply Hn2; constructor; exact X)). cbn [rde].
    eapply consumes_pmap; [apply consumes_map, IH|]. cbv beta. intros m n Hm. cbn [rser]. apply osize_le; intros sv E.
    exact (entries_size c omit t m n sv Hm E).
  - intros t IH Hr Hg Hn Hn2. inversion Hr; inversion Hg; subst.
    specialize (IH H0 H2 ltac:(intros X; apply Hn; constructor; exact X) ltac:(intros X; apply Hn2; constructor; exact X)). cbn [rde].
    eapply consumes_pmap; [apply consumes_map, IH|]. cbv beta. intros m n Hm. cbn [rser]. apply osize_le; intros sv E.
    exact (entries_size c omit t m n sv Hm E).
  - intros ts IH Hr Hg Hn Hn2. inversion Hr as [| | | | |? HR| |]; inversion Hg as [| | | | |? HG| |]; subst. cbn [rde].
    set (fs := map (fun t => ([] : attrs, (EmptyString, t))) ts).
    assert (HF : Forall (fsized c dflt omit) fs).
    { apply Forall_map. rewrite Forall_forall in IH, HR, HG |- *. intros t Ht. right. cbn [fst snd]. split; [apply not_skipped_de_nil|].
      apply IH; [exact Ht|apply HR, Ht|apply HG, Ht| |]; intros X; [apply Hn|apply Hn2]; exact (rl_tuple _ ts t Ht X). }
    eapply consumes_pmap; [eapply consumes_ext; [intros s; symmetry; apply (run_seq_plain c dflt ts)|apply fields_size, HF]|].
    cbv beta. intros ws n H. cbn [rser]. apply osize_le; intros sv E. apply option_map_some in E as (l & E & ->).
    specialize (H (fun _ _ => false) l). unfold fs in H. rewrite map_map in H. specialize (H E).
    unfold vsize; cbn [ser]. pose proof (wsize_concat_vals (map snd l)). lia.
  - intros k fs IH Hr Hg Hn Hn2. inversion Hr as [| | | | | |? ? HR|]; inversion Hg as [| | | | | |? ? HS1 HS2 HG|]; subst.
    destruct (sized_fields c dflt omit (RStruct k fs) fs HR HG (fun f l H1 H2 H3 => rl_struct l k fs f H1 H2 H3) Hn Hn2 IH) as [HF Hnd].
    cbn [rde]. eapply consumes_pmap; [apply (members_size c dflt omit k fs HF Hnd HS1)|].
    cbv beta. intros ws n H. cbn [rser]. apply osize_le; intros sv E. exact (struct_size _ _ _ _ _ _ H E).
  - intros vars IH Hr Hg Hn Hn2. inversion Hr as [| | | | | | |kept tail HK HT HL E]; inversion Hg as [| | | | | | |? HG]; subst.
    change (rde c dflt (REnum (kept ++ tail))) with (i <- de_u16 ;;
      match pickN (enum_alts 0 (map (fun v => (fst v, members_de (fst (snd v)) (map (dfl c dflt) (snd (snd v))))) (kept ++ tail))) i with
      | Some p => p | None => Fail EMsg end).
    eapply consumes_bind; [apply consumes_u16|]. cbv beta. intros i m (Hm & _ & Hi). rewrite map_app.
    destruct (pickN kept i) as [[a [k fs]]|] eqn:E.
    + pose proof (pickN_some _ _ _ E) as [Hin Hlt]. rewrite Forall_forall in HK, IH, HG. destruct (HK _ Hin) as [Ha HRF]. cbn [fst snd] in Ha, HRF.
      pose proof (in_or_app kept tail _ (or_introl Hin)) as Hin'. specialize (IH _ Hin'). cbn [snd] in IH.
      destruct (HG _ Hin') as [[_ X]|(Hs & HS & HGF)]; [contradiction|]. cbn [fst snd] in Hs, HS, HGF.
      destruct (sized_fields c dflt omit (REnum (kept ++ tail)) fs HRF HGF (fun f l H1 H2 H3 => rl_enum l _ (a, (k, fs)) f Hin' Ha H1 H2 H3) Hn Hn2 IH) as [HF Hnd].
      rewrite (alts_pick _ _ 0 i a (members_de k (map (dfl c dflt) fs))); [|
        apply Forall_map, Forall_forall; intros x Hx; cbn [fst]; apply skip_de_false; apply (HK x Hx)|rewrite pickN_map, E; reflexivity]. rewrite N.add_0_l.
      eapply consumes_pmap; [apply (members_size c dflt omit k fs HF Hnd HS)|]. cbv beta. intros ws n H. apply osize_le; intros sv Es.
      cbn [rser] in Es. rewrite pickN_map, (pickN_app_l kept tail i _ E) in Es. cbn [option_map fst snd] in Es.
      rewrite serde_skips_eq, (proj2 (skip_false a)) in Es by exact Hs. pose proof (variant_size _ _ _ _ _ _ _ H Es) as G.
      rewrite idx_agree in G by lia. lia.
    + rewrite <- map_app. rewrite (alts_short (fun v => members_de (fst (snd v)) (map (dfl c dflt) (snd (snd v)))) (kept ++ tail) (lenN kept)).
      * apply consumes_Fail.
      * assert (HT' : Forall (fun v => skipped_de (fst v)) tail).
        { rewrite Forall_forall in HT, HG |- *. intros v Hv. destruct (HG v (in_or_app _ _ _ (or_intror Hv))) as [[_ X]|[X _]]; [exact X|destruct (X (HT v Hv))]. }
        clear -HK HT'. induction HK as [|v kept [Hv _] _ IHk].
        -- cbn [app]. induction HT' as [|v tail Hv _ IHt]; [constructor|apply rv_skip; assumption].
        -- cbn [app]. rewrite lenN_cons. apply rv_keep; assumption.
      * apply pickN_none, E.
  - intros Hr. inversion Hr.
  - intros i Hr. inversion Hr.
Qed.
Theorem derived_again c dflt omit t : wf_cfg c -> 4096 <= heap_limit c -> readable t -> regular t -> ~ reads_leaf LExtBigDecimal t ->
  forall s v r, bytes_ok s -> narrow c s r -> run c (rde c dflt t) s = OOk v r -> exists sv, rser c omit t v = Some sv /\ wresult (ser sv) = WeOk /\
    (forall rest, run c (rde c dflt t) (wbytes (ser sv) ++ rest) = OOk v rest) /\
    (~ reads_leaf LExtDateTime t -> lenN (wbytes (ser sv)) + lenN r <= lenN s).
Proof.
  intros Hc Hh Hr Hg Hn s v r Hs Hw H. destruct (rde_again c dflt omit t Hc Hh Hr Hg Hn s v r Hs Hw H) as (sv & E & W1 & W2 & _).
  exists sv. split; [exact E|]. split; [exact W1|]. split; [exact W2|]. intros Hn2.
  destruct (rde_size c dflt omit t Hc Hh Hr Hg Hn Hn2 s v r Hs H) as (n & H1 & H2). rewrite E in H2. cbn [osize] in H2. unfold vsize, wsize in H2. lia.
Qed.
