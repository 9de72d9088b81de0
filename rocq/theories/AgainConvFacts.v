(** * Proofs for PropAlikeMore.v: types with conversions that can be undone are written again. *)
From Coq Require Import String.
From Verif Require Import Base BaseFacts SpecVarint Varint VarintFacts Utf8 Serde Typing PrimFacts SerdeFacts SerdeMore Consume SerdeSize WidthFacts SerdeProps Std SpecStd StdFacts SpecAgain AgainStdFacts Conv SpecConv ConvFacts SpecUndo.
Local Open Scope list_scope.
Local Open Scope N_scope.

Section Again.
Context {U : Type}.
Implicit Types (t : cty U) (v : cval U).
Definition kept_conv (c : cfg) t (w : sval) v : Prop :=
  returns c t v v /\ (ctimed t = false -> vsize (csval t v) <= vsize w).
Lemma sized_svals ss ws : Forall2 (fun w s => vsize s <= vsize w) ws ss -> Forall (fun w => wresult (ser w) = WeOk) ws ->
  wsize (wconcat (map ser ss)) <= wsize (wconcat (map ser ws)).
Proof.
  intros H Hok. rewrite (vals_size ws Hok). eapply N.le_trans; [apply (wsize_wconcat_map ser)|].
  clear Hok. induction H as [|w v ws vs H _ IH]; cbn [sumN]; [lia|]. unfold vsize in *. lia.
Qed.
Lemma each_conv_again c (ts : list (cty U)) : wf_cfg c -> 4096 <= heap_limit c ->
  Forall (fun t => forall w v, turned t w v -> has_ty c (cwire t) w = true -> kept_conv c t w v) ts -> Forall (fun t => wf_dty (cwire t) = true) ts ->
  forall ws vs, all_turned ts ws vs -> forall2b (map (has_ty c) (map cwire ts)) ws = true ->
  all_return c ts vs vs /\ (existsb ctimed ts = false -> Forall2 (fun w s => vsize s <= vsize w) ws (apply_all (map csval ts) vs)) /\ Forall (fun w => wresult (ser w) = WeOk) ws.
Proof.
  intros Hc Hh Each W. induction Each as [|t ts IHt _ IH]; intros ws vs A Ht; inversion A as [|? w0 v0 ? ws0 vs0 Hx A']; subst.
  - split; [constructor|]. split; [intros _; constructor|constructor].
  - inversion W as [|? ? W1 W2]; subst. cbn [map forall2b] in Ht. apply andb_prop in Ht as [T1 T2].
    destruct (IHt _ _ Hx T1) as [B S]. destruct (IH W2 _ _ A' T2) as (B2 & S2 & O2). split; [constructor; assumption|].
    split; [|constructor; [apply (typed_ok c (cwire t)); assumption|exact O2]]. cbn [existsb]. intros T. apply orb_false_iff in T as [T T']. cbn [map apply_all]. constructor; auto.
Qed.

Lemma turned_again c t : wf_cfg c -> 4096 <= heap_limit c -> cproper t -> wf_dty (cwire t) = true -> undone c t -> forall w v,
  turned t w v -> has_ty c (cwire t) w = true -> kept_conv c t w v.
Proof.
  intros Hc Hh.
  assert (OK : forall d w, wf_dty d = true -> has_ty c d w = true -> wresult (ser w) = WeOk) by (intros d w; apply typed_ok; assumption).
  assert (ALL : forall d ws, wf_dty d = true -> forallb (has_ty c d) ws = true -> Forall (fun w => wresult (ser w) = WeOk) ws).
  { intros d ws Hd Hw. rewrite forallb_forall in Hw. apply Forall_forall. intros w Hin. apply (OK d); [exact Hd|apply Hw, Hin]. }
  induction t as [t|into from t IH|into from t IH|t IH|t IH|ts IH|t IH|fs IH|vs IH] using cty_ind2;
    cbn [cproper cwire undone]; intros P Hwf K w v H Ht; unfold kept_conv; cbn [ctimed].
  - inversion H; subst. destruct (stands_again c t Hc Hh P Hwf w v0 ltac:(assumption) Ht) as [B S]. split; [apply re_std, B|exact S].
  - destruct K as [K1 K2]. inversion H as [|? ? ? ? x H0| | | | | | | | | | |]; subst. destruct (IH P Hwf K2 _ _ H0 Ht) as [B S].
    assert (E : into (from x) = x) by exact (K1 _ _ Ht H0). split; [apply re_from; rewrite E; exact B|]. cbn [csval]. rewrite E. exact S.
  - destruct K as [K1 K2]. inversion H as [| |? ? ? ? x ? H0 E0| | | | | | | | | |]; subst. destruct (IH P Hwf K2 _ _ H0 Ht) as [B S].
    assert (E : into v = Some x) by exact (K1 _ _ _ Ht H0 E0). split; [apply (re_try c into from t v x x v); assumption|]. cbn [csval]. rewrite E. exact S.
  - inversion H as [| | | |? w0 v0 H0| | | | | | | |]; subst.
    + split; [constructor|intros _; apply N.le_refl].
    + destruct (IH P Hwf K _ _ H0 Ht) as [B S]. split; [constructor; exact B|]. intros T. specialize (S T). unfold vsize in *. cbn [csval ser].
      rewrite !wsize_seq_wr. lia.
  - inversion H as [| | | | |? n ws vs F| | | | | | |]; subst. cbn [has_ty] in Ht. destruct n as [n|]; [|discriminate].
    apply andb_prop in Ht as [Ht1 Ht2]. apply andb_prop in Ht1 as [Hn Hu]. apply N.eqb_eq in Hn. apply N.ltb_lt in Hu. subst n.
    pose proof Ht2 as Hall. rewrite forallb_forall in Ht2.
    assert (Q : Forall2 (kept_conv c t) ws vs) by (eapply Forall2_in; [exact F|]; intros w0 v0 Hin H0; apply IH; auto).
    assert (L : lenN vs = lenN ws) by (unfold lenN; rewrite (two_len F); reflexivity).
    split.
    + constructor; [rewrite L; exact Hu|]. eapply Forall2_diag; [exact Q|]. intros w0 v0 _ K0. apply K0.
    + intros T. unfold vsize. cbn [csval ser ser_len]. unfold ser_u64. rewrite !wsize_seq_wr, L. apply N.add_le_mono_l.
      apply sized_svals; [|exact (ALL (cwire t) _ Hwf Hall)]. clear -Q T. induction Q as [|w0 v0 ws vs [_ K0] _ IHq]; cbn [map]; constructor; auto.
  - cbn [wf_dty] in Hwf. inversion H as [| | | | | |? ws vs A| | | | | |]; subst. cbn [has_ty] in Ht.
    destruct (each_conv_again c ts Hc Hh) with (ws := ws) (vs := vs) as (B & S & O); [| |exact A|exact Ht|].
    + clear -IH P Hwf K. induction IH as [|t ts Ht IH IH2]; [constructor|]. cbn [fold_right map forallb] in *. apply andb_prop in Hwf as [H1 H2]. destruct P as [P1 P2]. destruct K as [K1 K2].
      constructor; [exact (Ht P1 H1 K1)|exact (IH2 P2 H2 K2)].
    + rewrite forallb_forall in Hwf. apply Forall_forall. intros t Hin. exact (Hwf _ (in_map cwire _ _ Hin)).
    + split; [constructor; exact B|]. intros T. unfold vsize. cbn [csval ser]. apply sized_svals; [apply S, T|exact O].
  - inversion H as [| | | | | | |? n ws vs Hk Hv| | | | |]; subst. cbn [has_ty] in Ht. destruct n as [n|]; [|discriminate].
    destruct (strkeys ws) as [m|] eqn:Ek; [|discriminate]. apply strkeys_spec in Ek. subst ws.
    apply andb_prop in Ht as [Ht HF]. apply andb_prop in Ht as [Ht Hs]. apply andb_prop in Ht as [Hn Hu].
    apply N.eqb_eq in Hn; subst n. rewrite lenN_map in *. rewrite !map_map in Hk, Hv. cbn [fst] in Hk. rewrite <- (map_map fst SStr m), key_names in Hk. apply SStr_inj in Hk.
    change (Forall2 (turned t) (map snd m) (map snd vs)) in Hv. rewrite forallb_forall in HF.
    assert (Lm : lenN m = lenN vs) by (unfold lenN; rewrite <- (map_length fst m), Hk, map_length; reflexivity).
    assert (Q : Forall2 (kept_conv c t) (map snd m) (map snd vs)).
    { eapply Forall2_in; [exact Hv|]. intros w0 v0 Hin H0. apply in_map_iff in Hin as (kv & <- & Hin). specialize (HF kv Hin). apply andb_prop in HF as [_ HF]. apply IH; auto. }
    split.
    + apply re_map; [rewrite <- Lm; apply N.ltb_lt, Hu|rewrite <- (sorted_same m vs Hk); exact Hs| |reflexivity|].
      * apply Forall_forall. intros kv Hin. apply (in_map fst) in Hin. rewrite <- Hk in Hin. apply in_map_iff in Hin as (kw & <- & Hin).
        specialize (HF kw Hin). apply andb_prop in HF as [HF _]. exact HF.
      * eapply Forall2_diag; [exact Q|]. intros w0 v0 _ K0. apply K0.
    + intros T. unfold vsize. cbn [csval ser ser_len]. unfold ser_u64. rewrite !wsize_seq_wr, Lm. apply N.add_le_mono_l. rewrite !map_map. cbn [fst snd ser_key].
      eapply N.le_trans; [apply (wsize_wconcat_map (fun kv => wseq (ser_str (fst kv)) (ser (csval t (snd kv)))))|].
      destruct (wconcat_ok (fun kv => wseq (ser_str (fst kv)) (ser (snd kv))) m) as [_ E].
      { apply Forall_forall. intros kv Hin. specialize (HF kv Hin). apply andb_prop in HF as [_ HF]. exact (OK (cwire t) (snd kv) Hwf HF). }
      unfold wsize at 2. rewrite E, lenN_concat, sumN_map. fold (@wsize). clear -Q T Hk.
      revert vs Q Hk. induction m as [|[k w] m IHm]; intros [|[k' v] vs] Q Hk; try discriminate.
      cbn [map fst snd] in *. injection Hk as -> Hk. inversion Q as [|? ? ? ? K1 K2]; subst. cbn [sumN fst snd]. specialize (IHm vs K2 Hk). destruct K1 as [_ K1]. specialize (K1 T).
      apply N.add_le_mono; [|exact IHm]. unfold wsize, vsize, wsize, ser_str, ser_u64 in *. cbn [wseq wr wbytes]. rewrite !lenN_app. lia.
  - destruct P as [Hnd P]. cbn [wf_dty] in Hwf. apply andb_prop in Hwf as [_ Hwf].
    inversion H as [| | | | | | | |? ws vs Hn Hn' A| | | |]; subst. cbn [has_ty] in Ht. rewrite map_map in Ht. cbn [fst snd] in Ht.
    destruct (each_conv_again c (map snd fs) Hc Hh) with (ws := map snd ws) (vs := map snd vs) as (B & S & O).
    + clear -IH P Hwf K. induction IH as [|[n t] fs Ht IH IH2]; [constructor|]. cbn [fold_right snd map forallb] in *. apply andb_prop in Hwf as [H1 H2]. destruct P as [P1 P2]. destruct K as [K1 K2].
      constructor; [exact (Ht P1 H1 K1)|exact (IH2 P2 H2 K2)].
    + rewrite forallb_forall in Hwf. apply Forall_forall. intros t Hin. apply in_map_iff in Hin as ([n t'] & <- & Hin).
      exact (Hwf (n, cwire t') (in_map (fun nf => (fst nf, cwire (snd nf))) _ _ Hin)).
    + exact A.
    + clear -Ht. revert ws Ht. induction fs as [|[n t] fs IH]; intros [|[k w] ws] Ht; try discriminate; [reflexivity|]. cbn [map forall2b fst snd] in *.
      apply andb_prop in Ht as [H1 H2]. apply andb_prop in H1 as [_ H1]. rewrite H1. apply IH, H2.
    + split; [constructor; assumption|]. intros T. unfold vsize. cbn [csval ser].
      assert (T' : existsb ctimed (map snd fs) = false) by (clear -T; induction fs as [|x fs IH]; [reflexivity|]; cbn [map existsb] in *; apply orb_false_iff in T as [-> T]; apply IH, T).
      specialize (S T'). rewrite map_map in S. pose proof (sized_svals _ _ S O) as Z. rewrite <- !(map_map snd ser).
      rewrite map_snd_combine; [exact Z|]. rewrite map_length, <- (two_len S), map_length. rewrite <- (map_length fst ws), Hn, map_length. reflexivity.
  - cbn [wf_dty] in Hwf. apply andb_prop in Hwf as [_ Hwf]. rewrite forallb_forall in Hwf. rewrite Forall_forall in IH.
    assert (G : forall i k t w v, nth_error vs (N.to_nat i) = Some (k, t) -> turned t w v -> has_ty c (cwire t) w = true ->
      returns c (CEnum vs) (VVariant k i v) (VVariant k i v) /\ (existsb (fun kt => ctimed (snd kt)) vs = false -> vsize (csval t v) <= vsize w) /\
      csval (CEnum vs) (VVariant k i v) = variant_sval k i (csval t v)).
    { intros i k t w0 v0 E H0 T0. pose proof E as E'. rewrite <- pickN_nth in E'. destruct (cproper_variant _ _ _ _ P E') as [_ Pt]. pose proof (pickN_some _ _ _ E') as [Hin _].
      specialize (Hwf (k, cwire t) (in_map (fun kt => (fst kt, cwire (snd kt))) _ _ Hin)). cbn [fst snd] in Hwf. apply andb_prop in Hwf as [_ Hwf].
      assert (Kt : undone c t). { clear -K Hin. induction vs as [|x vs IH]; [destruct Hin|]. cbn [fold_right] in K. destruct K as [K1 K2]. destruct Hin as [->|Hin]; [exact K1|auto]. }
      destruct (IH (k, t) Hin Pt Hwf Kt w0 v0 H0 T0) as [B S]. split; [econstructor; eassumption|]. split; [|cbn [csval]; rewrite pickN_map, E'; reflexivity]. intros T. apply S. cbn [snd].
      apply Bool.not_true_iff_false. intros X. apply Bool.not_true_iff_false in T. apply T, existsb_exists. exists (k, t). auto. }
    inversion H as [| | | | | | | | |? i t v0 E S0|? i t w0 v0 E S0|? i t ws v0 E S0|? i t ws v0 E S0]; subst;
      cbn [has_ty] in Ht; rewrite !pickN_map, pickN_nth, E in Ht; cbn [option_map fst snd] in Ht;
      destruct (G _ _ _ _ _ E S0 Ht) as (B & S & EQ); (split; [exact B|]); intros T; specialize (S T); rewrite EQ.
    + apply N.le_refl.
    + cbn [variant_sval]. unfold vsize in *. cbn [ser]. unfold ser_u32. rewrite !wsize_seq_wr. lia.
    + assert (Hp : exists ts, t = CTuple ts) by (rewrite <- pickN_nth in E; exact (proj1 (cproper_variant _ _ _ _ P E))). destruct Hp as [ts ->].
      inversion S0; subst. cbn [csval variant_sval] in *. unfold vsize in *. cbn [ser] in *. unfold ser_u32. rewrite !wsize_seq_wr. lia.
    + assert (Hp : exists fs, t = CStruct fs) by (rewrite <- pickN_nth in E; exact (proj1 (cproper_variant _ _ _ _ P E))). destruct Hp as [fs ->].
      inversion S0; subst. cbn [csval variant_sval] in *. unfold vsize in *. cbn [ser] in *. unfold ser_u32. rewrite !wsize_seq_wr. lia.
Qed.
Theorem conv_again c t : wf_cfg c -> 4096 <= heap_limit c -> cproper t -> wf_dty (cwire t) = true -> undone c t ->
  forall s v r, bytes_ok s -> narrow c s r -> run c (cde c t) s = OOk v r -> wresult (ser (csval t v)) = WeOk /\
    (forall rest, run c (cde c t) (wbytes (ser (csval t v)) ++ rest) = OOk v rest) /\
    (ctimed t = false -> lenN (wbytes (ser (csval t v))) + lenN r <= lenN s).
Proof.
  intros Hc Hh P Hw K s v r Hs Hn H. pose proof (conv_follows c t P s) as F. rewrite H in F.
  remember (OOk v r) as o eqn:Eo. remember (run c (de c (cwire t)) s) as raw eqn:Er. destruct F as [w0 v0 r0 H0|e|x|w0 r0 Hb H0|e Hb|x Hb]; try discriminate.
  injection Eo as -> ->. symmetry in Er. pose proof (typed_short c _ Hc Hh Hw s w0 r Hs Hn Er) as Ht.
  destruct (turned_again c t Hc Hh P Hw K w0 v H0 Ht) as [B S].
  split; [exact (proj1 (conv_roundtrip c t v v [] Hc Hh P Hw B))|]. split; [intros rest; exact (proj2 (conv_roundtrip c t v v rest Hc Hh P Hw B))|].
  intros T. specialize (S T). destruct (reencode c _ Hc Hh Hw s w0 r Hs Er) as (n & E1 & E2). unfold vsize, wsize in *. lia.
Qed.
End Again.
