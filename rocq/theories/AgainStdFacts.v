(** * Proofs for PropAgain.v: standard library types. *)
From Coq Require Import String.
From Verif Require Import Base BaseFacts SpecVarint Varint VarintFacts Utf8 Serde Typing PrimFacts SerdeFacts SerdeMore Consume SerdeSize WidthFacts SerdeProps Std SpecStd StdFacts SpecAgain.
Local Open Scope list_scope.
Local Open Scope N_scope.

Definition kept_std (c : cfg) (t : stdty) (w : sval) (v : stdval) : Prop :=
  comes_back c t v v /\ (timed t = false -> vsize (std_sval v) <= vsize w).
Lemma vals_size ws : Forall (fun w => wresult (ser w) = WeOk) ws -> wsize (wconcat (map ser ws)) = sumN vsize ws.
Proof.
  intros H. destruct (wconcat_ok ser ws H) as [_ E]. unfold wsize. rewrite E, lenN_concat, sumN_map. reflexivity.
Qed.
Lemma sized_all vs ws : Forall2 (fun w v => vsize (std_sval v) <= vsize w) ws vs -> Forall (fun w => wresult (ser w) = WeOk) ws ->
  wsize (wconcat (map ser (map std_sval vs))) <= wsize (wconcat (map ser ws)).
Proof.
  intros H Hok. rewrite (vals_size ws Hok). eapply N.le_trans; [apply (wsize_wconcat_map ser)|]. rewrite sumN_map.
  clear Hok. induction H as [|w v ws vs H _ IH]; cbn [sumN]; [lia|]. unfold vsize in *. lia.
Qed.
Lemma typed_ok c d w : wf_cfg c -> 4096 <= heap_limit c -> wf_dty d = true -> has_ty c d w = true -> wresult (ser w) = WeOk.
Proof. intros Hc Hh Hd Hw. exact (proj1 (roundtrip c d w Hc Hh Hd Hw)). Qed.
Lemma wsize_seq_wr bs k : wsize (wseq (wr bs) k) = lenN bs + wsize k.
Proof. unfold wsize. rewrite wbytes_seq_wr, lenN_app. reflexivity. Qed.

Lemma set_nodup (cmp : stdval -> stdval -> comparison) (l m : list stdval) : lawful cmp -> set_of_members cmp l m -> NoDup m /\ incl m l.
Proof.
  intros Hl (Hi & _ & Hm). split.
  - clear Hm. induction m as [|x m IH]; [constructor|]. destruct Hi as [Hx Hi]. constructor; [|apply IH, Hi]. intros X.
    rewrite Forall_forall in Hx. specialize (Hx x X). rewrite (cmp_refl cmp Hl) in Hx. discriminate.
  - intros y Hy. destruct (Hm y Hy) as (l1 & l2 & -> & _). apply in_or_app. right. left. reflexivity.
Qed.
Lemma nodup_sum {A} (f : A -> N) m : NoDup m -> forall l, incl m l -> sumN f m <= sumN f l.
Proof.
  induction 1 as [|x m Hx _ IH]; intros l Hl; cbn [sumN]; [lia|].
  assert (In x l) as Hin by (apply Hl; left; reflexivity). apply in_split in Hin as (l1 & l2 & ->).
  rewrite sumN_app. cbn [sumN]. specialize (IH (l1 ++ l2)). rewrite sumN_app in IH.
  assert (sumN f m <= sumN f l1 + sumN f l2); [|lia]. apply IH. intros y Hy. specialize (Hl y (or_intror Hy)).
  apply in_app_or in Hl as [Hl|[->|Hl]]; [apply in_or_app; auto|contradiction|apply in_or_app; auto].
Qed.
Lemma Forall2_diag {A B} (R : A -> B -> Prop) (S : B -> B -> Prop) ws vs : Forall2 R ws vs -> (forall w v, In w ws -> R w v -> S v v) -> Forall2 S vs vs.
Proof. induction 1 as [|w v ws vs H _ IH]; intros HS; constructor; [apply (HS w v); [left; reflexivity|exact H]|]. apply IH. intros w' v' Hin. apply HS. right. exact Hin. Qed.
Lemma Forall2_in {A B} (R S : A -> B -> Prop) ws vs : Forall2 R ws vs -> (forall w v, In w ws -> R w v -> S w v) -> Forall2 S ws vs.
Proof. induction 1 as [|w v ws vs H _ IH]; intros HS; constructor; [apply HS; [left; reflexivity|exact H]|]. apply IH. intros w' v' Hin. apply HS. right. exact Hin. Qed.
Lemma octets_of_ty c n l : has_ty c (DTuple (repeat DU8 n)) (STuple (map SU8 l)) = true -> bytes_ok l /\ length l = n.
Proof.
  cbn [has_ty]. revert l. induction n as [|n IH]; intros [|x l] H; cbn [repeat map forall2b] in H; try discriminate.
  - split; [constructor|reflexivity].
  - apply andb_prop in H as [H1 H2]. destruct (IH l H2) as [B L]. cbn [has_ty] in H1. apply N.ltb_lt in H1.
    split; [constructor; assumption|cbn [length]; congruence].
Qed.
Lemma sock_of_ty c d l port : has_ty c (DTuple [d; DU16]) (STuple [l; SU16 port]) = true -> has_ty c d l = true /\ port < 2 ^ 16.
Proof. cbn [has_ty map forall2b]. intros H. apply andb_prop in H as [H1 H2]. rewrite andb_true_r in H2. split; [exact H1|apply N.ltb_lt, H2]. Qed.

Lemma each_again c ts : wf_cfg c -> 4096 <= heap_limit c ->
  Forall (fun t => forall w v, stands t w v -> has_ty c (wire t) w = true -> kept_std c t w v) ts -> Forall (fun t => wf_dty (wire t) = true) ts ->
  forall ws vs, all_stand ts ws vs -> forall2b (map (has_ty c) (map wire ts)) ws = true ->
  all_back c ts vs vs /\ (existsb timed ts = false -> Forall2 (fun w v => vsize (std_sval v) <= vsize w) ws vs) /\ Forall (fun w => wresult (ser w) = WeOk) ws.
Proof.
  intros Hc Hh Each W. induction Each as [|t ts IHt _ IH]; intros ws vs A Ht; inversion A as [|? w0 v0 ? ws0 vs0 Hx A']; subst.
  - split; [constructor|]. split; [intros _; constructor|constructor].
  - inversion W as [|? ? W1 W2]; subst. cbn [map forall2b] in Ht. apply andb_prop in Ht as [T1 T2].
    destruct (IHt _ _ Hx T1) as [B S]. destruct (IH W2 _ _ A' T2) as (B2 & S2 & O2). split; [constructor; assumption|].
    split; [|constructor; [apply (typed_ok c (wire t)); assumption|exact O2]]. cbn [existsb]. intros T. apply orb_false_iff in T as [T T']. constructor; auto.
Qed.

Lemma stands_again c t : wf_cfg c -> 4096 <= heap_limit c -> proper t -> wf_dty (wire t) = true -> forall w v,
  stands t w v -> has_ty c (wire t) w = true -> kept_std c t w v.
Proof.
  intros Hc Hh.
  assert (OK : forall d w, wf_dty d = true -> has_ty c d w = true -> wresult (ser w) = WeOk) by (intros d w; apply typed_ok; assumption).
  assert (ALL : forall d ws, wf_dty d = true -> forallb (has_ty c d) ws = true -> Forall (fun w => wresult (ser w) = WeOk) ws).
  { intros d ws Hd Hw. rewrite forallb_forall in Hw. apply Forall_forall. intros w Hin. apply (OK d); [exact Hd|apply Hw, Hin]. }
  assert (VAR : forall i v w, vsize v <= vsize w -> vsize (SNewtypeVariant i v) <= vsize (SNewtypeVariant i w)).
  { intros i v w H. unfold vsize in *. cbn [ser]. unfold ser_u32. rewrite !wsize_seq_wr. lia. }
  induction t as [d|d|t IH|t IH|cmp t IH|n t IH|ts IH|t IH|t IH|t IH|t e IH IHe| | | | | | | | | | | |t IH|fs IH|vs IH] using stdty_ind2;
    cbn [proper wire timed]; intros P Hwf w v H Ht; unfold kept_std; cbn [timed].
  - inversion H; subst. split; [constructor; exact Ht|intros _; apply N.le_refl].
  - inversion H; subst. split; [constructor; assumption|intros _; apply N.le_refl].
  - inversion H as [| | |? w0 v0 H0| | | | | | | | | | | | | | | | | | | | | | | | | | | | | |]; subst.
    + split; [constructor|intros _; apply N.le_refl].
    + destruct (IH P Hwf _ _ H0 Ht) as [B S]. split; [constructor; exact B|]. intros T. specialize (S T). unfold vsize in *. cbn [std_sval ser].
      rewrite !wsize_seq_wr. lia.
  - inversion H as [| | | |? n ws vs F| | | | | | | | | | | | | | | | | | | | | | | | | | | | |]; subst. cbn [has_ty] in Ht. destruct n as [n|]; [|discriminate].
    apply andb_prop in Ht as [Ht1 Ht2]. apply andb_prop in Ht1 as [Hn Hu]. apply N.eqb_eq in Hn. apply N.ltb_lt in Hu. subst n.
    pose proof Ht2 as Hall. rewrite forallb_forall in Ht2.
    assert (K : Forall2 (kept_std c t) ws vs) by (eapply Forall2_in; [exact F|]; intros w0 v0 Hin H0; apply IH; auto).
    assert (L : lenN vs = lenN ws) by (unfold lenN; rewrite (two_len F); reflexivity).
    split.
    + constructor; [rewrite L; exact Hu|]. eapply Forall2_diag; [exact K|]. intros w0 v0 _ K0. apply K0.
    + intros T. unfold vsize. cbn [std_sval ser ser_len]. unfold ser_u64. rewrite !wsize_seq_wr, L. apply N.add_le_mono_l.
      apply sized_all; [|exact (ALL (wire t) _ Hwf Hall)]. eapply Forall2_mono; [|exact K]. intros w0 v0 K0. apply K0, T.
  - destruct P as [Hlaw P].
    inversion H as [| | | | |? ? n ws vs m F Hm| | | | | | | | | | | | | | | | | | | | | | | | | | | |]; subst. cbn [has_ty] in Ht. destruct n as [n|]; [|discriminate].
    apply andb_prop in Ht as [Ht1 Ht2]. apply andb_prop in Ht1 as [Hn Hu]. apply N.eqb_eq in Hn. apply N.ltb_lt in Hu. subst n.
    pose proof Ht2 as Hall. rewrite forallb_forall in Ht2.
    assert (K : Forall2 (kept_std c t) ws vs) by (eapply Forall2_in; [exact F|]; intros w0 v0 Hin H0; apply IH; auto).
    assert (L : lenN vs = lenN ws) by (unfold lenN; rewrite (two_len F); reflexivity).
    destruct (set_nodup cmp vs m Hlaw Hm) as [ND IN].
    assert (L2 : lenN m <= lenN ws) by (rewrite <- L; unfold lenN; pose proof (NoDup_incl_length ND IN); lia).
    split.
    + apply (cb_set c cmp t m m m); [lia| |apply set_of_increasing; [exact Hlaw|apply Hm]].
      assert (G : forall v0, In v0 vs -> comes_back c t v0 v0).
      { clear -K. induction K as [|w v ws vs [K0 _] _ IHk]; intros v0 [].
        - subst. exact K0. - apply IHk; assumption. }
      clear -G IN. induction m as [|x m IHm]; constructor; [apply G, IN; left; reflexivity|]. apply IHm. intros y Hy. apply IN. right. exact Hy.
    + intros T. unfold vsize. cbn [std_sval ser ser_len]. unfold ser_u64. rewrite !wsize_seq_wr.
      apply N.add_le_mono; [apply enc_u64_mono; [exact L2|eapply N.lt_le_trans; [exact Hu|exact (wf_cfg_64 c Hc)]]|].
      rewrite (vals_size ws (ALL (wire t) _ Hwf Hall)). eapply N.le_trans; [apply (wsize_wconcat_map ser)|]. rewrite sumN_map.
      eapply N.le_trans; [apply (nodup_sum _ m ND vs IN)|]. clear -K T. induction K as [|w v ws vs [_ K0] _ IHk]; cbn [sumN]; [lia|]. specialize (K0 T). unfold vsize in *. lia.
  - inversion H as [| | | | | |? ? ws vs F| | | | | | | | | | | | | | | | | | | | | | | | | | |]; subst. cbn [has_ty] in Ht.
    assert (G : length ws = n /\ forallb (has_ty c (wire t)) ws = true).
    { clear -Ht. revert ws Ht. induction n as [|n IHn]; intros [|w ws] Ht; cbn [repeat map forall2b] in Ht; try discriminate; [split; reflexivity|].
      apply andb_prop in Ht as [H1 H2]. destruct (IHn ws H2) as [H3 H4]. cbn [length forallb]. rewrite H1, H4. split; [congruence|reflexivity]. }
    destruct G as [L Hall]. destruct n as [|n].
    + destruct ws; [|discriminate]. inversion F; subst. split; [constructor; [reflexivity|constructor]|intros _; apply N.le_refl].
    + cbn [wf_dty repeat forallb] in Hwf. apply andb_prop in Hwf as [Hwf _]. pose proof Hall as Hall'. rewrite forallb_forall in Hall.
      assert (K : Forall2 (kept_std c t) ws vs) by (eapply Forall2_in; [exact F|]; intros w0 v0 Hin H0; apply IH; auto).
      split.
      * constructor; [rewrite <- (two_len F); exact L|]. eapply Forall2_diag; [exact K|]. intros w0 v0 _ K0. apply K0.
      * intros T. unfold vsize. cbn [std_sval ser]. apply sized_all; [|exact (ALL (wire t) _ Hwf Hall')]. eapply Forall2_mono; [|exact K]. intros w0 v0 K0. apply K0, T.
  - inversion H as [| | | | | | |? ws vs A| | | | | | | | | | | | | | | | | | | | | | | | | |]; subst. clear H. cbn [has_ty] in Ht. cbn [wf_dty] in Hwf.
    assert (G : all_back c ts vs vs /\ (existsb timed ts = false -> Forall2 (fun w v => vsize (std_sval v) <= vsize w) ws vs) /\ Forall (fun w => wresult (ser w) = WeOk) ws).
    { revert ws vs A Ht. induction IH as [|t ts IHt IH IH2]; intros ws vs A Ht; inversion A as [|? w0 v0 ? ws0 vs0 Hx A']; subst.
      - split; [constructor|]. split; [intros _; constructor|constructor].
      - cbn [fold_right] in P. destruct P as [P1 P2]. cbn [map forall2b forallb] in Ht, Hwf. apply andb_prop in Ht as [T1 T2]. apply andb_prop in Hwf as [W1 W2].
        destruct (IHt P1 W1 _ _ Hx T1) as [B S]. destruct (IH2 P2 W2 _ _ A' T2) as (B2 & S2 & O2). split; [constructor; assumption|].
        split; [|constructor; [apply (OK (wire t)); assumption|exact O2]]. cbn [existsb]. intros T. apply orb_false_iff in T as [T T']. constructor; auto. }
    destruct G as (B & S & O). split; [constructor; exact B|]. intros T. unfold vsize. cbn [std_sval ser]. apply sized_all; [apply S, T|exact O].
  - inversion H as [| | | | | | | |? wa wb a b Ha Hb| | | | | | | | | | | | | | | | | | | | | | | | |]; subst. cbn [has_ty map forall2b] in Ht. apply andb_prop in Ht as [T1 T2]. rewrite andb_true_r in T2.
    cbn [wf_dty forallb] in Hwf. apply andb_prop in Hwf as [Hwf _]. destruct (IH P Hwf _ _ Ha T1) as [Ba Sa]. destruct (IH P Hwf _ _ Hb T2) as [Bb Sb].
    split; [constructor; assumption|]. intros T. apply (sized_all [a; b] [wa; wb]); [constructor; [auto|constructor; [auto|constructor]]|].
    constructor; [apply (OK (wire t)); assumption|]. constructor; [apply (OK (wire t)); assumption|constructor].
  - inversion H as [| | | | | | | | |? wa wb a b Ha Hb| | | | | | | | | | | | | | | | | | | | | | | |]; subst. cbn [has_ty map forall2b] in Ht. apply andb_prop in Ht as [T1 T2]. rewrite andb_true_r in T2.
    cbn [wf_dty forallb] in Hwf. apply andb_prop in Hwf as [Hwf _]. destruct (IH P Hwf _ _ Ha T1) as [Ba Sa]. destruct (IH P Hwf _ _ Hb T2) as [Bb Sb].
    split; [constructor; assumption|]. intros T. apply (sized_all [a; b] [wa; wb]); [constructor; [auto|constructor; [auto|constructor]]|].
    constructor; [apply (OK (wire t)); assumption|]. constructor; [apply (OK (wire t)); assumption|constructor].
  - assert (Hw' : wf_dty (wire t) = true) by (cbn in Hwf; repeat (apply andb_prop in Hwf as [? Hwf]); assumption).
    inversion H as [| | | | | | | | | | |? w0 v0 H0|? w0 v0 H0| | | | | | | | | | | | | | | | | | | | |]; subst.
    + split; [constructor|intros _; apply N.le_refl].
    + destruct (IH P Hw' _ _ H0 Ht) as [B S]. split; [constructor; exact B|]. intros T. apply VAR, S, T.
    + destruct (IH P Hw' _ _ H0 Ht) as [B S]. split; [constructor; exact B|]. intros T. apply VAR, S, T.
  - destruct P as [P Pe]. assert (Hw' : wf_dty (wire t) = true /\ wf_dty (wire e) = true).
    { cbn in Hwf. repeat (apply andb_prop in Hwf as [? Hwf]). split; assumption. } destruct Hw' as [Hw' He'].
    inversion H as [| | | | | | | | | | | | |? ? w0 v0 H0|? ? w0 v0 H0| | | | | | | | | | | | | | | | | | |]; subst.
    + destruct (IH P Hw' _ _ H0 Ht) as [B S]. split; [constructor; exact B|]. intros T. apply orb_false_iff in T as [T _]. apply VAR, S, T.
    + destruct (IHe Pe He' _ _ H0 Ht) as [B S]. split; [constructor; exact B|]. intros T. apply orb_false_iff in T as [_ T]. apply VAR, S, T.
  - inversion H as [| | | | | | | | | | | | | | |a b secs nanos H1 H2 H3| | | | | | | | | | | | | | | | | |]; subst. split; [constructor; assumption|discriminate].
  - inversion H as [| | | | | | | | | | | | | | | |a b secs nanos H1 H2 H3| | | | | | | | | | | | | | | | |]; subst. split; [|discriminate].
    constructor; [|exact H1]. split; [apply N2Z.is_nonneg|]. change (2 ^ 63)%Z with (Z.of_N (2 ^ 63)). apply N2Z.inj_lt, H2.
  - inversion H as [| | | | | | | | | | | | | | | | |bs Hn| | | | | | | | | | | | | | | |]; subst. split; [|intros _; apply N.le_refl].
    cbn [has_ty] in Ht. unfold buf_ok in Ht. apply andb_prop in Ht as [T1 T2]. constructor; [apply bytes_okb_ok, T1|exact Hn|apply N.ltb_lt, T2].
  - inversion H as [| | | | | | | | | | | | | | | | | |n bs| | | | | | | | | | | | | | |]; subst.
    assert (G : has_ty c (DVec DU8) (SSeq n (map SU8 bs)) = true) by exact Ht. cbn [has_ty] in G. destruct n as [n|]; [|discriminate].
    apply andb_prop in G as [G1 G2]. apply andb_prop in G1 as [Hn Hu]. apply N.eqb_eq in Hn. apply N.ltb_lt in Hu. rewrite lenN_map in Hn. subst n.
    split; [|intros _; apply N.le_refl]. constructor; [|exact Hu]. rewrite forallb_forall in G2.
    apply Forall_forall. intros x Hx. specialize (G2 (SU8 x) (in_map SU8 _ _ Hx)). cbn [has_ty] in G2. apply N.ltb_lt in G2. exact G2.
  - inversion H; subst. split; [constructor; exact Ht|]. intros _. cbn [std_sval]. cbn [has_ty] in Ht. unfold str_ok in Ht.
    apply andb_prop in Ht as [-> _]. apply N.le_refl.
  - inversion H; subst. destruct (octets_of_ty _ _ _ Ht) as [B L]. split; [constructor; assumption|intros _; apply N.le_refl].
  - inversion H; subst. destruct (octets_of_ty _ _ _ Ht) as [B L]. split; [constructor; assumption|intros _; apply N.le_refl].
  - inversion H as [| | | | | | | | | | | | | | | | | | | | | |? ? Hx|? ? Hx| | | | | | | | | |]; subst; inversion Hx as [| | | | | | | | | | | | | | | | | | | |l|l| | | | | | | | | | | |]; subst.
    + destruct (octets_of_ty c 4 _ Ht) as [B L]. split; [constructor; constructor; assumption|intros _; apply N.le_refl].
    + destruct (octets_of_ty c 16 _ Ht) as [B L]. split; [constructor; constructor; assumption|intros _; apply N.le_refl].
  - inversion H; subst. apply sock_of_ty in Ht as [Ht Hp]. destruct (octets_of_ty _ _ _ Ht) as [B L]. split; [constructor; assumption|intros _; apply N.le_refl].
  - inversion H; subst. apply sock_of_ty in Ht as [Ht Hp]. destruct (octets_of_ty _ _ _ Ht) as [B L]. split; [constructor; assumption|intros _; apply N.le_refl].
  - inversion H as [| | | | | | | | | | | | | | | | | | | | | | | | | |? ? Hx|? ? Hx | | | | | |]; subst; inversion Hx as [| | | | | | | | | | | | | | | | | | | | | | | |l port|l port| | | | | | | |]; subst.
    + apply (sock_of_ty c ip4_wire) in Ht as [Ht Hp]. destruct (octets_of_ty c 4 _ Ht) as [B L]. split; [constructor; constructor; assumption|intros _; apply N.le_refl].
    + apply (sock_of_ty c ip6_wire) in Ht as [Ht Hp]. destruct (octets_of_ty c 16 _ Ht) as [B L]. split; [constructor; constructor; assumption|intros _; apply N.le_refl].
  - inversion H as [| | | | | | | | | | | | | | | | | | | | | | | | | | | |? n ws vs Hk Hv| | | | |]; subst. cbn [has_ty] in Ht. destruct n as [n|]; [|discriminate].
    destruct (strkeys ws) as [m|] eqn:Ek; [|discriminate]. apply strkeys_spec in Ek. subst ws.
    apply andb_prop in Ht as [Ht HF]. apply andb_prop in Ht as [Ht Hs]. apply andb_prop in Ht as [Hn Hu].
    apply N.eqb_eq in Hn; subst n. rewrite lenN_map in *. rewrite !map_map in Hk, Hv. cbn [fst] in Hk. rewrite <- (map_map fst SStr m), key_names in Hk. apply SStr_inj in Hk.
    change (Forall2 (stands t) (map snd m) (map snd vs)) in Hv. rewrite forallb_forall in HF.
    assert (Lm : lenN m = lenN vs) by (unfold lenN; rewrite <- (map_length fst m), Hk, map_length; reflexivity).
    assert (K : Forall2 (kept_std c t) (map snd m) (map snd vs)).
    { eapply Forall2_in; [exact Hv|]. intros w0 v0 Hin H0. apply in_map_iff in Hin as (kv & <- & Hin). specialize (HF kv Hin). apply andb_prop in HF as [_ HF]. apply IH; auto. }
    split.
    + apply cb_map; [rewrite <- Lm; apply N.ltb_lt, Hu|rewrite <- (sorted_same m vs Hk); exact Hs| |reflexivity|].
      * apply Forall_forall. intros kv Hin. apply (in_map fst) in Hin. rewrite <- Hk in Hin. apply in_map_iff in Hin as (kw & <- & Hin).
        specialize (HF kw Hin). apply andb_prop in HF as [HF _]. exact HF.
      * eapply Forall2_diag; [exact K|]. intros w0 v0 _ K0. apply K0.
    + intros T. unfold vsize. cbn [std_sval ser ser_len]. unfold ser_u64. rewrite !wsize_seq_wr, Lm. apply N.add_le_mono_l. rewrite !map_map. cbn [fst snd ser_key].
      eapply N.le_trans; [apply (wsize_wconcat_map (fun kv => wseq (ser_str (fst kv)) (ser (std_sval (snd kv)))))|].
      destruct (wconcat_ok (fun kv => wseq (ser_str (fst kv)) (ser (snd kv))) m) as [_ E].
      { apply Forall_forall. intros kv Hin. specialize (HF kv Hin). apply andb_prop in HF as [_ HF]. exact (OK (wire t) (snd kv) Hwf HF). }
      unfold wsize at 2. rewrite E, lenN_concat, sumN_map. fold (@wsize). clear -K T Hk.
      revert vs K Hk. induction m as [|[k w] m IHm]; intros [|[k' v] vs] K Hk; try discriminate.
      cbn [map fst snd] in *. injection Hk as -> Hk. inversion K as [|? ? ? ? K1 K2]; subst. cbn [sumN fst snd]. specialize (IHm vs K2 Hk). destruct K1 as [_ K1]. specialize (K1 T).
      apply N.add_le_mono; [|exact IHm]. unfold wsize, vsize, wsize, ser_str, ser_u64 in *. cbn [wseq wr wbytes]. rewrite !lenN_app. lia.
  - destruct P as [Hnd P]. cbn [wf_dty] in Hwf. apply andb_prop in Hwf as [_ Hwf].
    inversion H as [| | | | | | | | | | | | | | | | | | | | | | | | | | | | |? ws vs Hn Hn' A| | | |]; subst. cbn [has_ty] in Ht. rewrite map_map in Ht. cbn [fst snd] in Ht.
    destruct (each_again c (map snd fs) Hc Hh) with (ws := map snd ws) (vs := map snd vs) as (B & S & O).
    + clear -IH P Hwf. induction IH as [|[n t] fs Ht IH IH2]; [constructor|]. cbn [fold_right snd map forallb] in *. apply andb_prop in Hwf as [H1 H2]. destruct P as [P1 P2].
      constructor; [exact (Ht P1 H1)|exact (IH2 P2 H2)].
    + rewrite forallb_forall in Hwf. apply Forall_forall. intros t Hin. apply in_map_iff in Hin as ([n t'] & <- & Hin).
      exact (Hwf (n, wire t') (in_map (fun nf => (fst nf, wire (snd nf))) _ _ Hin)).
    + exact A.
    + clear -Ht. revert ws Ht. induction fs as [|[n t] fs IH]; intros [|[k w] ws] Ht; try discriminate; [reflexivity|]. cbn [map forall2b fst snd] in *.
      apply andb_prop in Ht as [H1 H2]. apply andb_prop in H1 as [_ H1]. rewrite H1. apply IH, H2.
    + split; [constructor; assumption|]. intros T. unfold vsize. cbn [std_sval ser]. rewrite map_map. cbn [snd].
      rewrite <- (map_map snd (fun v => ser (std_sval v)) vs), <- (map_map snd ser ws), <- (map_map std_sval ser (map snd vs)).
      apply sized_all; [|exact O]. apply S. clear -T. induction fs as [|x fs IH]; [reflexivity|]. cbn [map existsb] in *. apply orb_false_iff in T as [-> T]. apply IH, T.
  - cbn [wf_dty] in Hwf. apply andb_prop in Hwf as [_ Hwf]. rewrite forallb_forall in Hwf. rewrite Forall_forall in IH.
    assert (G : forall i k t w v, nth_error vs (N.to_nat i) = Some (k, t) -> stands t w v -> has_ty c (wire t) w = true ->
      comes_back c (TEnum vs) (XVariant k i v) (XVariant k i v) /\ (existsb (fun v => timed (snd v)) vs = false -> vsize (std_sval v) <= vsize w)).
    { intros i k t w0 v0 E H0 T0. pose proof E as E'. rewrite <- pickN_nth in E'. destruct (proper_variant _ _ _ _ P E') as [_ Pt]. pose proof (pickN_some _ _ _ E') as [Hin _].
      specialize (Hwf (k, wire t) (in_map (fun v => (fst v, wire (snd v))) _ _ Hin)). cbn [fst snd] in Hwf. apply andb_prop in Hwf as [_ Hwf].
      destruct (IH (k, t) Hin Pt Hwf w0 v0 H0 T0) as [B S]. split; [econstructor; eassumption|]. intros T. apply S. cbn [snd].
      apply Bool.not_true_iff_false. intros X. apply Bool.not_true_iff_false in T. apply T, existsb_exists. exists (k, t). auto. }
    inversion H as [| | | | | | | | | | | | | | | | | | | | | | | | | | | | | |? i t v0 E S0|? i t w0 v0 E S0|? i t ws v0 E S0|? i t ws v0 E S0]; subst;
      cbn [has_ty] in Ht; rewrite !pickN_map, pickN_nth, E in Ht; cbn [option_map fst snd] in Ht;
      destruct (G _ _ _ _ _ E S0 Ht) as [B S]; (split; [exact B|]); intros T; specialize (S T); cbn [std_sval].
    + apply N.le_refl.
    + apply VAR, S.
    + assert (Hp : exists ts, t = TTuple ts) by (rewrite <- pickN_nth in E; exact (proj1 (proper_variant _ _ _ _ P E))). destruct Hp as [ts ->].
      inversion S0; subst. cbn [std_sval variant_sval] in *. unfold vsize in *. cbn [ser] in *. unfold ser_u32. rewrite !wsize_seq_wr. lia.
    + assert (Hp : exists fs, t = TStruct fs) by (rewrite <- pickN_nth in E; exact (proj1 (proper_variant _ _ _ _ P E))). destruct Hp as [fs ->].
      inversion S0; subst. cbn [std_sval variant_sval] in *. unfold vsize in *. cbn [ser] in *. unfold ser_u32. rewrite !wsize_seq_wr. lia.
Qed.
Theorem std_again c t : wf_cfg c -> 4096 <= heap_limit c -> proper t -> wf_dty (wire t) = true ->
  forall s v r, bytes_ok s -> narrow c s r -> run c (std_de c t) s = OOk v r -> wresult (ser (std_sval v)) = WeOk /\
    (forall rest, run c (std_de c t) (wbytes (ser (std_sval v)) ++ rest) = OOk v rest) /\
    (timed t = false -> lenN (wbytes (ser (std_sval v))) + lenN r <= lenN s).
Proof.
  intros Hc Hh P Hw s v r Hs Hn H. pose proof (std_follows c t P s) as F. rewrite H in F.
  remember (OOk v r) as o eqn:Eo. remember (run c (de c (wire t)) s) as raw eqn:Er. destruct F as [w0 v0 r0 H0|e|x|w0 r0 Hb H0|e Hb|x Hb]; try discriminate.
  injection Eo as -> ->. symmetry in Er. pose proof (typed_short c _ Hc Hh Hw s w0 r Hs Hn Er) as Ht.
  destruct (stands_again c t Hc Hh P Hw w0 v H0 Ht) as [B S].
  split; [exact (proj1 (std_roundtrip c t v v [] Hc Hh P Hw B))|]. split; [intros rest; exact (proj2 (std_roundtrip c t v v rest Hc Hh P Hw B))|].
  intros T. specialize (S T). destruct (reencode c _ Hc Hh Hw s w0 r Hs Er) as (n & E1 & E2). unfold vsize, wsize in *. lia.
Qed.
