(** * Proofs about changed headers. *)
From Verif Require Import Base BaseFacts Utf8 Utf8Facts SpecVarint SpecUtf8 Varint VarintFacts Serde Typing PrimFacts SerdeFacts Header Body SpecBody
  BodyFacts EvolveWire SpecUpgradeBody UpgradeFacts.
Local Open Scope list_scope.
Local Open Scope N_scope.

Scheme hupgrade_mind := Induction for hupgrade Sort Prop with hupgrades_mind := Induction for hupgrades Sort Prop.
Combined Scheme hupgrade_both from hupgrade_mind, hupgrades_mind.

Section Upgrade.
  Variable c : cfg.
  Definition plain_node (b : body) : bool :=
    node_ok c b && match b with BDate y o => in_s 32 (y - 2000) && (1 <=? o) | _ => true end.
  (** A body of the header, with lawful parts and dates. *)
  Definition hval (h : header) (b : body) : Prop := validate h b = true /\ every plain_node b = true.
  Definition hmoved (h h' : header) (f : body -> body) : Prop := forall b, hval h b -> hval h' (f b) /\ body_bytes (f b) = body_bytes b.
  Inductive hmoved_all : list header -> list header -> list (body -> body) -> Prop :=
  | hm_nil : hmoved_all [] [] []
  | hm_cons h h' f hs hs' fs : hmoved h h' f -> hmoved_all hs hs' fs -> hmoved_all (h :: hs) (h' :: hs') (f :: fs).
  Definition hvals (hs : list header) (l : list body) : Prop := Forall2 hval hs l.

  Lemma every_both : forall b, every plain_node b = body_ok c b && dates_plain b.
  Proof.
    assert (Hl : forall A (f g h : A -> bool) l, Forall (fun x => f x = g x && h x) l -> forallb f l = forallb g l && forallb h l).
    { intros A f g h l H. induction H as [|x l E _ IH]; [reflexivity|]. cbn [forallb]. rewrite E, IH.
      destruct (g x), (h x), (forallb g l), (forallb h l); reflexivity. }
    unfold body_ok, dates_plain. apply (body_ind2 (fun b => every plain_node b = every (node_ok c) b && every _ b)).
    - intros b. destruct b as [|[b|]| | | | | | | | | | | | | | | | |l|l|m|i b| | ]; try exact I; cbn [every]; unfold plain_node; cbn [node_ok]; rewrite ?andb_true_r; reflexivity.
    - intros b IHb. cbn [every]. unfold plain_node at 1. cbn [node_ok andb]. exact IHb.
    - intros l H. cbn [every]. unfold plain_node at 1. rewrite (Hl _ _ _ _ l H). cbn [andb]. rewrite andb_true_r, andb_assoc. reflexivity.
    - intros l H. cbn [every]. unfold plain_node at 1. rewrite (Hl _ _ _ _ l H). cbn [andb]. rewrite andb_true_r, andb_assoc. reflexivity.
    - intros m H. cbn [every]. unfold plain_node at 1. rewrite (Hl _ _ (fun kv => every (node_ok c) (snd kv)) (fun kv => every _ (snd kv)) m H).
      cbn [andb]. rewrite andb_true_r, andb_assoc. reflexivity.
    - intros i b IHb. cbn [every]. rewrite IHb. unfold plain_node. cbn [andb]. rewrite andb_true_r, andb_assoc. reflexivity.
  Qed.
  Lemma tuple_hval hs b : hval (HTuple hs) b <-> exists l, b = BTuple l /\ hvals hs l.
  Proof.
    split.
    - intros [H1 H2]. destruct b; try discriminate. exists l. split; [reflexivity|]. cbn [validate] in H1. apply andb_prop in H1 as [H0 H1]. apply Nat.eqb_eq in H0.
      change (forallb (every plain_node) l = true) in H2. revert l H0 H1 H2. induction hs as [|h hs IH]; intros [|b l] E H1 H2; try discriminate; [constructor|].
      cbn [map all2] in H1. cbn [forallb] in H2. apply andb_prop in H1 as [H3 H4]. apply andb_prop in H2 as [H5 H6].
      constructor; [split; assumption|]. apply IH; [injection E; auto|exact H4|exact H6].
    - intros (l & -> & H). split; [cbn [validate]|change (forallb (every plain_node) l = true)].
      + induction H as [|h b hs l [H1 _] _ IH]; [reflexivity|]. cbn [length Nat.eqb map all2]. apply andb_prop in IH as [I1 I2]. rewrite I1, H1, I2. reflexivity.
      + induction H as [|h b hs l [_ H1] _ IH]; [reflexivity|]. cbn [forallb]. rewrite H1. exact IH.
  Qed.
  Lemma array_hval h b : hval (HArray h) b <-> exists l, b = BArray l /\ usize_ok c (lenN l) = true /\ Forall (hval h) l.
  Proof.
    split.
    - intros [H1 H2]. destruct b; try discriminate. exists l. split; [reflexivity|]. cbn [validate] in H1. cbn [every] in H2. unfold plain_node in H2 at 1. cbn [node_ok] in H2.
      rewrite andb_true_r in H2. apply andb_prop in H2 as [H2 H3]. split; [exact H2|]. apply Forall_forall. intros b Hb. rewrite forallb_forall in H1, H3. split; auto.
    - intros (l & -> & H1 & H2). split; cbn [validate every].
      + apply forallb_forall. intros b Hb. rewrite Forall_forall in H2. apply (H2 b Hb).
      + unfold plain_node at 1. cbn [node_ok]. rewrite H1. cbn [andb]. apply forallb_forall. intros b Hb. rewrite Forall_forall in H2. apply (H2 b Hb).
  Qed.
  Lemma map_hval h b : hval (HMap h) b <-> exists m, b = BMap m /\ usize_ok c (lenN m) = true /\ sorted_keys m = true /\
    Forall (fun kv => str_ok c (fst kv) = true /\ hval h (snd kv)) m.
  Proof.
    split.
    - intros [H1 H2]. destruct b; try discriminate. exists m. split; [reflexivity|]. cbn [validate] in H1. cbn [every] in H2. unfold plain_node in H2 at 1. cbn [node_ok] in H2.
      rewrite andb_true_r in H2. apply andb_prop in H2 as [H2 H3]. apply andb_prop in H2 as [H2 H4]. apply andb_prop in H2 as [H2 H5]. split; [exact H2|]. split; [exact H5|].
      apply Forall_forall. intros b Hb. rewrite forallb_forall in H1, H3, H4. split; [exact (H4 b Hb)|split; [exact (H1 b Hb)|exact (H3 b Hb)]].
    - intros (m & -> & H1 & H2 & H3). split; cbn [validate every].
      + apply forallb_forall. intros b Hb. rewrite Forall_forall in H3. apply (H3 b Hb).
      + unfold plain_node at 1. cbn [node_ok]. rewrite H1, H2. cbn [andb]. rewrite andb_true_r. apply andb_true_intro. split; apply forallb_forall; intros b Hb; rewrite Forall_forall in H3; apply (H3 b Hb).
  Qed.
  Lemma enum_hval hs b : hval (HEnum hs) b <-> exists i p h, b = BEnum i p /\ i <? 2 ^ 32 = true /\ pickN hs i = Some h /\ hval h p.
  Proof.
    split.
    - intros [H1 H2]. destruct b; try discriminate. cbn [validate] in H1. rewrite pickN_map in H1. destruct (pickN hs i) as [h|] eqn:E; [|discriminate]. cbn [option_map] in H1.
      cbn [every] in H2. unfold plain_node in H2 at 1. cbn [node_ok] in H2. rewrite andb_true_r in H2. apply andb_prop in H2 as [H2 H3].
      exists i, b, h. repeat split; assumption.
    - intros (i & p & h & -> & H1 & H2 & H3 & H4). split; cbn [validate every].
      + rewrite pickN_map, H2. exact H3.
      + unfold plain_node at 1. cbn [node_ok]. rewrite H1. exact H4.
  Qed.
  Lemma hmoved_each hs hs' fs : hmoved_all hs hs' fs -> forall l, hvals hs l ->
    hvals hs' (b_each fs l) /\ flat_map body_bytes (b_each fs l) = flat_map body_bytes l.
  Proof.
    induction 1 as [|h h' f hs hs' fs H1 _ IH]; intros l H; inversion H as [|? b ? t T1 T2]; subst; [split; [constructor|reflexivity]|].
    destruct (H1 b T1) as [T3 B1]. destruct (IH t T2) as [T4 B2]. cbn [b_each flat_map]. split; [constructor; assumption|]. rewrite B1, B2. reflexivity.
  Qed.
  Lemma hmoved_pick hs hs' fs : hmoved_all hs hs' fs -> forall i h, pickN hs i = Some h ->
    exists h' f, pickN hs' i = Some h' /\ pickN fs i = Some f /\ hmoved h h' f.
  Proof.
    induction 1 as [|h h' f hs hs' fs H1 _ IH]; intros i h0 E; [discriminate|]. cbn [pickN] in *.
    destruct (i =? 0); [injection E as <-; eauto|]. exact (IH _ _ E).
  Qed.
  Lemma u8_bytes bs : flat_map body_bytes (map BUInt8 bs) = bs.
  Proof. induction bs as [|x bs IH]; [reflexivity|]. cbn [map flat_map body_bytes app]. rewrite IH. reflexivity. Qed.

  Lemma hupgrade_moved : (forall h h' f, hupgrade h h' f -> hmoved h h' f) /\ (forall hs hs' fs, hupgrades hs hs' fs -> hmoved_all hs hs' fs).
  Proof.
    apply hupgrade_both; unfold hmoved.
    - auto.
    - intros h1 h2 h3 f g _ IH1 _ IH2 b Hb. destruct (IH1 b Hb) as [T1 B1]. destruct (IH2 _ T1) as [T2 B2]. split; [exact T2|congruence].
    - intros b [H1 H2]. destruct b as [|[b|]| []| | | | | | | | | | | | | | | | | | | | |]; try discriminate; repeat split; reflexivity.
    - intros b [H1 H2]. destruct b as [|[b|]| []| | | | | | | | | | | | | | | | | | | | |]; try discriminate; repeat split; reflexivity.
    - (* string *) intros b [H1 H2]. destruct b; try discriminate. cbn [b_binary]. split; [|reflexivity]. split; [reflexivity|].
      cbn [every] in *. unfold plain_node in *. cbn [node_ok] in *. rewrite !andb_true_r in *. apply andb_prop in H2 as [H2 H3]. unfold buf_ok. rewrite H3, andb_true_r.
      apply bytes_okb_ok, utf8_valid_bytes, H2.
    - (* array -> binary *) intros b H. apply array_hval in H as (l & -> & H1 & H2). cbn [b_binary].
      assert (E : exists bs, l = map BUInt8 bs /\ bytes_ok bs).
      { clear H1. induction H2 as [|b l [Hb1 Hb2] _ (bs & -> & IH)]; [exists []; split; [reflexivity|constructor]|]. destruct b; try discriminate.
        cbn [every] in Hb2. unfold plain_node in Hb2. cbn [node_ok] in Hb2. rewrite !andb_true_r in Hb2. apply N.ltb_lt in Hb2. exists (n :: bs). split; [reflexivity|constructor; assumption]. }
      destruct E as (bs & -> & Hb). rewrite map_map, map_id. rewrite lenN_map in H1. split; [split; [reflexivity|]|].
      + cbn [every]. unfold plain_node. cbn [node_ok]. rewrite !andb_true_r. unfold buf_ok. rewrite H1. apply bytes_okb_ok in Hb. rewrite Hb. reflexivity.
      + cbn [body_bytes]. rewrite lenN_map, u8_bytes. reflexivity.
    - intros b [H1 H2]. destruct b; try discriminate. split; [split; [reflexivity|exact H2]|reflexivity].
    - intros b [H1 H2]. destruct b; try discriminate. split; [split; [reflexivity|exact H2]|reflexivity].
    - (* binary -> array *) intros b [H1 H2]. destruct b; try discriminate. cbn [b_array]. cbn [every] in H2. unfold plain_node in H2. cbn [node_ok] in H2. rewrite !andb_true_r in H2.
      apply andb_prop in H2 as [H2 H3]. split; [|cbn [body_bytes]; rewrite lenN_map, u8_bytes; reflexivity].
      apply array_hval. exists (map BUInt8 bs). split; [reflexivity|]. rewrite lenN_map. split; [exact H3|]. apply bytes_okb_ok in H2. apply Forall_map. eapply Forall_impl; [|exact H2].
      cbv beta. intros n Hn. split; [reflexivity|]. cbn [every]. unfold plain_node. cbn [node_ok]. rewrite !andb_true_r. apply N.ltb_lt. exact Hn.
    - intros b [H1 H2]. destruct b; try discriminate. split; [split; [reflexivity|exact H2]|reflexivity].
    - intros b [H1 H2]. destruct b; try discriminate. split; [split; [reflexivity|exact H2]|reflexivity].
    - (* date *) intros b [H1 H2]. destruct b; try discriminate. cbn [b_tuple]. cbn [every] in H2. unfold plain_node in H2. cbn [node_ok] in H2. rewrite andb_true_r in H2.
      apply andb_prop in H2 as [H2 H3]. apply andb_prop in H2 as [H2 H4]. apply andb_prop in H3 as [H3 H5].
      split; [|cbn [body_bytes flat_map]; rewrite app_nil_r; reflexivity]. split; [reflexivity|].
      cbn [every forallb]. unfold plain_node. cbn [node_ok]. rewrite H3. cbn [andb]. rewrite !andb_true_r. apply N.ltb_lt in H4. apply N.ltb_lt. lia.
    - intros b [H1 H2]. destruct b; try discriminate. cbn [b_tuple]. cbn [every] in H2. unfold plain_node in H2. cbn [node_ok] in H2. rewrite !andb_true_r in H2.
      apply andb_prop in H2 as [H2 H3]. split; [|cbn [body_bytes flat_map]; rewrite app_nil_r; reflexivity]. split; [reflexivity|].
      cbn [every forallb]. unfold plain_node. cbn [node_ok]. rewrite H2, H3. reflexivity.
    - intros b [H1 H2]. destruct b; try discriminate. repeat split; reflexivity.
    - intros b H. apply tuple_hval in H as (l & -> & H). inversion H; subst. repeat split; reflexivity.
    - (* single *) intros h b H. apply tuple_hval in H as (l & -> & H). inversion H as [|? x ? t H1 H2]; subst. inversion H2; subst. cbn [b_single]. split; [exact H1|].
      cbn [body_bytes flat_map]. rewrite app_nil_r. reflexivity.
    - intros h b H. split; [apply tuple_hval; exists [b]; split; [reflexivity|constructor; [exact H|constructor]]|]. cbn [body_bytes flat_map]. apply app_nil_r.
    - (* flatten *) intros ds1 ds2 ds3 v Hv. apply tuple_hval in Hv as (l & -> & H).
      apply Forall2_split in H as (u & w & -> & Hu & H1 & H2). inversion H2 as [|? x ? t Hx Ht]; subst. apply tuple_hval in Hx as (m & -> & Hm).
      unfold b_flatten. rewrite skipn_app, skipn_all2, <- Hu, Nat.sub_diag by lia. cbn [app skipn]. rewrite firstn_app, firstn_all, Nat.sub_diag. cbn [firstn]. rewrite app_nil_r.
      split; [apply tuple_hval; exists (u ++ m ++ t); split; [reflexivity|]; apply Forall2_app; [exact H1|apply Forall2_app; assumption]|].
      cbn [body_bytes]. rewrite !flat_map_app. cbn [flat_map body_bytes]. reflexivity.
    - (* group *) intros ds1 ds2 ds3 v Hv. apply tuple_hval in Hv as (l & -> & H).
      apply Forall2_split in H as (u & w & -> & Hu & H1 & H2). apply Forall2_split in H2 as (m & t & -> & Hm & H3 & H4).
      unfold b_group. rewrite skipn_app, skipn_all2, <- Hu, Nat.sub_diag by lia. cbn [app skipn]. rewrite firstn_app, firstn_all, Nat.sub_diag. cbn [firstn]. rewrite app_nil_r.
      rewrite skipn_app, firstn_app, <- Hm, firstn_all, skipn_all, Nat.sub_diag. cbn [firstn skipn app]. rewrite app_nil_r.
      split; [apply tuple_hval; eexists; split; [reflexivity|]; apply Forall2_app; [exact H1|constructor; [apply tuple_hval; eauto|exact H4]]|].
      cbn [body_bytes]. rewrite !flat_map_app. cbn [flat_map body_bytes]. reflexivity.
    - (* option -> enum *) intros h b [H1 H2]. destruct b as [|[b|]| | | | | | | | | | | | | | | | | | | | | |]; try discriminate; (split; [|reflexivity]); apply enum_hval.
      + exists 1, b, h. repeat split; assumption.
      + exists 0, BUnit, HUnit. repeat split; reflexivity.
    - (* map -> array *) intros h b H. apply map_hval in H as (m & -> & H1 & H2 & H3). cbn [b_array]. split.
      + apply array_hval. eexists. split; [reflexivity|]. rewrite lenN_map. split; [exact H1|]. apply Forall_map. eapply Forall_impl; [|exact H3]. cbv beta. intros kv [E1 E2].
        apply tuple_hval. eexists. split; [reflexivity|]. constructor; [|constructor; [exact E2|constructor]]. split; [reflexivity|]. cbn [every]. unfold plain_node. cbn [node_ok]. rewrite E1. reflexivity.
      + cbn [body_bytes]. rewrite lenN_map. f_equal. clear. induction m as [|kv m IH]; [reflexivity|]. cbn [map flat_map body_bytes]. rewrite app_nil_r, IH. reflexivity.
    - (* option *) intros h h' f _ IH b [H1 H2]. destruct b as [|[b|]| | | | | | | | | | | | | | | | | | | | | |]; try discriminate; cbn [b_in_option]; [|repeat split; reflexivity].
      destruct (IH b) as [[T1 T2] B]; [split; assumption|]. split; [split; assumption|]. cbn [body_bytes]. rewrite B. reflexivity.
    - (* array *) intros h h' f _ IH b H. apply array_hval in H as (l & -> & H1 & H2). cbn [b_in_array]. split.
      + apply array_hval. eexists. split; [reflexivity|]. rewrite lenN_map. split; [exact H1|]. apply Forall_map. eapply Forall_impl; [|exact H2]. cbv beta. intros b Hb. apply (IH b Hb).
      + cbn [body_bytes]. rewrite lenN_map. f_equal. clear H1. induction H2 as [|b l Hb _ IHl]; [reflexivity|]. cbn [map flat_map]. rewrite (proj2 (IH b Hb)), IHl. reflexivity.
    - (* map *) intros h h' f _ IH b H. apply map_hval in H as (m & -> & H1 & H2 & H3). cbn [b_in_map]. split.
      + apply map_hval. eexists. split; [reflexivity|]. rewrite lenN_map. split; [exact H1|]. split; [rewrite sorted_same; exact H2|]. apply Forall_map. eapply Forall_impl; [|exact H3].
        cbv beta. cbn [fst snd]. intros kv [E1 E2]. split; [exact E1|apply (IH _ E2)].
      + cbn [body_bytes]. rewrite lenN_map. f_equal. clear H1 H2. induction H3 as [|kv m [_ Hkv] _ IHm]; [reflexivity|]. cbn [map flat_map fst snd]. rewrite (proj2 (IH _ Hkv)), IHm. reflexivity.
    - (* tuple *) intros hs hs' fs _ IH b H. apply tuple_hval in H as (l & -> & H). destruct (hmoved_each _ _ _ IH l H) as [T B]. cbn [b_in_tuple].
      split; [apply tuple_hval; eauto|]. exact B.
    - (* enum *) intros hs hs' ws fs _ IH b H. apply enum_hval in H as (i & p & h & -> & H1 & H2 & H3). destruct (hmoved_pick _ _ _ IH i h H2) as (h' & f & E1 & E2 & Hf).
      cbn [b_in_enum]. rewrite E2. destruct (Hf p H3) as [T B]. split; [|cbn [body_bytes]; rewrite B; reflexivity].
      apply enum_hval. exists i, (f p), h'. split; [reflexivity|]. split; [exact H1|]. split; [apply pickN_app, E1|exact T].
    - constructor.
    - intros. constructor; assumption.
  Qed.
End Upgrade.

Lemma upgraded_body c h h' f b rest : wf_cfg c -> 4096 <= heap_limit c -> hupgrade h h' f ->
  validate h b = true -> body_ok c b = true -> dates_plain b = true -> body_fits c (f b) = true ->
  run c (bde c h') (wbytes (bser c b) ++ rest) = OOk (f b) rest /\ validate h' (f b) = true.
Proof.
  intros Hw Hh Hu Hv Ho Hd Hf.
  destruct (proj1 (hupgrade_moved c) h h' f Hu b) as [[Hv' He] Hb]; [split; [exact Hv|rewrite every_both, Ho, Hd; reflexivity]|].
  rewrite every_both in He. apply andb_prop in He as [Ho' Hd']. split; [|exact Hv'].
  destruct (body_wire c b Hw Ho Hd) as [_ E1]. destruct (body_wire c (f b) Hw Ho' Hd') as [_ E2].
  rewrite E1, <- Hb, <- E2. apply (body_roundtrip c h' (f b) Hw Hh Hv' Ho' Hf).
Qed.
