(** * Proofs about changed types. *)
From Coq Require Import String.
From Verif Require Import Base BaseFacts Utf8 Utf8Facts SpecUtf8 Varint VarintFacts Serde Typing PrimFacts SerdeFacts SerdeMore SerdeProps SizeFacts
  EvolveFacts EvolveWire SpecUpgrade.
Local Open Scope list_scope.
Local Open Scope N_scope.

Scheme upgrade_mind := Induction for upgrade Sort Prop with upgrades_mind := Induction for upgrades Sort Prop.
Combined Scheme upgrade_both from upgrade_mind, upgrades_mind.

Lemma Forall2_split {A B} (R : A -> B -> Prop) xs ys l : Forall2 R (xs ++ ys) l ->
  exists u w, l = u ++ w /\ length u = length xs /\ Forall2 R xs u /\ Forall2 R ys w.
Proof.
  revert l; induction xs as [|x xs IH]; intros l H; cbn [app] in H; [exists [], l; repeat split; [constructor|exact H]|].
  inversion H as [|? y ? t H1 H2]; subst. destruct (IH t H2) as (u & w & -> & E & F1 & F2). exists (y :: u), w. repeat split; [cbn [length]; lia|constructor; assumption|exact F2].
Qed.

Section Upgrade.
  Variable c : cfg.
  Hypothesis Hw : wf_cfg c.
  Hypothesis Hh : 4096 <= heap_limit c.
  Definition bytes (v : sval) : list N := wbytes (ser v).
  Definition moved (d d' : dty) (f : sval -> sval) : Prop := wf_dty d = true -> wf_dty d' = true ->
    forall v, has_ty c d v = true -> has_ty c d' (f v) = true /\ bytes (f v) = bytes v.
  Definition all_ty (ds : list dty) (l : list sval) : Prop := Forall2 (fun d v => has_ty c d v = true) ds l.
  Inductive moved_all : list dty -> list dty -> list (sval -> sval) -> Prop :=
  | moved_nil : moved_all [] [] []
  | moved_cons d d' f ds ds' fs : moved d d' f -> moved_all ds ds' fs -> moved_all (d :: ds) (d' :: ds') (f :: fs).
  Lemma moved_each ds ds' fs : moved_all ds ds' fs -> forallb wf_dty ds = true -> forallb wf_dty ds' = true ->
    forall l, all_ty ds l -> all_ty ds' (each fs l) /\ map bytes (each fs l) = map bytes l.
  Proof.
    induction 1 as [|d d' f ds ds' fs H1 _ IH]; intros Hd Hd' l H; inversion H as [|? v ? t T1 T2]; subst; [split; [constructor|reflexivity]|].
    cbn [forallb] in Hd, Hd'. apply andb_prop in Hd as [Hd1 Hd2]. apply andb_prop in Hd' as [Hd3 Hd4].
    destruct (H1 Hd1 Hd3 v T1) as [T3 B1]. destruct (IH Hd2 Hd4 t T2) as [T4 B2]. cbn [each map]. split; [constructor; assumption|]. rewrite B1, B2. reflexivity.
  Qed.
  Lemma moved_pick (vs vs' : list (vkind * dty)) fs : moved_all (map snd vs) (map snd vs') fs -> forall i k d, pickN vs i = Some (k, d) ->
    exists k' d' f, pickN vs' i = Some (k', d') /\ pickN (combine (map fst vs') fs) i = Some (k', f) /\ moved d d' f.
  Proof.
    revert vs' fs; induction vs as [|[k0 d0] vs IH]; intros vs' fs H i k d E; [discriminate|].
    inversion H as [|? d' f ? ds' fs' Hm Hr Ex Ey Ez]; subst. destruct vs' as [|[k' d''] vs']; [discriminate|]. cbn [map snd] in *. injection Ey as -> ->.
    cbn [pickN combine fst] in *. destruct (i =? 0); [injection E as <- <-; eauto 10|]. exact (IH vs' fs' Hr _ k d E).
  Qed.

  Lemma good d v : wf_dty d = true -> has_ty c d v = true -> wresult (ser v) = WeOk.
  Proof. exact (typed_ok c Hw Hh d v). Qed.
  Lemma all_good ds l : forallb wf_dty ds = true -> all_ty ds l -> Forall (fun v => wresult (ser v) = WeOk) l.
  Proof.
    intros Hd H. induction H as [|d v ds l H1 _ IH]; [constructor|]. cbn [forallb] in Hd. apply andb_prop in Hd as [Hd1 Hd2].
    constructor; [eapply good; eassumption|auto].
  Qed.
  Lemma tuple_bytes ds l : forallb wf_dty ds = true -> all_ty ds l -> bytes (STuple l) = concat (map bytes l).
  Proof. intros Hd H. exact (proj2 (wconcat_ok ser l (all_good ds l Hd H))). Qed.
  Lemma tuple_ty ds v : has_ty c (DTuple ds) v = true -> exists l, v = STuple l /\ all_ty ds l.
  Proof. destruct v; try discriminate. cbn [has_ty]. intros H. apply forall2b_Forall2 in H. eauto. Qed.
  Lemma ty_tuple ds l : all_ty ds l -> has_ty c (DTuple ds) (STuple l) = true.
  Proof. intros H. cbn [has_ty]. apply forall2b_Forall2. exact H. Qed.
  Lemma struct_bytes l : bytes (SStruct l) = bytes (STuple (map snd l)).
  Proof. unfold bytes. cbn [ser]. rewrite map_map. reflexivity. Qed.
  Lemma struct_ty keys fs v : has_ty c (DStruct keys fs) v = true -> exists l, v = SStruct l /\ all_ty (map snd fs) (map snd l).
  Proof.
    destruct v; try discriminate. cbn [has_ty]. intros H. apply forall2b_Forall2 in H. eexists. split; [reflexivity|].
    induction H as [|nf kv fs l H _ IH]; cbn [map]; constructor; [apply andb_prop in H; tauto|exact IH].
  Qed.
  Lemma ty_struct keys fs l : all_ty (map snd fs) l -> has_ty c (DStruct keys fs) (SStruct (combine (map fst fs) l)) = true.
  Proof.
    intros H. cbn [has_ty]. apply forall2b_Forall2. revert l H; induction fs as [|[k d] fs IH]; intros l H; inversion H; subst; cbn [map combine fst]; constructor.
    - cbn [fst snd]. rewrite String.eqb_refl. assumption.
    - apply IH. assumption.
  Qed.
  Lemma combine_snd {A B} (k : list A) (l : list B) : length k = length l -> map snd (combine k l) = l.
  Proof. revert l; induction k as [|x k IH]; intros [|y l] H; try discriminate; [reflexivity|]. cbn [combine map snd]. f_equal. apply IH. injection H; auto. Qed.
  Lemma vec_ty d v : has_ty c (DVec d) v = true -> exists l, v = SSeq (Some (lenN l)) l /\ usize_ok c (lenN l) = true /\ Forall (fun v => has_ty c d v = true) l.
  Proof.
    destruct v as [ | | | | | | | | | | | | | | | | | | | | | | |[n|] l| | | | | | | | ]; try discriminate. cbn [has_ty]. intros H.
    apply andb_prop in H as [H H3]. apply andb_prop in H as [H1 H2]. apply N.eqb_eq in H1. subst n. exists l.
    split; [reflexivity|]. split; [exact H2|]. apply Forall_forall. apply forallb_forall. exact H3.
  Qed.
  Lemma ty_vec d l : usize_ok c (lenN l) = true -> Forall (fun v => has_ty c d v = true) l -> has_ty c (DVec d) (SSeq (Some (lenN l)) l) = true.
  Proof. intros H1 H2. cbn [has_ty]. rewrite N.eqb_refl, H1. apply forallb_forall. apply Forall_forall. exact H2. Qed.
  Lemma vec_bytes d l : wf_dty d = true -> Forall (fun v => has_ty c d v = true) l ->
    bytes (SSeq (Some (lenN l)) l) = enc_u64 (lenN l) ++ concat (map bytes l).
  Proof.
    intros Hd H. unfold bytes at 1. cbn [ser ser_len]. unfold ser_u64. rewrite wbytes_seq_wr. f_equal.
    apply (wconcat_ok ser l). eapply Forall_impl; [|exact H]. cbv beta. intros v Hv. eapply good; eassumption.
  Qed.
  Lemma map_ty d v : has_ty c (DMap d) v = true ->
    exists m, v = SMap (Some (lenN m)) (map (fun kv => (SStr (fst kv), snd kv)) m) /\ usize_ok c (lenN m) = true /\ sorted_keys m = true /\
      Forall (fun kv => str_ok c (fst kv) = true /\ has_ty c d (snd kv) = true) m.
  Proof.
    destruct v as [ | | | | | | | | | | | | | | | | | | | | | | | | | | |[n|] l| | | | ]; try discriminate. cbn [has_ty].
    destruct (strkeys l) as [m|] eqn:E; [|discriminate]. apply strkeys_spec in E. subst l. intros H.
    apply andb_prop in H as [H H4]. apply andb_prop in H as [H H3]. apply andb_prop in H as [H1 H2].
    apply N.eqb_eq in H1. rewrite lenN_map in H1. subst n. exists m. split; [reflexivity|]. split; [exact H2|]. split; [exact H3|].
    apply Forall_forall. intros kv Hkv. rewrite forallb_forall in H4. specialize (H4 kv Hkv). apply andb_prop in H4. exact H4.
  Qed.
  Lemma ty_map d m : usize_ok c (lenN m) = true -> sorted_keys m = true ->
    Forall (fun kv => str_ok c (fst kv) = true /\ has_ty c d (snd kv) = true) m ->
    has_ty c (DMap d) (SMap (Some (lenN m)) (map (fun kv => (SStr (fst kv), snd kv)) m)) = true.
  Proof.
    intros H1 H2 H3. cbn [has_ty]. rewrite strkeys_map, lenN_map, N.eqb_refl, H1, H2. cbn [andb]. apply forallb_forall. intros kv Hkv.
    rewrite Forall_forall in H3. destruct (H3 kv Hkv) as [E1 E2]. rewrite E1, E2. reflexivity.
  Qed.
  Lemma map_bytes d m : wf_dty d = true -> Forall (fun kv => str_ok c (fst kv) = true /\ has_ty c d (snd kv) = true) m ->
    bytes (SMap (Some (lenN m)) (map (fun kv => (SStr (fst kv), snd kv)) m)) =
    enc_u64 (lenN m) ++ concat (map (fun kv => bytes (SStr (fst kv)) ++ bytes (snd kv)) m).
  Proof.
    intros Hd H. unfold bytes at 1. cbn [ser ser_len]. unfold ser_u64. rewrite wbytes_seq_wr, map_map. f_equal. cbn [fst snd ser_key].
    destruct (wconcat_ok (fun kv => wseq (ser_str (fst kv)) (ser (snd kv))) m) as [_ Hb].
    { eapply Forall_impl; [|exact H]. cbv beta. intros kv [_ Hkv]. exact (good d (snd kv) Hd Hkv). }
    rewrite Hb. f_equal. apply map_ext. intros kv. unfold bytes. cbn [ser]. unfold ser_str, ser_u64. cbn [wseq wr wbytes]. rewrite app_nil_r, <- app_assoc. reflexivity.
  Qed.
  Lemma sorted_same {V W} (f : V -> W) (m : list (list N * V)) : sorted_keys (map (fun kv => (fst kv, f (snd kv))) m) = sorted_keys m.
  Proof.
    induction m as [|[k v] m IH]; [reflexivity|]. cbn [map fst snd sorted_keys]. destruct m as [|[k' v'] m]; [reflexivity|].
    cbn [map fst snd] in *. rewrite IH. reflexivity.
  Qed.
  Lemma enum_ty vs v : forallb (fun kd => payload_shape (fst kd) (snd kd) && wf_dty (snd kd)) vs = true -> has_ty c (DEnum vs) v = true ->
    exists i k d p, pickN vs i = Some (k, d) /\ content v = Some (i, p) /\ has_ty c d p = true /\ bytes v = enc_u32 i ++ bytes p.
  Proof.
    intros Hwf H. cbn [has_ty] in H. destruct v; try discriminate; cbv zeta in H; rewrite pickN_map in H;
      match type of H with context [pickN vs ?i] => destruct (pickN vs i) as [[k d]|] eqn:E; [|discriminate] end;
      cbn [option_map fst snd] in H; destruct k; try discriminate; eexists _, _, _, _; split; [exact E| |exact E| |exact E| |exact E|];
      (split; [reflexivity|]); (split; [exact H|]); unfold bytes; cbn [ser]; unfold ser_u32; rewrite ?wbytes_seq_wr; cbn [wr wbytes ser]; reflexivity.
  Qed.
  Lemma ty_enum vs i k d p : pickN vs i = Some (k, d) -> payload_shape k d = true -> wf_dty d = true -> has_ty c d p = true ->
    has_ty c (DEnum vs) (variant k i p) = true /\ bytes (variant k i p) = enc_u32 i ++ bytes p.
  Proof.
    intros E Hs Hd Hp. destruct k.
    - destruct d; try discriminate. destruct p; try discriminate. cbn [variant has_ty]. cbv zeta. rewrite pickN_map, E. cbn [option_map fst snd]. split; [exact Hp|].
      unfold bytes. cbn [ser wbytes]. unfold ser_u32. reflexivity.
    - assert (Ev : variant KNewtype i p = SNewtypeVariant i p) by (destruct p; reflexivity). rewrite Ev. cbn [has_ty]. cbv zeta. rewrite pickN_map, E.
      split; [exact Hp|]. unfold bytes. cbn [ser]. unfold ser_u32. rewrite wbytes_seq_wr. reflexivity.
    - destruct d; try discriminate. destruct p; try discriminate. cbn [variant has_ty]. cbv zeta. rewrite pickN_map, E. split; [exact Hp|].
      unfold bytes. cbn [ser]. unfold ser_u32. rewrite wbytes_seq_wr. reflexivity.
    - destruct d; try discriminate. destruct p; try discriminate. cbn [variant has_ty]. cbv zeta. rewrite pickN_map, E. split; [exact Hp|].
      unfold bytes. cbn [ser]. unfold ser_u32. rewrite wbytes_seq_wr. reflexivity.
  Qed.
  Lemma buf_vec_u8 bs : buf_ok c bs = true -> has_ty c (DVec DU8) (vec_u8 bs) = true.
  Proof.
    intros H. apply andb_prop in H as [H1 H2]. unfold vec_u8. rewrite <- (lenN_map SU8 bs) at 1. apply ty_vec; [rewrite lenN_map; exact H2|].
    apply Forall_map. apply bytes_okb_ok in H1. eapply Forall_impl; [|exact H1]. cbv beta. intros b Hb. cbn [has_ty]. apply N.ltb_lt. exact Hb.
  Qed.
  Lemma vec_u8_buf v : has_ty c (DVec DU8) v = true -> exists bs, v = vec_u8 bs /\ buf_ok c bs = true.
  Proof.
    intros H. apply vec_ty in H as (l & -> & H1 & H2).
    assert (E : exists bs, l = map SU8 bs /\ bytes_ok bs).
    { clear H1. induction H2 as [|v l Hv _ (bs & -> & IH)]; [exists []; split; [reflexivity|constructor]|].
      destruct v; try discriminate. cbn [has_ty] in Hv. apply N.ltb_lt in Hv. exists (n :: bs). split; [reflexivity|]. constructor; assumption. }
    destruct E as (bs & -> & Hb). exists bs. rewrite lenN_map in *. split; [reflexivity|]. unfold buf_ok. rewrite H1. apply bytes_okb_ok in Hb. rewrite Hb. reflexivity.
  Qed.

  Lemma upgrade_moved : (forall d d' f, upgrade d d' f -> moved d d' f) /\ (forall ds ds' fs, upgrades ds ds' fs -> moved_all ds ds' fs).
  Proof.
    apply upgrade_both; unfold moved.
    - (* same *) auto.
    - (* then *) intros d1 d2 d3 f g H2 _ IH1 _ IH2 W1 W3 v Hv. destruct (IH1 W1 H2 v Hv) as [T1 B1]. destruct (IH2 H2 W3 (f v) T1) as [T2 B2].
      split; [exact T2|congruence].
    - intros _ _ v Hv. destruct v; try discriminate. split; [destruct b; reflexivity|destruct b; reflexivity].
    - intros _ _ v Hv. destruct v; try discriminate. destruct b; split; reflexivity.
    - (* char *) intros _ _ v Hv. destruct v; try discriminate. cbn [has_ty] in Hv. cbn [char_to_string].
      assert (Hs : scalar c0) by (apply is_scalar_iff; exact Hv).
      assert (Hlt : c0 < 1114112) by (unfold scalar in Hs; lia).
      split; [|unfold bytes; cbn [ser]; rewrite char_utf8_spec by exact Hlt; reflexivity].
      cbn [has_ty]. unfold str_ok. rewrite utf8_valid_char by exact Hs. cbn [andb]. unfold usize_ok. apply N.ltb_lt.
      eapply N.le_lt_trans; [apply utf8_len|]. destruct (usize_bits_cases c Hw) as [->| ->]; reflexivity.
    - (* string *) intros _ _ v Hv. destruct v; try discriminate. cbn [has_ty] in *. cbn [string_to_bytes]. apply andb_prop in Hv as [H1 H2].
      split; [|reflexivity]. cbn [has_ty]. unfold buf_ok. rewrite H2, andb_true_r. apply bytes_okb_ok, utf8_valid_bytes, H1.
    - (* bytes -> vec *) intros _ _ v Hv. destruct v; try discriminate. cbn [has_ty] in *. cbn [bytes_to_vec]. fold (vec_u8 bs).
      split; [exact (buf_vec_u8 bs Hv)|]. apply (bytes_alike bs).
    - (* vec -> bytes *) intros _ _ v Hv. apply vec_u8_buf in Hv as (bs & -> & Hb). cbn [vec_to_bytes vec_u8]. rewrite map_map, map_id.
      split; [exact Hb|]. symmetry. apply (bytes_alike bs).
    - intros _ _ v Hv. destruct v; try discriminate. cbn [has_ty] in Hv. cbn [bytes_to_big]. fold (vec_u8 bs). fold (big_sval bs).
      split; [|apply (bytes_alike bs)]. cbn [has_ty big_sval]. unfold vec_u8_ok. rewrite vec_u8_of_vec_u8. exact Hv.
    - intros _ _ v Hv. destruct v; try discriminate. cbn [has_ty] in Hv. cbn [bytes_to_big]. fold (vec_u8 bs). fold (big_sval bs).
      split; [|apply (bytes_alike bs)]. cbn [has_ty big_sval]. unfold vec_u8_ok. rewrite vec_u8_of_vec_u8. exact Hv.
    - intros _ _ v Hv. destruct v as [ | | | | | | | | | | | | | | | | | | | | | | |[n|] l| | | | | | | | ]; try discriminate. destruct l as [|v [|]]; try discriminate.
      cbn [has_ty] in Hv. unfold vec_u8_ok in Hv. destruct (vec_u8_of v) as [bs|] eqn:E; [|discriminate]. apply vec_u8_of_spec in E. subst v.
      cbn [big_to_vec]. split; [exact (buf_vec_u8 bs Hv)|]. destruct (bytes_alike bs) as (_ & E1 & E2). unfold bytes. change (SSeq None [vec_u8 bs]) with (big_sval bs). congruence.
    - intros _ _ v Hv. destruct v as [ | | | | | | | | | | | | | | | | | | | | | | |[n|] l| | | | | | | | ]; try discriminate. destruct l as [|v [|]]; try discriminate.
      cbn [has_ty] in Hv. unfold vec_u8_ok in Hv. destruct (vec_u8_of v) as [bs|] eqn:E; [|discriminate]. apply vec_u8_of_spec in E. subst v.
      cbn [big_to_vec]. split; [exact (buf_vec_u8 bs Hv)|]. destruct (bytes_alike bs) as (_ & E1 & E2). unfold bytes. change (SSeq None [vec_u8 bs]) with (big_sval bs). congruence.
    - (* usize *) intros _ _ v Hv. destruct v; try discriminate. split; [|reflexivity]. cbn [has_ty] in *. unfold usize_ok in Hv. apply N.ltb_lt in Hv. apply N.ltb_lt.
      destruct (usize_bits_cases c Hw) as [E|E]; rewrite E in Hv; [|exact Hv]. eapply N.lt_trans; [exact Hv|reflexivity].
    - (* isize *) intros _ _ v Hv. destruct v; try discriminate. split; [|reflexivity]. cbn [has_ty] in *.
      destruct (usize_bits_cases c Hw) as [E|E]; rewrite E in Hv; [|exact Hv].
      unfold in_s in *. change (2 ^ (Z.of_N 32 - 1))%Z with 2147483648%Z in Hv. change (2 ^ (Z.of_N 64 - 1))%Z with 9223372036854775808%Z. lia.
    - (* date *) intros _ _ v Hv. cbn [has_ty] in Hv. destruct v; try discriminate. destruct l as [|[] [|[] []]]; try discriminate.
      cbn [to_tuple]. split; [|reflexivity]. apply andb_prop in Hv as [Hv _]. apply andb_prop in Hv as [H1 H2]. cbn [has_ty map forall2b]. rewrite H1, H2. reflexivity.
    - (* date time *) intros _ _ v Hv. cbn [has_ty] in Hv. destruct v; try discriminate. destruct l as [|[a []] [|[b []] []]]; try discriminate.
      cbn [to_tuple map snd]. split; [|reflexivity]. apply andb_prop in Hv as [Hv H2]. apply andb_prop in Hv as [_ H1]. cbn [has_ty map forall2b]. rewrite H1, H2. reflexivity.
    - intros _ _ v Hv. destruct v; try discriminate. split; reflexivity.
    - intros _ _ v Hv. destruct v; try discriminate. split; reflexivity.
    - intros _ _ v Hv. apply tuple_ty in Hv as (l & -> & H). inversion H; subst. split; reflexivity.
    - intros _ _ v Hv. destruct v; try discriminate. split; reflexivity.
    - (* unwrap *) intros d _ _ v Hv. destruct v; try discriminate. split; [exact Hv|reflexivity].
    - intros d _ _ v Hv. split; [exact Hv|reflexivity].
    - intros ds _ _ v Hv. destruct v; try discriminate. split; [exact Hv|reflexivity].
    - intros ds _ _ v Hv. destruct v; try discriminate. split; [exact Hv|reflexivity].
    - (* struct *) intros keys fs _ _ v Hv. apply struct_ty in Hv as (l & -> & H). cbn [to_tuple]. split; [exact (ty_tuple _ _ H)|symmetry; apply struct_bytes].
    - intros keys fs _ _ v Hv. apply tuple_ty in Hv as (l & -> & H). cbn [to_struct]. split; [exact (ty_struct keys fs l H)|].
      rewrite struct_bytes, combine_snd; [reflexivity|]. apply Forall2_length in H. rewrite map_length in *. exact H.
    - (* single *) intros d Hd _ v Hv. apply tuple_ty in Hv as (l & -> & H). inversion H as [|? x ? t H1 H2]; subst. inversion H2; subst. cbn [single]. split; [exact H1|].
      rewrite (tuple_bytes [d] [x] Hd H). cbn [map concat]. rewrite app_nil_r. reflexivity.
    - intros d _ Hd v Hv. assert (H : all_ty [d] [v]) by (repeat constructor; exact Hv). split; [exact (ty_tuple _ _ H)|].
      rewrite (tuple_bytes [d] [v] Hd H). cbn [map concat]. apply app_nil_r.
    - (* flatten *) intros ds1 ds2 ds3 Hd Hd' v Hv. apply tuple_ty in Hv as (l & -> & H). assert (Hb := tuple_bytes _ _ Hd H).
      apply Forall2_split in H as (u & w & -> & Hu & H1 & H2). inversion H2 as [|? x ? t Hx Ht]; subst. apply tuple_ty in Hx as Hx'. destruct Hx' as (m & -> & Hm).
      unfold flatten. rewrite skipn_app, skipn_all2, <- Hu, Nat.sub_diag by lia. cbn [app skipn]. rewrite firstn_app, firstn_all, Nat.sub_diag. cbn [firstn]. rewrite app_nil_r.
      assert (H' : all_ty (ds1 ++ ds2 ++ ds3) (u ++ m ++ t)) by (apply Forall2_app; [exact H1|apply Forall2_app; assumption]).
      split; [exact (ty_tuple _ _ H')|]. rewrite Hb, (tuple_bytes _ _ Hd' H'), !map_app, !concat_app. cbn [map concat].
      cbn [wf_dty] in Hd. rewrite forallb_app in Hd. cbn [forallb wf_dty] in Hd. apply andb_prop in Hd as [_ Hd]. apply andb_prop in Hd as [Hd _].
      rewrite (tuple_bytes _ _ Hd Hm). reflexivity.
    - (* group *) intros ds1 ds2 ds3 Hd Hd' v Hv. apply tuple_ty in Hv as (l & -> & H). assert (Hb := tuple_bytes _ _ Hd H).
      apply Forall2_split in H as (u & w & -> & Hu & H1 & H2). apply Forall2_split in H2 as (m & t & -> & Hm & H3 & H4).
      unfold group. rewrite skipn_app, skipn_all2, <- Hu, Nat.sub_diag by lia. cbn [app skipn]. rewrite firstn_app, firstn_all, Nat.sub_diag. cbn [firstn]. rewrite app_nil_r.
      rewrite skipn_app, firstn_app, <- Hm, firstn_all, skipn_all, Nat.sub_diag. cbn [firstn skipn app]. rewrite app_nil_r.
      assert (H' : all_ty (ds1 ++ DTuple ds2 :: ds3) (u ++ STuple m :: t)) by (apply Forall2_app; [exact H1|constructor; [exact (ty_tuple _ _ H3)|exact H4]]).
      split; [exact (ty_tuple _ _ H')|]. rewrite Hb, (tuple_bytes _ _ Hd' H'), !map_app, !concat_app. cbn [map concat].
      cbn [wf_dty] in Hd'. rewrite forallb_app in Hd'. cbn [forallb wf_dty] in Hd'. apply andb_prop in Hd' as [_ Hd']. apply andb_prop in Hd' as [Hd' _].
      rewrite (tuple_bytes _ _ Hd' H3). reflexivity.
    - (* option -> enum *) intros d _ _ v Hv. destruct v; try discriminate; split; [reflexivity|reflexivity|exact Hv|reflexivity].
    - (* map -> vec *) intros d Hd _ v Hv. cbn [wf_dty] in Hd. apply map_ty in Hv as (m & -> & H1 & H2 & H3). cbn [map_to_vec]. rewrite map_map. cbn [fst snd].
      assert (HT : Forall (fun v => has_ty c (DTuple [DString; d]) v = true) (map (fun kv : list N * sval => STuple [SStr (fst kv); snd kv]) m)).
      { apply Forall_map. eapply Forall_impl; [|exact H3]. cbv beta. intros kv [E1 E2]. apply ty_tuple. repeat constructor; assumption. }
      split.
      + rewrite <- (lenN_map (fun kv : list N * sval => STuple [SStr (fst kv); snd kv]) m) at 1. apply ty_vec; [rewrite lenN_map; exact H1|exact HT].
      + rewrite (map_bytes d m Hd H3). rewrite <- (lenN_map (fun kv : list N * sval => STuple [SStr (fst kv); snd kv]) m) at 1.
        rewrite (vec_bytes (DTuple [DString; d])); [|cbn [wf_dty forallb]; rewrite Hd; reflexivity|exact HT]. rewrite lenN_map. f_equal. rewrite map_map. f_equal.
        apply map_ext_in. intros kv Hkv. rewrite Forall_forall in H3. destruct (H3 kv Hkv) as [E1 E2].
        rewrite (tuple_bytes [DString; d]); [cbn [map concat]; rewrite app_nil_r; reflexivity|cbn [wf_dty forallb]; rewrite Hd; reflexivity|repeat constructor; assumption].
    - (* option *) intros d d' f _ IH Hd Hd' v Hv. cbn [wf_dty] in Hd, Hd'. destruct v; try discriminate; [split; reflexivity|]. cbn [in_option has_ty] in *. destruct (IH Hd Hd' _ Hv) as [T B].
      split; [exact T|]. unfold bytes in *. cbn [ser]. rewrite !wbytes_seq_wr. f_equal. exact B.
    - (* vec *) intros d d' f _ IH Hd Hd' v Hv. cbn [wf_dty] in Hd, Hd'. apply vec_ty in Hv as (l & -> & H1 & H2). cbn [in_vec].
      assert (HT : Forall (fun v => has_ty c d' v = true) (map f l)).
      { apply Forall_map. eapply Forall_impl; [|exact H2]. cbv beta. intros v Hv. apply (IH Hd Hd' v Hv). }
      rewrite <- (lenN_map f l) at 1 2. split; [apply ty_vec; [rewrite lenN_map; exact H1|exact HT]|].
      rewrite (vec_bytes d' _ Hd' HT), (vec_bytes d _ Hd H2), lenN_map, map_map. f_equal. f_equal. apply map_ext_in. intros v Hv. rewrite Forall_forall in H2. apply (IH Hd Hd' v (H2 v Hv)).
    - (* map *) intros d d' f _ IH Hd Hd' v Hv. cbn [wf_dty] in Hd, Hd'. apply map_ty in Hv as (m & -> & H1 & H2 & H3). cbn [in_map]. rewrite map_map. cbn [fst snd].
      set (m' := map (fun kv : list N * sval => (fst kv, f (snd kv))) m).
      assert (El : lenN m = lenN m') by (unfold m'; rewrite lenN_map; reflexivity).
      assert (Em : map (fun kv : list N * sval => (SStr (fst kv), f (snd kv))) m = map (fun kv => (SStr (fst kv), snd kv)) m') by (unfold m'; rewrite map_map; reflexivity).
      assert (HT : Forall (fun kv => str_ok c (fst kv) = true /\ has_ty c d' (snd kv) = true) m').
      { apply Forall_map. eapply Forall_impl; [|exact H3]. cbv beta. intros kv [E1 E2]. cbn [fst snd]. split; [exact E1|apply (IH Hd Hd' _ E2)]. }
      rewrite Em. split.
      + rewrite El. apply ty_map; [rewrite <- El; exact H1|unfold m'; rewrite sorted_same; exact H2|exact HT].
      + rewrite (map_bytes d m Hd H3), El, (map_bytes d' m' Hd' HT). f_equal. f_equal. unfold m'. rewrite map_map. apply map_ext_in. intros kv Hkv. cbn [fst snd].
        rewrite Forall_forall in H3. rewrite (proj2 (IH Hd Hd' _ (proj2 (H3 kv Hkv)))). reflexivity.
    - (* tuple *) intros ds ds' fs _ IH Hd Hd' v Hv. apply tuple_ty in Hv as (l & -> & H). destruct (moved_each _ _ _ IH Hd Hd' l H) as [T B]. cbn [in_tuple].
      split; [exact (ty_tuple _ _ T)|]. rewrite (tuple_bytes _ _ Hd H), (tuple_bytes _ _ Hd' T), B. reflexivity.
    - (* enum *) intros vs vs' ws fs Hup IH Hd Hd' v Hv. cbn [wf_dty] in Hd, Hd'. apply andb_prop in Hd as [_ Hd]. apply andb_prop in Hd' as [_ Hd'].
      apply enum_ty in Hv as (i & k & d & p & E & Ec & Hp & Hb); [|exact Hd]. unfold in_enum. rewrite Ec.
      destruct (moved_pick vs vs' fs IH i k d E) as (k' & d' & f & E1 & E2 & Hf). rewrite E2.
      assert (E3 : pickN (vs' ++ ws) i = Some (k', d')) by (apply pickN_app, E1).
      rewrite forallb_forall in Hd, Hd'. apply pickN_some in E as [Hin _]. apply pickN_some in E3 as Hin'. destruct Hin' as [Hin' _].
      specialize (Hd _ Hin). specialize (Hd' _ Hin'). cbn [fst snd] in Hd, Hd'. apply andb_prop in Hd as [_ Hd]. apply andb_prop in Hd' as [Hs Hd'].
      destruct (Hf Hd Hd' p Hp) as [T B]. destruct (ty_enum _ _ _ _ _ E3 Hs Hd' T) as [T' B']. split; [exact T'|]. rewrite B', Hb, B. reflexivity.
    - constructor.
    - intros. constructor; assumption.
  Qed.
End Upgrade.

Lemma upgraded_typed c d d' f v rest : wf_cfg c -> 4096 <= heap_limit c -> wf_dty d = true -> wf_dty d' = true ->
  upgrade d d' f -> has_ty c d v = true ->
  has_ty c d' (f v) = true /\ wbytes (ser (f v)) = wbytes (ser v) /\
  run c (de c d') (wbytes (ser v) ++ rest) = OOk (f v) rest.
Proof.
  intros Hw Hh Hd Hd' Hu Hv. destruct (proj1 (upgrade_moved c Hw Hh) d d' f Hu Hd Hd' v Hv) as [T B].
  split; [exact T|]. split; [exact B|]. unfold bytes in B. rewrite <- B. apply (rt_run c d' (f v) rest); assumption.
Qed.
