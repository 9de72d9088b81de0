(** * Proofs: what derived types read. *)
From Coq Require Import String Sorted.
From Verif Require Import Base BaseFacts SpecVarint Varint SpecUtf8 Utf8 Serde SerdeFacts SerdeMore SpecMap MapFacts Header Body BodyFacts Big Time
  Derive SpecDerive DeriveFacts DeriveDe SpecDeriveDe DeriveDeFacts SpecAccept AcceptFacts SpecReject RejectFacts SpecReads ReadsFacts SpecFormat FormatFacts SpecDerived.
Local Open Scope list_scope.
Local Open Scope N_scope.

Lemma does_becomes {A B} c (f : A -> B) (p : prog A) R : does c p R -> does c (pmap f p) (becomes f R).
Proof. apply does_omap. Qed.
Lemma does_same {A} c (p q : prog A) R : (forall s, bytes_ok s -> run c p s = run c q s) -> does c q R -> does c p R.
Proof. intros E H s Hs. rewrite (E s Hs). apply H, Hs. Qed.
Lemma does_in_turn {A} c (ps : list (prog A)) Rs : Forall2 (does c) ps Rs -> does c (sequence ps) (in_turn Rs).
Proof.
  induction 1 as [|p R ps Rs Hp _ IH]; intros s Hs; cbn [sequence].
  - split; [constructor|]. intros o H; inversion H; reflexivity.
  - rewrite run_bind. destruct (Hp s Hs) as [HT HS]. split.
    + destruct (outcome_cases (run c p s)) as [(v & r & E)|(x & E)]; rewrite E in *.
      * cbn [obind]. rewrite run_bind. cbn [run]. rewrite obind_omap. eapply it_cons; [exact HT|]. apply IH. eapply run_rest; eassumption.
      * rewrite obind_stop. apply it_stop, HT.
    + intros o H; inversion H as [|? ? ? x Hx|? ? ? v r o' Hv Ho]; subst.
      * rewrite (HS _ Hx), obind_stop. reflexivity.
      * pose proof (HS _ Hv) as E. rewrite E. cbn [obind]. rewrite run_bind. cbn [run]. rewrite obind_omap. f_equal. apply IH; [eapply run_rest; eassumption|exact Ho].
Qed.
Lemma Forall2_repeat {A B} (R : A -> B -> Prop) a b n : R a b -> Forall2 R (repeat a n) (repeat b n).
Proof. intros H. induction n; constructor; assumption. Qed.
Lemma Forall2_maps {A B C} (R : B -> C -> Prop) (f : A -> B) (g : A -> C) l : Forall (fun a => R (f a) (g a)) l -> Forall2 R (map f l) (map g l).
Proof. induction 1; constructor; assumption. Qed.
Lemma does_rep {A} c (p : prog A) R n : does c p R -> does c (rep n p) (in_turn (repeat R n)).
Proof. intros H. rewrite rep_sequence. apply does_in_turn, Forall2_repeat, H. Qed.
Lemma does_counted {A} c (p : prog A) R : does c p R ->
  does c (bind (dec_u64 ERead) (fun n => rep (N.to_nat (as_usize c n)) p)) (counted c R).
Proof.
  intros H. eapply does_length with (Q := fun n => in_turn (repeat R (N.to_nat (kept c n)))); [intros n _; apply does_rep, H|].
  intros s o. split.
  - intros X. destruct X as [s X|l n s o Hl X]; [auto|]. right. exists l, n, s. auto.
  - intros [[X ->]|(l & n & r & -> & Hl & X)]; [constructor; exact X|econstructor; eassumption].
Qed.
Lemma does_entry c p R : wf_cfg c -> does c p R -> does c (k <- de_string c ;; v <- p ;; Ret (k, v)) (entry c R).
Proof.
  intros Hw Hp s Hs. rewrite run_bind. destruct (does_string c Hw s Hs) as [HT HS]. split.
  - destruct (outcome_cases (run c (de_string c) s)) as [(k & t & E)|(x & E)]; rewrite E in *.
    + cbn [obind]. rewrite run_bind. cbn [run]. rewrite (obind_omap (pair k)). eapply en_value; [exact HT|]. apply Hp. eapply run_rest; eassumption.
    + rewrite obind_stop. apply en_key, HT.
  - intros o H. destruct H as [s x Hx|s k t o Hk Ho].
    + rewrite (HS _ Hx), obind_stop. reflexivity.
    + pose proof (HS _ Hk) as E. rewrite E. cbn [obind]. rewrite run_bind. cbn [run]. rewrite (obind_omap (pair k)). f_equal. apply Hp; [eapply run_rest; eassumption|exact Ho].
Qed.
Lemma does_collected c p R : wf_cfg c -> does c p R -> does c (pmap VMap (de_map c p)) (collected (counted c (entry c R))).
Proof.
  intros Hw Hp. pose proof (does_counted c _ _ (does_entry c p R Hw Hp)) as HC.
  assert (E : forall s, run c (de_map c p) s =
    omap (fun es => insert_all es []) (run c (bind (dec_u64 ERead) (fun n => rep (N.to_nat (as_usize c n)) (k <- de_string c ;; v <- p ;; Ret (k, v)))) s)).
  { intros s. unfold de_map. rewrite !run_bind. destruct (run c (dec_u64 ERead) s) as [n r|e|q]; cbn [obind omap]; [apply run_map_n|reflexivity..]. }
  intros s Hs. destruct (HC s Hs) as [HT HS]. rewrite run_pmap, obind_omap, E. split.
  - destruct (outcome_cases (run c (bind (dec_u64 ERead) (fun n => rep (N.to_nat (as_usize c n)) (k <- de_string c ;; v <- p ;; Ret (k, v)))) s)) as [(es & r & E')|(x & E')]; rewrite E' in *.
    + cbn [omap]. destruct (proj1 (insert_all_iff es (insert_all es [])) eq_refl) as [H1 H2]. eapply cl_map; eassumption.
    + rewrite !omap_stop. apply cl_stop, HT.
  - intros o H. destruct H as [s x Hx|s es m r Hr H1 H2].
    + rewrite (HS _ Hx), !omap_stop. reflexivity.
    + rewrite (HS _ Hr). cbn [omap]. rewrite (proj2 (insert_all_iff es m) (conj H1 H2)). reflexivity.
Qed.
Lemma does_option c p R : does c p R ->
  does c (pmap (fun o => match o with Some v => VSome v | None => VNone end) (de_option p)) (option_read R).
Proof.
  intros Hp s Hs. unfold de_option. rewrite run_pmap, run_bind. split.
  - destruct (bool_cases c s Hs) as [[H ->]|(b & r & -> & ->)]; cbn [obind]; [apply or_stop, H|]. inversion Hs as [|? ? _ Hr]; subst.
    destruct b; [|apply or_none]. rewrite run_pmap, obind_omap. match goal with |- option_read _ _ ?g => replace g with (omap VSome (run c p r)) by (destruct (run c p r); reflexivity) end.
    apply or_some, Hp, Hr.
  - intros o H; inversion H; subst.
    + rewrite no_bool_run by assumption. reflexivity.
    + rewrite (bool_run c false) by exact Hs. reflexivity.
    + rewrite (bool_run c true) by exact Hs. cbn [obind]. inversion Hs as [|? ? _ Hr]; subst. rewrite run_pmap.
      match goal with Ho : R ?t ?o' |- _ => rewrite (proj2 (Hp t Hr) _ Ho); destruct o'; reflexivity end.
Qed.

(** ** Fields *)
Definition field_de (f : dfield) : prog rval := if serde_skips_de (df_attrs f) then Ret (df_dflt f) else df_read f.
Lemma run_seq_fields c fs : forall s, run c (seq_fields fs) s = run c (sequence (map field_de fs)) s.
Proof.
  induction fs as [|f fs IH]; intros s; [reflexivity|]. cbn [seq_fields map sequence]. unfold field_de at 1. destruct (serde_skips_de (df_attrs f)); rewrite !run_bind.
  - cbn [run obind]. rewrite run_bind, IH. reflexivity.
  - apply obind_ext; intros v r. rewrite !run_bind, IH. reflexivity.
Qed.
Lemma run_struct_loop {A} c (fs : list (string * prog A)) : NoDup (map fst fs) -> forall s,
  run c (struct_loop (map fst fs) fs (map (fun _ => None) fs)) s = omap (map Some) (run c (sequence (map snd fs)) s).
Proof.
  intros Hnd.
  assert (G : forall fs2 fs1 (l1 : list A) s, fs = fs1 ++ fs2 -> length fs1 = length l1 ->
     run c (struct_loop (map fst fs2) fs (map Some l1 ++ map (fun _ => None) fs2)) s = omap (fun l => map Some (l1 ++ l)) (run c (sequence (map snd fs2)) s)).
  { induction fs2 as [|[k p] fs2 IH]; intros fs1 l1 s E El; cbn [map struct_loop fst snd sequence run omap]; [rewrite !app_nil_r; reflexivity|].
    assert (Hk : ~ In k (map fst fs1)).
    { rewrite E, map_app in Hnd. cbn [map fst] in Hnd. apply NoDup_remove_2 in Hnd. intros Hin; apply Hnd, in_or_app; left; exact Hin. }
    rewrite (eq_trans (f_equal (find_field k) E) (find_field_app k fs1 fs2 p Hk)).
    assert (El1 : length (map (@Some A) l1) = length fs1) by (rewrite map_length; congruence).
    rewrite <- El1, nth_error_mid, !run_bind. destruct (run c p s) as [a r|e|q]; cbn [obind omap]; [|reflexivity..].
    rewrite set_slot_app, run_bind. cbn [run]. rewrite (obind_omap (cons a)).
    specialize (IH (fs1 ++ [(k, p)]) (l1 ++ [a]) r). rewrite map_app in IH. cbn [map] in IH. rewrite <- !app_assoc in IH. cbn [app] in IH.
    rewrite IH; [|exact E|rewrite !app_length; cbn [length]; lia]. destruct (run c (sequence (map snd fs2)) r); cbn [omap]; [rewrite <- app_assoc|..]; reflexivity. }
  intros s. rewrite (G fs [] [] s eq_refl eq_refl : run c (struct_loop (map fst fs) fs (map (fun _ => None) fs)) s = _). reflexivity.
Qed.
Lemma run_map_fields c fs : NoDup (map df_name (DeriveDe.kept fs)) -> forall s, run c (map_fields fs) s = run c (seq_fields fs) s.
Proof.
  intros Hnd s. unfold map_fields. rewrite run_bind.
  replace (map df_name (DeriveDe.kept fs)) with (map fst (map (fun f => (df_name f, df_read f)) (DeriveDe.kept fs))) by (rewrite map_map; reflexivity).
  replace (map (fun _ => None) (DeriveDe.kept fs)) with (map (fun _ => @None rval) (map (fun f => (df_name f, df_read f)) (DeriveDe.kept fs))) by (rewrite map_map; reflexivity).
  rewrite run_struct_loop by (rewrite map_map; exact Hnd). rewrite map_map. cbn [snd]. clear Hnd. revert s.
  induction fs as [|f fs IH]; intros s; cbn [DeriveDe.kept filter map sequence run omap obind fill_fields seq_fields]; [reflexivity|].
  unfold DeriveDe.kept in *. destruct (serde_skips_de (df_attrs f)) eqn:E; cbn [negb map sequence fill_fields].
  - rewrite run_bind, <- IH. destruct (run c _ s) as [l r|e|q]; cbn [omap obind]; [|reflexivity..]. rewrite run_bind. reflexivity.
  - rewrite !run_bind. destruct (run c (df_read f) s) as [v r|e|q]; cbn [omap obind]; [|reflexivity..]. rewrite !run_bind, <- IH. cbn [run].
    destruct (run c _ r) as [l r'|e|q]; cbn [omap obind map]; [|reflexivity..]. rewrite run_bind. reflexivity.
Qed.
Lemma does_fields c dflt k fs : declared_fields k fs ->
  Forall (fun f => declared (snd (snd f)) -> does c (rde c dflt (snd (snd f))) (derived_reads c dflt (snd (snd f)))) fs ->
  does c (members_de k (map (dfl c dflt) fs))
    (in_turn (map (fun f => field_read (skipped_de (fst f)) (dflt (snd (snd f))) (derived_reads c dflt (snd (snd f)))) fs)).
Proof.
  intros [k0 fs0 Hu Hn Hd] HF.
  assert (HS : does c (seq_fields (map (dfl c dflt) fs0))
    (in_turn (map (fun f => field_read (skipped_de (fst f)) (dflt (snd (snd f))) (derived_reads c dflt (snd (snd f)))) fs0))).
  { eapply does_run; [apply run_seq_fields|]. rewrite map_map. apply does_in_turn, Forall2_maps, Forall_forall. intros f Hf. rewrite Forall_forall in HF, Hd.
    specialize (HF f Hf). specialize (Hd f Hf). unfold field_de, dfl. cbn [df_attrs df_dflt df_read]. destruct (serde_skips_de (fst f)) eqn:E.
    - apply skip_de_iff in E. intros s Hs. cbn [run]. split; [left; auto|]. intros o [[_ ->]|[X _]]; [reflexivity|contradiction].
    - apply skip_de_false in E. destruct Hd as [Hd|Hd]; [contradiction|]. intros s Hs. destruct (HF Hd s Hs) as [H1 H2]. split; [right; auto|].
      intros o [[X _]|[_ X]]; [contradiction|apply H2, X]. }
  destruct k0; cbn [members_de].
  - destruct Hn as [Hn|Hn]; [|discriminate]. eapply does_run; [|exact HS]. apply run_map_fields.
    clear -Hn. induction fs0 as [|f fs IH]; cbn [map DeriveDe.kept filter]; [constructor|]. cbn [map] in Hn. apply NoDup_cons_iff in Hn as [H1 H2]. unfold DeriveDe.kept in *. cbn [filter].
    destruct (negb (serde_skips_de (df_attrs (dfl c dflt f)))); cbn [map]; [|apply IH, H2]. constructor; [|apply IH, H2]. intros X. apply H1. cbn [dfl df_name] in X.
    apply in_map_iff in X as (g & E & Hg). apply filter_In in Hg as [Hg _]. apply in_map_iff in Hg as (h & <- & Hh). cbn [dfl df_name] in E. apply in_map_iff. exists h. auto.
  - exact HS.
  - rewrite (Hu eq_refl) in *. exact HS.
Qed.
Lemma alts_pick_read {A} (f : attrs * A -> prog (list rval)) vs : forall j i,
  (exists vs1 v vs2, vs = vs1 ++ v :: vs2 /\ read_variants vs1 i /\ ~ skipped_de (fst v) /\
     pickN (enum_alts j (map (fun v => (fst v, f v)) vs)) i = Some (pmap (VVariant (j + lenN vs1)) (f v))) \/
  (exists n, read_variants vs n /\ n <= i /\ pickN (enum_alts j (map (fun v => (fst v, f v)) vs)) i = None).
Proof.
  induction vs as [|v vs IH]; intros j i; cbn [map enum_alts]; [right; exists 0; split; [constructor|]; split; [lia|reflexivity]|].
  destruct (serde_skips_de (fst v)) eqn:E.
  - apply skip_de_iff in E. destruct (IH (j + 1) i) as [(vs1 & w & vs2 & -> & H1 & H2 & H3)|(n & H1 & H2 & H3)].
    + left. exists (v :: vs1), w, vs2. split; [reflexivity|]. split; [apply rv_skip; assumption|]. split; [exact H2|]. rewrite H3, lenN_cons. do 2 f_equal. f_equal. lia.
    + right. exists n. split; [apply rv_skip; assumption|]. auto.
  - apply skip_de_false in E. cbn [pickN]. destruct (N.eqb_spec i 0) as [->|Hi].
    + left. exists [], v, vs. split; [reflexivity|]. split; [constructor|]. split; [exact E|]. rewrite lenN_nil, N.add_0_r. reflexivity.
    + destruct (IH (j + 1) (i - 1)) as [(vs1 & w & vs2 & -> & H1 & H2 & H3)|(n & H1 & H2 & H3)].
      * left. exists (v :: vs1), w, vs2. split; [reflexivity|]. split; [replace i with (i - 1 + 1) by lia; apply rv_keep; assumption|]. split; [exact H2|].
        rewrite H3, lenN_cons. do 2 f_equal. f_equal. lia.
      * right. exists (n + 1). split; [apply rv_keep; assumption|]. split; [lia|exact H3].
Qed.
Lemma read_variants_fun {A} (vs : list (attrs * A)) n : read_variants vs n -> forall m, read_variants vs m -> n = m.
Proof. induction 1 as [|v vs n H1 _ IH|v vs n H1 _ IH]; intros m X; inversion X; subst; try contradiction; [reflexivity|auto|f_equal; auto]. Qed.
Lemma read_variants_app {A} (vs1 : list (attrs * A)) v vs2 i n : read_variants vs1 i -> ~ skipped_de (fst v) -> read_variants (vs1 ++ v :: vs2) n -> i < n.
Proof.
  intros H Hv. revert n. induction H as [|w vs1 m H1 _ IH|w vs1 m H1 _ IH]; intros n X; cbn [app] in X; inversion X as [|? ? ? Y1 Y2|? ? k Y1 Y2]; subst; try contradiction; [lia|auto|].
  specialize (IH _ Y2). lia.
Qed.
Lemma read_variants_unique {A} (vs1 : list (attrs * A)) v vs2 i : read_variants vs1 i -> ~ skipped_de (fst v) -> forall ws1 w ws2, vs1 ++ v :: vs2 = ws1 ++ w :: ws2 ->
  read_variants ws1 i -> ~ skipped_de (fst w) -> vs1 = ws1 /\ v = w.
Proof.
  intros H Hv. induction H as [|x vs1 m H1 H2 IH|x vs1 m H1 H2 IH]; intros ws1 w ws2 E Hw Hs.
  - destruct ws1 as [|y ws1]; cbn [app] in E; [injection E as <- _; auto|]. injection E as <- _. inversion Hw; subst; [contradiction|lia].
  - destruct ws1 as [|y ws1]; cbn [app] in E; [injection E as <- _; contradiction|]. injection E as <- E. inversion Hw; subst; [|contradiction].
    destruct (IH _ _ _ E ltac:(assumption) Hs) as [-> ->]. auto.
  - destruct ws1 as [|y ws1]; cbn [app] in E; [inversion Hw; lia|]. injection E as <- E. inversion Hw as [| |? ? k Y1 Y2 Y3]; subst; [contradiction|].
    assert (k = m) by lia. subst k. destruct (IH _ _ _ E Y2 Hs) as [-> ->]. auto.
Qed.
Lemma read_variants_map {A B} (f : A -> B) (vs : list (attrs * A)) n : read_variants (map (fun v => (fst v, f (snd v))) vs) n <-> read_variants vs n.
Proof.
  split.
  - revert n; induction vs as [|v vs IH]; intros n H; inversion H; subst; cbn [fst] in *; [constructor|apply rv_skip; auto|apply rv_keep; auto].
  - induction 1; cbn [map]; [constructor|apply rv_skip; auto|apply rv_keep; auto].
Qed.
Lemma does_variants {A} c (p : A -> prog (list rval)) (R : A -> reading (list rval)) (vs : list (attrs * A)) :
  Forall (fun v => skipped_de (fst v) \/ does c (p (snd v)) (R (snd v))) vs ->
  does c (i <- de_u16 ;; match pickN (enum_alts 0 (map (fun v => (fst v, p (snd v))) vs)) i with Some p => p | None => Fail EMsg end)
    (variant_read (map (fun v => (fst v, R (snd v))) vs)).
Proof.
  intros HF s Hs. unfold de_u16. rewrite run_bind. split.
  - destruct (u16_cases c s Hs) as [[H ->]|(l & i & r & -> & Hl & -> & Hr)]; cbn [obind]; [apply vr_index, H|].
    destruct (alts_pick_read (fun v => p (snd v)) vs 0 i) as [(vs1 & v & vs2 & -> & H1 & H2 & ->)|(n & H1 & H2 & ->)].
    + rewrite run_pmap, obind_omap, N.add_0_l.
      replace (lenN vs1) with (lenN (map (fun v => (fst v, R (snd v))) vs1)) by apply lenN_map.
      eapply vr_variant; [exact Hl|rewrite map_app; reflexivity|apply read_variants_map, H1|exact H2|].
      rewrite Forall_forall in HF. destruct (HF v (in_elt _ _ _)) as [X|X]; [contradiction|]. apply X, Hr.
    + cbn [run]. eapply vr_unknown; [exact Hl|apply read_variants_map, H1|exact H2].
  - intros o H. destruct H as [s H|l i n s Hl H1 H2|l i s o vs1 a R' vs2 Hl E H1 H2 Ho].
    + rewrite short_run16 by assumption. reflexivity.
    + rewrite (code_run16 c l i s Hs Hl). cbn [obind]. apply read_variants_map in H1.
      destruct (alts_pick_read (fun v => p (snd v)) vs 0 i) as [(vs1 & v & vs2 & -> & H3 & H4 & _)|(m & _ & _ & ->)]; [|reflexivity].
      pose proof (read_variants_app _ _ _ _ _ H3 H4 H1). lia.
    + rewrite (code_run16 c l i s Hs Hl). cbn [obind]. apply map_eq_app in E as (w1 & w2 & -> & <- & E). destruct w2 as [|w w2]; [discriminate|]. cbn [map] in E. injection E as <- <- <-.
      apply read_variants_map in H1. rewrite lenN_map.
      destruct (alts_pick_read (fun v => p (snd v)) (w1 ++ w :: w2) 0 i) as [(vs1 & v & vs2 & E & H3 & H4 & ->)|(m & H3 & H4 & _)].
      * destruct (read_variants_unique w1 w w2 i H1 H2 vs1 v vs2 E H3 H4) as [<- <-]. rewrite run_pmap, obind_omap, N.add_0_l. f_equal.
        rewrite Forall_forall in HF. destruct (HF w (in_elt _ _ _)) as [X|X]; [contradiction|]. apply X; [eapply app_ok_r, Hs|exact Ho].
      * pose proof (read_variants_app _ _ _ _ _ H1 H2 H3). lia.
Qed.

(** ** Leaves *)
Lemma does_leaf c l : wf_cfg c -> 4096 <= heap_limit c -> does c (leaf_de c l) (leaf_reads c l).
Proof.
  intros Hw Hh.
  assert (P : forall d p, (forall s, run c p s = run c (pmap plain_value (de c d)) s) -> shaped d = true -> does c p (becomes plain_value (reads c d))).
  { intros d p E Hd. eapply does_run; [exact E|]. apply does_becomes, does_de; assumption. }
  assert (B : forall h p, (forall s, run c p s = run c (pmap body_value (bde c h)) s) -> body_plain h = true -> does c p (becomes body_value (body_reads c h))).
  { intros h p E Hd. eapply does_run; [exact E|]. apply does_becomes, does_body_plain; assumption. }
  assert (M : forall {X Y Z} (f : Y -> Z) (g : X -> Y) (p : prog X) s, run c (pmap f (pmap g p)) s = run c (pmap (fun x => f (g x)) p) s).
  { intros X Y Z f g p s. rewrite !run_pmap. destruct (run c p s); reflexivity. }
  destruct l; cbn [leaf_de leaf_reads];
    try (apply P; [intros s; cbn [de]; try (rewrite M); reflexivity|reflexivity]);
    try (apply does_becomes; first [apply does_big|apply does_decimal|apply does_fmt_decimal|apply does_fmt_date, Hw|apply does_fmt_time, Hw]).
  - intros s Hs. destruct (does_becomes c VU _ _ (does_fmt_uint c) s Hs) as [(o & (o' & H & ->) & E) H2]. split; [exists o'; split; [exact H|]; rewrite E; destruct o'; reflexivity|].
    intros o (o1 & X & ->). apply H2. exists (omap le_value o1). split; [exists o1; auto|destruct o1; reflexivity].
  - intros s Hs. destruct (does_becomes c VI _ _ (does_fmt_int c) s Hs) as [(o & (o' & H & ->) & E) H2]. split; [exists o'; split; [exact H|]; rewrite E; destruct o'; reflexivity|].
    intros o (o1 & X & ->). apply H2. exists (omap SpecBig.signed_value o1). split; [exists o1; auto|destruct o1; reflexivity].
  - apply B; [|reflexivity]. intros s. cbn [bde]. rewrite M. reflexivity.
  - apply B; [|reflexivity]. intros s. cbn [bde]. rewrite M. reflexivity.
Qed.

Theorem does_derived c dflt t : wf_cfg c -> 4096 <= heap_limit c -> declared t -> does c (rde c dflt t) (derived_reads c dflt t).
Proof.
  intros Hw Hh. apply (rty_ind2 (fun t => declared t -> does c (rde c dflt t) (derived_reads c dflt t))); clear t; cbn [rde derived_reads].
  - intros l _. apply does_leaf; assumption.
  - intros t IH H; inversion H; subst. apply does_option; auto.
  - intros t IH H; inversion H; subst. apply does_becomes. eapply does_run; [|apply does_counted, IH; assumption].
    intros s. unfold de_vec. rewrite !run_bind. apply obind_ext; intros n r. apply run_repeatN.
  - intros t IH H; inversion H; subst. apply does_collected; auto.
  - intros t IH H; inversion H; subst. apply does_collected; auto.
  - intros ts IH H; inversion H as [| | | | |? Ht| |]; subst. apply does_becomes, does_in_turn, Forall2_maps. rewrite Forall_forall in *. intros t Hin. apply IH; auto.
  - intros k fs IH H; inversion H; subst. apply does_becomes. apply does_fields; assumption.
  - intros vs IH H; inversion H as [| | | | | | |? Hv]; subst.
    apply (does_variants c (fun m => members_de (fst m) (map (dfl c dflt) (snd m)))
      (fun m => in_turn (map (fun f => field_read (skipped_de (fst f)) (dflt (snd (snd f))) (derived_reads c dflt (snd (snd f)))) (snd m))) vs).
    rewrite Forall_forall in *. intros v Hin. destruct (Hv v Hin) as [X|X]; [left; exact X|right]. apply does_fields; [exact X|exact (IH v Hin)].
  - intros H; inversion H.
  - intros i H; inversion H.
Qed.

(** ** Names and styles *)
Definition agree {A} (R R' : reading A) : Prop := forall s o, R s o -> R' s o.
Lemma agree_becomes {A B} (f : A -> B) R R' : agree R R' -> agree (becomes f R) (becomes f R').
Proof. intros H s o (o' & H1 & ->). exists o'. split; [apply H, H1|reflexivity]. Qed.
Lemma agree_in_turn {A} (Rs Rs' : list (reading A)) : Forall2 agree Rs Rs' -> agree (in_turn Rs) (in_turn Rs').
Proof.
  intros H s o X. revert Rs' H. induction X as [s|R Rs s x X|R Rs s a r o X Y IH]; intros Rs' H; inversion H; subst; [constructor|apply it_stop; auto|].
  eapply it_cons; [apply H2, X|auto].
Qed.
Lemma agree_repeat {A} (R R' : reading A) n : agree R R' -> Forall2 agree (repeat R n) (repeat R' n).
Proof. intros H. induction n; cbn [repeat]; constructor; auto. Qed.
Lemma agree_counted {A} c (R R' : reading A) : agree R R' -> agree (counted c R) (counted c R').
Proof. intros H s o X. destruct X; [apply ct_count; assumption|]. eapply ct_all; [eassumption|]. eapply agree_in_turn; [apply agree_repeat, H|assumption]. Qed.
Lemma agree_entry c R R' : agree R R' -> agree (entry c R) (entry c R').
Proof. intros H s o X. destruct X; [apply en_key; assumption|eapply en_value; eauto]. Qed.
Lemma agree_collected R R' : agree R R' -> agree (collected R) (collected R').
Proof. intros H s o X. destruct X; [apply cl_stop; auto|eapply cl_map; eauto]. Qed.
Lemma agree_option R R' : agree R R' -> agree (option_read R) (option_read R').
Proof. intros H s o X. destruct X; constructor; auto. Qed.
Lemma agree_field (P P' : Prop) d d' R R' : (P /\ P' /\ d = d') \/ (~ P /\ ~ P' /\ agree R R') -> agree (field_read P d R) (field_read P' d' R').
Proof. intros [(H1 & H2 & ->)|(H1 & H2 & H3)] s o [[X ->]|[X Y]]; try contradiction; [left; auto|right; auto]. Qed.
Lemma agree_variant vs vs' : Forall2 (fun v v' : attrs * reading (list rval) => (skipped_de (fst v) /\ skipped_de (fst v')) \/
    (~ skipped_de (fst v) /\ ~ skipped_de (fst v') /\ agree (snd v) (snd v'))) vs vs' -> agree (variant_read vs) (variant_read vs').
Proof.
  intros H s o X.
  assert (N : forall n us us', Forall2 (fun v v' : attrs * reading (list rval) => (skipped_de (fst v) /\ skipped_de (fst v')) \/
    (~ skipped_de (fst v) /\ ~ skipped_de (fst v') /\ agree (snd v) (snd v'))) us us' -> read_variants us n -> read_variants us' n).
  { intros n us us' HF HR. revert us' HF. induction HR; intros us' HF; inversion HF as [|x y xs ys HH]; subst; [constructor| |].
    - apply rv_skip; [destruct HH as [[]|(? & ? & ?)]; tauto|auto].
    - apply rv_keep; [destruct HH as [[]|(? & ? & ?)]; tauto|auto]. }
  destruct X as [s X|l i n s Hl Hn Hi|l i s o vs1 a R vs2 Hl -> Hn Ha Ho].
  - apply vr_index, X.
  - eapply vr_unknown; eauto.
  - apply Forall2_app_inv_l in H as (us1 & us2 & H1 & H2 & ->). inversion H2 as [|? [a' R'] ? us3 HH H3]; subst. cbn [fst snd] in HH.
    replace (lenN vs1) with (lenN us1) by (unfold lenN; f_equal; symmetry; eapply Forall2_length, H1).
    destruct HH as [[]|(_ & Ha' & HR)]; [contradiction|]. eapply vr_variant; eauto.
Qed.
Lemma agree_fields c dflt fs fs' :
  Forall (fun f => forall t', relabelled dflt (snd (snd f)) t' -> agree (derived_reads c dflt (snd (snd f))) (derived_reads c dflt t')) fs ->
  Forall2 (relabelled_field dflt) fs fs' ->
  Forall2 agree (map (fun f => field_read (skipped_de (fst f)) (dflt (snd (snd f))) (derived_reads c dflt (snd (snd f)))) fs)
    (map (fun f => field_read (skipped_de (fst f)) (dflt (snd (snd f))) (derived_reads c dflt (snd (snd f)))) fs').
Proof.
  intros HF H. revert HF. induction H as [|f f' fs fs' Hf H IH]; intros HF; cbn [map]; [constructor|]. inversion HF; subst.
  constructor; [|auto]. apply agree_field. inversion Hf; subst; auto.
Qed.
Lemma agree_relabelled c dflt t : forall t', relabelled dflt t t' -> agree (derived_reads c dflt t) (derived_reads c dflt t').
Proof.
  apply (rty_ind2 (fun t => forall t', relabelled dflt t t' -> agree (derived_reads c dflt t) (derived_reads c dflt t'))); clear t.
  - intros l t' H; inversion H; subst. intros s o X; exact X.
  - intros t IH t' H; inversion H; subst. apply agree_option; auto.
  - intros t IH t' H; inversion H; subst. apply agree_becomes, agree_counted; auto.
  - intros t IH t' H; inversion H; subst. apply agree_collected, agree_counted, agree_entry; auto.
  - intros t IH t' H; inversion H; subst. apply agree_collected, agree_counted, agree_entry; auto.
  - intros ts IH t' H; inversion H as [| | | | |? ts' HF| |]; subst. cbn [derived_reads]. apply agree_becomes, agree_in_turn. clear H.
    induction HF; cbn [map]; constructor; inversion IH; subst; auto.
  - intros k fs IH t' H; inversion H; subst. cbn [derived_reads]. apply agree_becomes, agree_in_turn, agree_fields; assumption.
  - intros vs IH t' H; inversion H as [| | | | | | |? vs' HF]; subst. cbn [derived_reads]. apply agree_variant. clear H.
    induction HF as [|v v' vs vs' HH HF IHF]; cbn [map]; constructor; inversion IH; subst; auto. cbn [fst snd].
    destruct HH as [HH|(H1' & H2' & H3')]; [left; exact HH|right]. split; [exact H1'|split; [exact H2'|]]. apply agree_in_turn, agree_fields; assumption.
  - intros t' H; inversion H.
  - intros i t' H; inversion H.
Qed.
Theorem relabelled_same c dflt t t' s : wf_cfg c -> 4096 <= heap_limit c -> declared t -> declared t' -> relabelled dflt t t' -> bytes_ok s ->
  run c (rde c dflt t') s = run c (rde c dflt t) s.
Proof.
  intros Hw Hh Ht Ht' H Hs. apply (does_iff c _ _ (does_derived c dflt t' Hw Hh Ht') s _ Hs). apply (agree_relabelled c dflt t t' H).
  apply (does_iff c _ _ (does_derived c dflt t Hw Hh Ht) s _ Hs). reflexivity.
Qed.
