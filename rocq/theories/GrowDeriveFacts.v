(** * Proofs about the memory asked for by derived types. *)
From Coq Require Import String.
From Verif Require Import HeaderFacts.
From Verif Require PeakStdFacts.
From Verif Require Import SpecVarint PrimFacts ArchFacts.
From Verif Require Import Base BaseFacts Varint VarintFacts Utf8 Serde SerdeFacts SerdeMore SerdeSafe SerdeSize Typing SpecDty SpecRequest SpecHeap HeapFacts Consume Big Time
  Derive SpecDerive DeriveFacts DeriveDe SpecDeriveDe DeriveDeFacts Grow SpecGrow GrowFacts HeldFacts PeakFacts GrowDerive SpecGrowDerive.
Local Open Scope list_scope.
Local Open Scope N_scope.

(** ** The same outcomes *)
Lemma gleaf_adds c l k : adds eq (gleaf c l k) (leaf_de c k).
Proof.
  destruct k; cbn [gleaf leaf_de]; try apply adds_same.
  - apply adds_pmap, adds_vec, adds_same.
  - apply adds_pmap. eapply adds_then; [apply adds_vec, adds_same|]. intros bs. apply adds_asks, adds_same.
  - apply adds_pmap, adds_vec, adds_same.
  - apply adds_pmap. eapply adds_then; [apply adds_vec, adds_same|]. intros bs. apply adds_asks, adds_same.
  - apply adds_pmap, adds_decimal.
  - apply adds_pmap. eapply adds_then; [apply adds_vec, adds_same|]. intros bs. apply adds_asks, adds_same.
  - apply adds_pmap, adds_string.
  - apply adds_pmap, adds_buf.
Qed.
(** Fields that differ by the requests of their readers only. *)
Definition alike (f g : dfield) : Prop :=
  df_attrs f = df_attrs g /\ df_name f = df_name g /\ df_dflt f = df_dflt g /\ df_miss f = df_miss g /\ adds eq (df_read f) (df_read g).
Lemma kept_alike fs gs : Forall2 alike fs gs -> Forall2 alike (kept fs) (kept gs).
Proof.
  unfold kept. induction 1 as [|f g fs gs H _ IH]; cbn [filter]; [constructor|]. destruct H as (H1 & H). rewrite H1.
  destruct (serde_skips_de (df_attrs g)); cbn [negb]; [exact IH|]. constructor; [split; assumption|exact IH].
Qed.
Lemma fill_alike fs gs : Forall2 alike fs gs -> forall slots, fill_fields fs slots = fill_fields gs slots.
Proof.
  induction 1 as [|f g fs gs H _ IH]; intros slots; cbn [fill_fields]; [reflexivity|]. destruct H as (H1 & H2 & H3 & H4 & _). rewrite H1, H3, H4.
  rewrite (IH slots). destruct (serde_skips_de (df_attrs g)); [reflexivity|]. destruct slots as [|[v|] slots]; [reflexivity|rewrite IH; reflexivity|].
  destruct (df_miss g); [rewrite IH; reflexivity|reflexivity].
Qed.
Lemma names_alike fs gs : Forall2 alike fs gs -> map df_name fs = map df_name gs /\ map (fun _ => @None rval) fs = map (fun _ => None) gs /\
  Forall2 (fun f g => fst f = fst g /\ adds eq (snd f) (snd g)) (map (fun f => (df_name f, df_read f)) fs) (map (fun f => (df_name f, df_read f)) gs).
Proof.
  induction 1 as [|f g fs gs H _ (I1 & I2 & I3)]; cbn [map]; [repeat split; constructor|]. destruct H as (H1 & H2 & H3 & H4 & H5).
  rewrite H2, I1, I2. split; [reflexivity|]. split; [reflexivity|]. constructor; [cbn [fst snd]; auto|exact I3].
Qed.
Lemma members_adds k fs gs : Forall2 alike fs gs -> adds eq (members_de k fs) (members_de k gs).
Proof.
  intros H. destruct k; cbn [members_de]; [| |apply adds_same].
  - unfold map_fields. destruct (names_alike _ _ (kept_alike _ _ H)) as (E1 & E2 & E3). rewrite E1, E2.
    apply adds_then; [apply adds_struct_loop, E3|]. intros slots. rewrite (fill_alike _ _ H). apply adds_same.
  - induction H as [|f g fs gs H _ IH]; cbn [seq_fields]; [apply adds_same|]. destruct H as (H1 & H2 & H3 & H4 & H5). rewrite H1, H3.
    destruct (serde_skips_de (df_attrs g)); [apply adds_then; [exact IH|intros; apply adds_same]|].
    apply adds_then; [exact H5|]. intros v. apply adds_then; [exact IH|intros; apply adds_same].
Qed.
Lemma alts_adds vs ws : Forall2 (fun v w => fst v = fst w /\ adds eq (snd v) (snd w)) vs ws -> forall j, Forall2 (adds eq) (enum_alts j vs) (enum_alts j ws).
Proof.
  induction 1 as [|[a p] [b q] vs ws [H1 H2] _ IH]; intros j; cbn [enum_alts]; [constructor|]. cbn [fst snd] in H1, H2. subst b.
  destruct (serde_skips_de a); [apply IH|]. constructor; [apply adds_pmap, H2|apply IH].
Qed.
Lemma F2_pick {A B} (R : A -> B -> Prop) l l' : Forall2 R l l' -> forall i, match pickN l i, pickN l' i with Some a, Some b => R a b | None, None => True | _, _ => False end.
Proof.
  induction 1 as [|a b l l' H _ IH]; intros i; cbn [pickN]; [exact I|]. destruct (i =? 0); [exact H|apply IH].
Qed.
Lemma grde_adds c l dflt t : adds eq (grde c l dflt t) (rde c dflt t).
Proof.
  assert (L : forall fs : list (attrs * (string * rty)), Forall (fun f => adds eq (grde c l dflt (snd (snd f))) (rde c dflt (snd (snd f)))) fs ->
    Forall2 alike (map (fun f => DField (fst f) (fst (snd f)) (dflt (snd (snd f))) (is_option (snd (snd f))) (grde c l dflt (snd (snd f)))) fs)
      (map (fun f => DField (fst f) (fst (snd f)) (dflt (snd (snd f))) (is_option (snd (snd f))) (rde c dflt (snd (snd f)))) fs)).
  { intros fs H. apply F2_map_both. eapply Forall_impl; [|exact H]. intros f Hf. repeat split. exact Hf. }
  induction t using rty_ind2; cbn [grde rde]; try apply adds_same.
  - apply gleaf_adds.
  - apply adds_pmap, adds_then; [apply adds_same|]. intros [|]; [apply adds_pmap, IHt|apply adds_same].
  - apply adds_pmap, adds_vec, IHt.
  - apply adds_pmap, adds_then; [apply adds_same|]. intros n. apply adds_map_n, IHt.
  - apply adds_pmap, adds_then; [apply adds_same|]. intros n. apply adds_map_n, IHt.
  - apply adds_pmap, adds_sequence, F2_map_both. assumption.
  - apply adds_pmap, members_adds, L. assumption.
  - apply adds_then; [apply adds_same|]. intros i.
    match goal with |- adds _ (match pickN ?x _ with _ => _ end) (match pickN ?y _ with _ => _ end) => assert (F : Forall2 (adds eq) x y) end.
    { apply alts_adds, F2_map_both. eapply Forall_impl; [|eassumption]. cbn [fst snd]. intros v Hv. split; [reflexivity|]. apply members_adds, L, Hv. }
    assert (P := F2_pick _ _ _ F i). match goal with |- adds _ (match ?x with _ => _ end) (match ?y with _ => _ end) => destruct x, y end; try contradiction; [exact P|apply adds_same].
Qed.

(** ** Values that take input *)
Definition pos {A} (c : cfg) (p : prog A) : Prop := consumes c p (fun _ n => 1 <= n).
Lemma pos_after {A B} c (p : prog A) (f : A -> prog B) : (forall a, pos c (f a)) -> pos c (bind p f).
Proof. intros H. eapply consumes_bind; [apply consumes_any|]. cbv beta. intros a n _. eapply consumes_weaken; [apply H|]. cbv beta; intros; lia. Qed.
Lemma seq_pos c fs : Exists (fun f => serde_skips_de (df_attrs f) = false /\ pos c (df_read f)) fs -> pos c (seq_fields fs).
Proof.
  induction 1 as [f fs [H1 H2]|f fs _ IH]; cbn [seq_fields].
  - rewrite H1. apply consumes_then, H2.
  - destruct (serde_skips_de (df_attrs f)); [apply consumes_then, IH|]. apply pos_after. intros v. apply consumes_then, IH.
Qed.
Lemma named_pos c fs : NoDup (map df_name (kept fs)) -> Exists (fun f => serde_skips_de (df_attrs f) = false /\ pos c (df_read f)) fs -> pos c (map_fields fs).
Proof.
  intros Hn H. unfold map_fields. apply consumes_then.
  apply Exists_exists in H as (f & Hf & H1 & H2). assert (Hk : In f (kept fs)) by (apply filter_In; rewrite H1; auto).
  set (l := map (fun f => (df_name f, df_read f)) (kept fs)).
  assert (E1 : map df_name (kept fs) = map fst l) by (unfold l; rewrite map_map; reflexivity).
  assert (E2 : map (fun _ => @None rval) (kept fs) = map (fun _ => None) l) by (unfold l; rewrite map_map; reflexivity).
  rewrite E1, E2. rewrite E1 in Hn. eapply consumes_ext with (q := l' <- sequence (map snd l) ;; Ret (map Some l')); [intros s; rewrite run_struct_loop by exact Hn; rewrite run_bind; reflexivity|].
  apply consumes_then. apply (consumes_pos_sequence c _ (df_read f)); [|exact H2]. unfold l. rewrite map_map. apply in_map_iff. exists f. auto.
Qed.
Lemma leaf_pos c k : leaf_occupies k = true -> pos c (leaf_de c k).
Proof.
  intros H. destruct k; try discriminate; cbn [leaf_de]; unfold pos.
  all: first [intros s a r _ E; cbn [run] in E; discriminate
    | apply consumes_then, consumes_read; lia | apply consumes_then, consumes_then, consumes_read; lia
    | apply consumes_then, consumes_then, consumes_then, consumes_read; lia | apply consumes_then, consumes_then, consumes_then, consumes_then, consumes_read; lia].
Qed.
Lemma fields_pos c dflt fs : Forall (fun f : attrs * (string * rty) => roccupies (snd (snd f)) = true -> pos c (rde c dflt (snd (snd f)))) fs ->
  existsb (fun f => negb (serde_skips_de (fst f)) && roccupies (snd (snd f))) fs = true ->
  Exists (fun f => serde_skips_de (df_attrs f) = false /\ pos c (df_read f))
    (map (fun f => DField (fst f) (fst (snd f)) (dflt (snd (snd f))) (is_option (snd (snd f))) (rde c dflt (snd (snd f)))) fs).
Proof.
  intros H E. apply existsb_exists in E as (f & Hf & E). apply andb_prop in E as [E1 E2]. apply Exists_exists.
  exists (DField (fst f) (fst (snd f)) (dflt (snd (snd f))) (is_option (snd (snd f))) (rde c dflt (snd (snd f)))). split; [apply in_map_iff; exists f; auto|].
  cbn [df_attrs df_read]. split; [destruct (serde_skips_de (fst f)); [discriminate|reflexivity]|]. rewrite Forall_forall in H. apply (H f Hf E2).
Qed.
Lemma kept_names dflt (rd : rty -> prog rval) fs :
  map df_name (kept (map (fun f : attrs * (string * rty) => DField (fst f) (fst (snd f)) (dflt (snd (snd f))) (is_option (snd (snd f))) (rd (snd (snd f)))) fs)) =
  map (fun f => fst (snd f)) (filter (fun f => negb (serde_skips_de (fst f))) fs).
Proof.
  induction fs as [|f fs IH]; [reflexivity|]. unfold kept in *. cbn [map filter df_attrs]. destruct (serde_skips_de (fst f)); cbn [negb map df_name]; [exact IH|].
  f_equal. exact IH.
Qed.
Lemma rde_pos c dflt t : roccupies t = true -> pos c (rde c dflt t).
Proof.
  induction t using rty_ind2; cbn [roccupies rde]; intros Ho.
  - apply leaf_pos, Ho.
  - apply consumes_then, consumes_then, consumes_then, consumes_read; lia.
  - apply consumes_then, consumes_then, consumes_then, consumes_read; lia.
  - apply consumes_then, consumes_then, consumes_then, consumes_read; lia.
  - apply consumes_then, consumes_then, consumes_then, consumes_read; lia.
  - apply existsb_exists in Ho as (t & Ht & Ho). rewrite Forall_forall in H. apply consumes_then.
    apply (consumes_pos_sequence c _ (rde c dflt t)); [apply in_map, Ht|]. apply H; auto.
  - apply andb_prop in Ho as [Ho Hk]. apply consumes_then. destruct k; cbn [members_de]; [| |discriminate].
    + apply nodupb_NoDup in Hk. apply named_pos; [rewrite (kept_names dflt (rde c dflt)); exact Hk|]. apply fields_pos; assumption.
    + apply seq_pos, fields_pos; assumption.
  - apply consumes_then, consumes_then, consumes_read; lia.
  - intros s a r _ E; discriminate.
  - intros s a r _ E; discriminate.
Qed.

(** ** What is asked for *)
Section Asked.
Context (c : cfg) (flt : N -> bool) (l : rlayout) (e h : N -> N) (dflt : rty -> rval).
Hypothesis (Hw : wf_cfg c) (Hh : 4096 <= heap_limit c) (Hl : sound_layout l e h).

Lemma bytes_pays : pays c flt (g_vec c 1 de_u8) 0 (fun _ => 0) 12 4096.
Proof.
  eapply pays_weaken; [apply pays_vec with (be := 0) (pe := 4096); [apply pays_quiet; [apply quiet_byte|intros; apply N.le_refl]|right; apply consumes_read; lia]|lia|intros; apply N.le_refl|lia|lia].
Qed.
Lemma number_bytes : pays c flt (g_vec c 1 de_u8) 0 (fun bs => 0 + total (r_num l (lenN bs))) (12 + 64) 4096.
Proof.
  apply pays_bank; [apply bytes_pays|]. eapply adds_consumes; [apply adds_vec, adds_same|].
  eapply consumes_weaken; [apply (consumes_vec c de_u8 (fun _ => 1)); eapply consumes_weaken; [apply consumes_byte|cbv beta; tauto]|].
  cbv beta. intros bs n H. destruct Hl as (_ & _ & _ & _ & Hn). specialize (Hn (lenN bs)).
  assert (E : sumN (fun _ : N => 1) bs = lenN bs) by (clear; induction bs as [|b bs IH]; cbn [sumN]; [reflexivity|]; rewrite lenN_cons, IH; lia).
  assert (P := PeakStdFacts.enc_u64_some (lenN bs)). lia.
Qed.
Lemma leaf_pays k : pays c flt (gleaf c l k) 0 (fun _ => 0) (leaf_grow c k) 4096.
Proof.
  destruct Hl as (Ht & _).
  destruct k; cbn [gleaf leaf_grow leaf_de].
  all: try (apply pays_quiet; [|intros; apply N.le_refl]; first [exact I
      | apply quiet_pmap; first [apply quiet_bool | apply quiet_byte | apply quiet_u16 | apply quiet_u32 | apply quiet_u64
      | apply quiet_pmap; first [apply quiet_byte | apply quiet_u16 | apply quiet_u32 | apply quiet_u64]
      | apply quiet_date | apply quiet_date_time | intros ?; exact I]]; fail).
  all: try (apply pays_pmap; eapply pays_weaken; [first [apply pays_string; assumption|apply pays_buffer; assumption|apply bytes_pays]|lia|intros; apply N.le_refl|lia|lia]; fail).
  - apply pays_pmap. eapply pays_bind; [apply number_bytes|]. intros bs. cbv beta. rewrite N.add_comm. apply pays_asks, pays_ret, N.le_refl.
  - apply pays_pmap. eapply pays_bind; [apply number_bytes|]. intros bs. cbv beta. rewrite N.add_comm. apply pays_asks, pays_ret, N.le_refl.
  - apply pays_pmap. eapply pays_bind with (mid := fun _ => 0); [apply bytes_pays|]. intros [|]; apply pays_quiet; try exact I; try (intros; apply N.le_refl).
    apply quiet_bind; [apply quiet_pmap, quiet_u64|intros; exact I].
  - apply pays_pmap. eapply pays_bind; [apply number_bytes|]. intros bs. cbv beta. rewrite N.add_comm. apply pays_asks, pays_quiet; [|intros; apply N.le_refl].
    cbv zeta. destruct (_ =? 0)%Z; [exact I|]. apply quiet_bind; [apply quiet_pmap, quiet_u64|intros; exact I].
  - apply pays_quiet; [|intros; apply N.le_refl]. apply quiet_pmap. unfold fmt_de_date.
    apply quiet_bind; [apply quiet_pmap, quiet_u32|]. intros y0. apply quiet_bind; [apply quiet_or|]. intros y.
    apply quiet_bind; [apply quiet_u16|]. intros o0. apply quiet_bind; [apply quiet_or|]. intros o. destruct (from_ordinal_date y o); exact I.
  - apply pays_quiet; [|intros; apply N.le_refl]. apply quiet_pmap. unfold fmt_de_datetime.
    apply quiet_bind; [apply quiet_pmap, quiet_u64|]. intros ts. apply quiet_bind; [apply quiet_u32|]. intros ns.
    destruct (from_unix_timestamp ts) as [t|]; [|exact I]. destruct (odt_add_ns t ns); exact I.
Qed.
Lemma quiet_fill fs : forall slots, quiet (fill_fields fs slots).
Proof.
  induction fs as [|f fs IH]; intros slots; cbn [fill_fields]; [exact I|].
  destruct (serde_skips_de (df_attrs f)); [apply quiet_bind; [apply IH|intros; exact I]|].
  destruct slots as [|[v|] slots]; [exact I|apply quiet_bind; [apply IH|intros; exact I]|].
  destruct (df_miss f); [apply quiet_bind; [apply IH|intros; exact I]|exact I].
Qed.
Lemma members_pay k fs be pe : Forall (fun f => serde_skips_de (df_attrs f) = true \/ pays c flt (df_read f) 0 (fun _ => 0) be pe) fs ->
  pays c flt (members_de k fs) 0 (fun _ => 0) be pe.
Proof.
  intros Hf. destruct k; cbn [members_de]; [| |apply pays_ret, N.le_refl].
  - unfold map_fields. eapply pays_bind with (mid := fun _ => 0); [|intros slots; apply pays_quiet; [apply quiet_fill|intros; apply N.le_refl]].
    apply pays_struct_loop, Forall_map. cbn [snd]. apply Forall_forall. intros f Hin. unfold kept in Hin. apply filter_In in Hin as [Hin Hs].
    rewrite Forall_forall in Hf. destruct (Hf f Hin) as [H|H]; [|exact H]. rewrite H in Hs. discriminate.
  - induction Hf as [|f fs H _ IH]; cbn [seq_fields]; [apply pays_ret, N.le_refl|].
    destruct (serde_skips_de (df_attrs f)); [eapply pays_bind; [exact IH|intros; apply pays_ret, N.le_refl]|]. destruct H as [H|H]; [discriminate|].
    eapply pays_bind; [exact H|]. intros v. cbv beta. eapply pays_bind; [exact IH|intros; apply pays_ret, N.le_refl].
Qed.
Definition field_grow (f : attrs * (string * rty)) : N := if serde_skips_de (fst f) then 0 else rgrow c l e h (snd (snd f)).
Lemma fields_pay k fs : Forall (fun f : attrs * (string * rty) => dense l (snd (snd f)) = true -> pays c flt (grde c l dflt (snd (snd f))) 0 (fun _ => 0) (rgrow c l e h (snd (snd f))) 4096) fs ->
  forallb (fun f => serde_skips_de (fst f) || dense l (snd (snd f))) fs = true ->
  pays c flt (members_de k (map (fun f => DField (fst f) (fst (snd f)) (dflt (snd (snd f))) (is_option (snd (snd f))) (grde c l dflt (snd (snd f)))) fs))
    0 (fun _ => 0) (fold_right (fun f n => N.max (field_grow f) n) 0 fs) 4096.
Proof.
  intros H Hd. apply members_pay, Forall_map, Forall_forall. cbn [df_attrs df_read]. intros f Hin. destruct (serde_skips_de (fst f)) eqn:E; [left; reflexivity|right].
  rewrite Forall_forall in H. rewrite forallb_forall in Hd. assert (D := Hd f Hin). rewrite E in D. cbn [orb] in D.
  eapply pays_weaken; [apply (H f Hin D)|apply N.le_refl|intros; apply N.le_refl| |apply N.le_refl].
  assert (M := max_member field_grow fs f Hin). unfold field_grow at 1 in M. rewrite E in M. exact M.
Qed.
Lemma grde_pays t : dense l t = true -> pays c flt (grde c l dflt t) 0 (fun _ => 0) (rgrow c l e h t) 4096.
Proof.
  assert (Hl' := Hl). destruct Hl' as (Ht & Hth & Hm & Hmh & _).
  induction t using rty_ind2; cbn [dense]; intros Hd; cbn [grde rgrow].
  - apply leaf_pays.
  - apply pays_pmap. eapply pays_bind with (mid := fun _ => 0); [apply pays_quiet; [apply quiet_bool|intros; lia]|].
    intros [|]; [apply pays_pmap, IHt, Hd|apply pays_ret, N.le_refl].
  - apply andb_prop in Hd as [Ho Hd]. apply pays_pmap, pays_vec; [apply IHt, Hd|]. apply orb_prop in Ho as [Ho|Ho]; [right|left; apply N.eqb_eq, Ho].
    eapply adds_consumes; [apply grde_adds|]. apply rde_pos, Ho.
  - apply pays_pmap. eapply pays_bind with (mid := fun _ => 0); [apply pays_quiet; [apply quiet_u64|intros; lia]|].
    intros n. eapply pays_weaken; [apply pays_map_n with (e := e) (al := 0); [exact Hw|exact Ht|exact Hm|apply IHt, Hd]|lia|intros; apply N.le_refl|lia|lia].
  - apply pays_pmap. eapply pays_bind with (mid := fun _ => 0); [apply pays_quiet; [apply quiet_u64|intros; lia]|].
    intros n. eapply pays_weaken; [apply pays_map_n with (e := h) (al := 0); [exact Hw|exact Hth|exact Hmh|apply IHt, Hd]|lia|intros; apply N.le_refl|lia|lia].
  - apply pays_pmap. apply pays_sequence0. rewrite Forall_forall in *. rewrite forallb_forall in Hd.
    intros t Hin. eapply pays_weaken; [apply (H t Hin), Hd, Hin|apply N.le_refl|intros; apply N.le_refl|apply (max_member (rgrow c l e h)), Hin|apply N.le_refl].
  - apply pays_pmap. apply fields_pay; assumption.
  - eapply pays_bind with (mid := fun _ => 0); [apply pays_quiet; [apply quiet_u16|intros; lia]|]. intros i.
    set (G := fold_right _ 0 vs).
    match goal with |- pays _ _ (match pickN (enum_alts _ ?x) _ with _ => _ end) _ _ _ _ => assert (F : forall n, Forall (fun p => pays c flt p 0 (fun _ => 0) G 4096) (enum_alts n x)) end.
    { assert (B : Forall (fun v => serde_skips_de (fst v) = true \/ fold_right (fun f n => N.max (field_grow f) n) 0 (snd (snd v)) <= G) vs).
      { apply Forall_forall. intros v Hin. destruct (serde_skips_de (fst v)) eqn:E; [left; reflexivity|right].
        assert (M := max_member (fun v : attrs * (style * list (attrs * (string * rty))) => if serde_skips_de (fst v) then 0 else fold_right (fun f n => N.max (field_grow f) n) 0 (snd (snd v))) vs v Hin).
        cbv beta in M. rewrite E in M. exact M. }
      clearbody G. induction H as [|v vs Hv _ IH]; intros n; cbn [map enum_alts]; [constructor|].
      cbn [forallb] in Hd. apply andb_prop in Hd as [Hd1 Hd2]. inversion B as [|? ? B1 B2]; subst.
      destruct (serde_skips_de (fst v)) eqn:E; [apply IH; assumption|]. constructor; [|apply IH; assumption]. cbn [orb] in Hd1. destruct B1 as [B1|B1]; [discriminate|].
      apply pays_pmap. eapply pays_weaken; [apply fields_pay; assumption|apply N.le_refl|intros; apply N.le_refl|exact B1|apply N.le_refl]. }
    match goal with |- pays _ _ (match ?x with _ => _ end) _ _ _ _ => destruct x as [p|] eqn:E end; [|apply pays_fail].
    apply pickN_some in E as [Hin _]. specialize (F 0). rewrite Forall_forall in F. apply F, Hin.
  - apply pays_fail.
  - apply pays_fail.
Qed.
End Asked.
Lemma derived_asked c l e h dflt t s : wf_cfg c -> 4096 <= heap_limit c -> sound_layout l e h -> dense l t = true -> bytes_ok s ->
  match run c (grde c l dflt t) s with
  | OOk v r => lenN r <= lenN s /\ total (allocs c (grde c l dflt t) s) <= rgrow c l e h t * (lenN s - lenN r)
  | _ => total (allocs c (grde c l dflt t) s) <= rgrow c l e h t * lenN s + 4096
  end.
Proof.
  intros Hw Hh Hl Hd Hs. assert (H := grde_pays c (fun _ => true) l e h dflt Hw Hh Hl t Hd s Hs). rewrite cost_all in H.
  destruct (run c (grde c l dflt t) s); [destruct H; split|..]; lia.
Qed.
Lemma derived_enough c l e h dflt t s : wf_cfg c -> 4096 <= heap_limit c -> sound_layout l e h -> dense l t = true -> bytes_ok s ->
  rgrow c l e h t * lenN s + 4096 <= heap_limit c -> heap_limit c <= isize_max c -> run c (grde c l dflt t) s = run c (rde c dflt t) s.
Proof.
  intros Hw Hh Hl Hd Hs H1 H2. eapply fits_enough; [apply grde_adds| |exact H1|exact H2].
  assert (H := derived_asked c l e h dflt t s Hw Hh Hl Hd Hs). destruct (run c (grde c l dflt t) s) as [v r|y|y]; [|lia..]. destruct H as [_ H].
  assert (rgrow c l e h t * (lenN s - lenN r) <= rgrow c l e h t * lenN s) by (apply N.mul_le_mono_l; lia). lia.
Qed.

(** Structs of skipped fields take memory but no input. *)
Lemma skipped_seq c fs : Forall (fun f => serde_skips_de (df_attrs f) = true) fs -> run c (seq_fields fs) [] = OOk (map df_dflt fs) [].
Proof.
  induction 1 as [|f fs H _ IH]; [reflexivity|]. cbn [seq_fields map]. rewrite H, run_bind, IH. reflexivity.
Qed.
Lemma skipped_fill c fs : Forall (fun f => serde_skips_de (df_attrs f) = true) fs -> run c (fill_fields fs []) [] = OOk (map df_dflt fs) [].
Proof.
  induction 1 as [|f fs H _ IH]; [reflexivity|]. cbn [fill_fields map]. rewrite H, run_bind, IH. reflexivity.
Qed.
Lemma skipped_kept fs : Forall (fun f => serde_skips_de (df_attrs f) = true) fs -> kept fs = [].
Proof. unfold kept. induction 1 as [|f fs H _ IH]; [reflexivity|]. cbn [filter]. rewrite H. exact IH. Qed.
Lemma skipped_members c k fs : Forall (fun f => serde_skips_de (df_attrs f) = true) fs -> exists v, run c (members_de k fs) [] = OOk v [].
Proof.
  intros H. destruct k; cbn [members_de]; [|eexists; apply skipped_seq, H|eexists; reflexivity].
  eexists. unfold map_fields. rewrite (skipped_kept fs H). cbn [map length]. unfold struct_loop. rewrite run_bind. cbn. rewrite (skipped_fill c fs H). reflexivity.
Qed.
Lemma skipped_crash c l dflt fs : wf_cfg c -> forallb (fun f => serde_skips_de (fst f)) fs = true -> 0 < r_size l (RStruct Named fs) ->
  exists s v x, (length s <= 9)%nat /\ bytes_ok s /\ run c (rde c dflt (RVec (RStruct Named fs))) s = OOk v [] /\ run c (grde c l dflt (RVec (RStruct Named fs))) s = OPanic x.
Proof.
  intros Hw Hf Hz. set (t := RStruct Named fs). assert (Hm : varint_m 8) by (unfold varint_m; auto). set (n := 2 ^ usize_bits c - 1).
  assert (Hn : n < 2 ^ 64 /\ n < 2 ^ usize_bits c /\ isize_max c < n) by (unfold n, isize_max; destruct (usize_bits_cases c Hw) as [->| ->]; repeat split; reflexivity).
  destruct Hn as (Hn & Hn' & Hi). assert (Eu : as_usize c n = n) by (apply as_usize_id; exact Hn').
  assert (Hr : exists v, run c (rde c dflt t) [] = OOk v []).
  { unfold t. cbn [rde]. rewrite run_pmap. match goal with |- context [members_de Named ?x] => destruct (skipped_members c Named x) as [v E] end.
    - apply Forall_map. cbn [df_attrs]. apply Forall_forall. rewrite forallb_forall in Hf. exact Hf.
    - rewrite E. eexists. reflexivity. }
  destruct Hr as [v Hr].
  assert (Hok : exists l, run c (repeatN n (rde c dflt t)) [] = OOk l []).
  { unfold repeatN. rewrite run_bind, run_foldN. generalize (@nil rval). induction (N.to_nat n) as [|j IH]; intros acc; cbn [iter].
    - cbn [run obind]. eauto.
    - rewrite run_bind, run_bind, Hr. cbn [obind run]. apply IH. }
  destruct Hok as [vs Hok]. exists (varint_bytes 8 n ++ []).
  assert (Ed : run c (rde c dflt (RVec t)) (varint_bytes 8 n ++ []) = OOk (VSeq vs) []).
  { change (rde c dflt (RVec t)) with (pmap VSeq (de_vec c (rde c dflt t))). rewrite run_pmap. unfold de_vec. rewrite run_bind, run_u64_bytes by exact Hn. cbn [obind]. rewrite Eu, Hok. reflexivity. }
  exists (VSeq vs).
  assert (Hb : bytes_ok (varint_bytes 8 n ++ [])) by (rewrite app_nil_r; apply varint_bytes_ok; assumption).
  destruct (adds_run c _ _ (grde_adds c l dflt (RVec t)) (varint_bytes 8 n ++ [])) as [E|(q & x & _ & _ & E)].
  - exfalso. rewrite Ed in E. change (grde c l dflt (RVec t)) with (pmap VSeq (g_vec c (r_size l t) (grde c l dflt t))) in E.
    rewrite run_pmap in E. unfold g_vec in E. rewrite run_bind, run_u64_bytes in E by exact Hn. cbn [obind] in E. rewrite Eu in E.
    destruct (run c (g_push (r_size l t) n 0 (grde c l dflt t)) []) as [l' r|y|y] eqn:Ep; try discriminate.
    assert (Hnil : bytes_ok []) by constructor.
    destruct (push_room c (r_size l t) n (grde c l dflt t) Hz [] l' r Hnil Ep) as (q & _ & Hq). fold t in Hz. nia.
  - exists x. split; [rewrite app_nil_r; apply varint_bytes_len; assumption|]. auto.
Qed.
