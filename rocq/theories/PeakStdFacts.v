(** * Memory asked for by types of the standard library: proofs. *)
From Coq Require Import String.
From Verif Require Import HeaderFacts.
From Verif Require Import Base BaseFacts SpecVarint Varint VarintFacts Serde SerdeFacts SerdeMore SerdeSafe SerdeSize SerdeProps Typing Consume PrimFacts SpecDty SpecRequest
  ArchFacts SpecHeap HeapFacts Std SpecStd StdFacts Grow SpecGrow GrowFacts SpecPeak PeakFacts GrowStd SpecPeakStd.
Local Open Scope list_scope.
Local Open Scope N_scope.

(** ** The same outcome *)
Lemma adds_view {A B C} (R : A -> B -> Prop) (Q : A -> C -> Prop) (f : B -> C) p q :
  adds R p q -> (forall a b, R a b -> Q a (f b)) -> adds Q p (bind q (fun b => Ret (f b))).
Proof. intros H Hf. induction H; cbn [bind]; constructor; auto. Qed.
Lemma adds_asks_ret {A B} (R : A -> B -> Prop) l a b : R a b -> adds R (asks l (Ret a)) (Ret b).
Proof. intros H. induction l; cbn [asks]; [constructor; exact H|apply ad_more; assumption]. Qed.
Lemma set_of_snoc cmp l x : set_of cmp (l ++ [x]) = set_insert cmp x (set_of cmp l).
Proof. unfold set_of. rewrite fold_left_app. reflexivity. Qed.
Lemma adds_set c ask cmp p q : adds eq p q -> adds (fun m l => m = set_of cmp l) (g_set c ask cmp p) (de_vec c q).
Proof.
  intros H. apply adds_then; [apply adds_same|]. intros n. unfold repeatN.
  apply (adds_view (fun m acc => m = set_of cmp (rev acc))); [|auto].
  apply adds_fold; [|reflexivity]. intros m acc ->. unfold set_step. apply adds_then; [exact H|]. intros a.
  apply adds_asks_ret. cbn [rev]. symmetry. apply set_of_snoc.
Qed.
Lemma adds_std_enum ps qs : Forall2 (adds eq) ps qs -> adds eq (std_enum ps) (std_enum qs).
Proof.
  intros H. apply adds_then; [apply adds_same|]. intros i. revert i. induction H as [|p q ps qs H _ IH]; intros i; cbn [pickN]; [apply adds_same|].
  destruct (i =? 0); [exact H|apply IH].
Qed.
Lemma adds_range p q miss mk : adds eq p q -> adds eq (range_de p miss mk) (range_de q miss mk).
Proof.
  intros H. apply adds_then; [|intros l; apply adds_same]. apply adds_then; [|intros; apply adds_same]. apply adds_struct_loop. repeat constructor; exact H.
Qed.
Lemma repeat_map {A B} (f : A -> B) x n : repeat (f x) n = map f (repeat x n).
Proof. induction n as [|n IH]; [reflexivity|]. cbn [repeat map]. rewrite IH. reflexivity. Qed.
Lemma gstd_adds c l t : adds eq (gstd c l t) (std_de c t).
Proof.
  induction t as [d|d|t IH|t IH|cmp t IH|n t IH|ts IH|t IH|t IH|t IH|t e IH IHe| | | | | | | | | | | |t IH|fs IH|vs IH] using stdty_ind2;
    cbn [gstd]; try apply adds_same; cbn [std_de].
  - apply adds_pmap, gde_adds.
  - apply adds_then; [apply gde_adds|]. intros v. apply adds_same.
  - apply adds_pmap, adds_then; [apply adds_same|]. intros [|]; [apply adds_pmap, IH|apply adds_same].
  - apply adds_pmap, adds_vec, IH.
  - eapply adds_bind; [apply (adds_set c _ cmp), IH|]. cbv beta. intros m v ->. constructor. reflexivity.
  - apply adds_pmap, adds_sequence. induction n as [|n IHn]; cbn [repeat]; constructor; assumption.
  - apply adds_pmap, adds_sequence, F2_map_both. assumption.
  - apply adds_range, IH.
  - apply adds_range, IH.
  - apply adds_std_enum. constructor; [apply adds_same|]. constructor; [apply adds_pmap, IH|]. constructor; [apply adds_pmap, IH|constructor].
  - apply adds_std_enum. constructor; [apply adds_pmap, IH|]. constructor; [apply adds_pmap, IHe|constructor].
  - apply adds_then; [apply adds_buf|]. intros bs. destruct (existsb (N.eqb 0) bs); [apply adds_same|]. apply adds_asks, adds_same.
  - apply adds_std_enum. constructor; [apply adds_pmap, adds_vec, adds_same|]. constructor; [apply adds_same|constructor].
  - apply adds_pmap, adds_string.
  - apply adds_pmap, adds_then; [apply adds_same|]. intros n. apply adds_map_n, IH.
  - apply adds_pmap. unfold de_struct. rewrite !map_map. apply adds_then; [|intros; apply adds_same].
    apply adds_struct_loop, F2_map_both. eapply Forall_impl; [|eassumption]. cbn [fst snd]. auto.
  - apply adds_then; [apply adds_same|]. intros i. rewrite !pickN_map. destruct (pickN vs i) as [[k d]|] eqn:E; [|apply adds_same]. cbn [option_map].
    apply pickN_some in E as [Hin _]. rewrite Forall_forall in IH. apply adds_pmap, (IH _ Hin).
Qed.

(** ** At least one byte *)
Lemma std_short c t : proper t -> wf_dty (wire t) = true -> occupies (wire t) = true -> consumes c (std_de c t) (fun _ n => 1 <= n).
Proof.
  intros Hp Hwf Ho s v r Hs E. assert (F := std_follows c t Hp s). rewrite E in F. inversion F as [w v' r' Hv E1 E2| | | | |]; subst.
  symmetry in E1. exact (occupies_de c _ Hwf Ho s w r Hs E1).
Qed.
Lemma owed_none t : occupies (wire t) = false -> owed t = 0.
Proof.
  induction t as [d|d|t IH|t IH|cmp t IH|n t IH|ts IH|t IH|t IH|t IH|t e IH IHe| | | | | | | | | | | |t IH|fs IH|vs IH] using stdty_ind2;
    cbn [wire occupies owed]; intros E; try reflexivity; try discriminate.
  - destruct n as [|n]; [reflexivity|]. cbn [repeat existsb] in E. apply orb_false_iff in E as [E _]. rewrite (IH E). apply N.mul_0_r.
  - unfold added. revert E. induction IH as [|t ts Ht _ IH]; cbn [map existsb fold_right]; [reflexivity|]. intros E. apply orb_false_iff in E as [E1 E2]. rewrite (Ht E1), (IH E2). reflexivity.
  - cbn [existsb] in E. apply orb_false_iff in E as [E _]. rewrite (IH E). reflexivity.
  - cbn [existsb] in E. apply orb_false_iff in E as [E _]. rewrite (IH E). reflexivity.
  - unfold added. revert E. induction IH as [|t ts Ht _ IH]; cbn [map existsb fold_right snd]; [reflexivity|]. intros E. apply orb_false_iff in E as [E1 E2]. rewrite (Ht E1), (IH E2). reflexivity.
Qed.
Lemma insert_grows cmp x m : lenN (set_insert cmp x m) = lenN m \/ lenN (set_insert cmp x m) = lenN m + 1.
Proof.
  induction m as [|y m IH]; cbn [set_insert]; [right; reflexivity|]. destruct (cmp x y); [left; reflexivity|right; rewrite (lenN_cons x); lia|]. rewrite !lenN_cons. lia.
Qed.

Lemma enc_u64_some n : 1 <= lenN (enc_u64 n).
Proof. unfold enc_u64. repeat match goal with |- context [if ?b then _ else _] => destruct b end; cbv zeta; rewrite lenN_cons; lia. Qed.

Section RichStd.
Variables (c : cfg) (flt : N -> bool) (G : N).
Lemma rich_set ask e cmp p al pe : (forall n, set_total ask n <= N.of_nat n * e) -> e + al <= G -> pays c flt p al (fun _ => G) G pe ->
  pays c flt (g_set c ask cmp p) 0 (fun _ => G) G pe.
Proof.
  intros Ha Hg Hp. eapply pays_bind; [apply rich_u64|]. intros n. cbv beta.
  set (phi := fun m : list stdval => G + (N.of_nat (length m) * e - set_total ask (length m))).
  eapply pays_weaken with (pre := phi []) (post := phi); [|unfold phi; cbn [length set_total]; lia|intros; unfold phi; lia|apply N.le_refl|apply N.le_refl].
  apply pays_fold with (Inv := fun _ => True); [|intros; repeat intro; exact I|exact I].
  intros m _. unfold set_step. eapply pays_bind with (mid := fun _ => e + phi m).
  - apply (pays_with _ _ _ _ _ _ _ (phi m - al)) in Hp. eapply pays_less; [exact Hp|unfold phi; lia|unfold phi; lia].
  - intros v. destruct (N.eqb_spec (lenN (set_insert cmp v m)) (lenN m)) as [E|E].
    + cbn [asks]. apply pays_ret. unfold phi. apply Nat2N.inj in E. rewrite E. lia.
    + destruct (insert_grows cmp v m) as [E'|E']; [contradiction|].
      eapply pays_weaken; [apply pays_asks with (pre := phi (set_insert cmp v m)), pays_ret, N.le_refl| |intros; apply N.le_refl|apply N.le_refl|apply N.le_refl].
      assert (L : length (set_insert cmp v m) = S (length m)) by (unfold lenN in E'; lia). unfold phi. rewrite L.
      assert (M0 := Ha (length m)). assert (M1 := Ha (S (length m))). cbn [set_total] in M1 |- *. unfold lenN. rewrite Nat2N.inj_succ, N.mul_succ_l in *. lia.
Qed.
Lemma flat_set ask cmp p pe : (forall n, ask n = []) -> pays c flt p 0 (fun _ => 0) G pe -> pays c flt (g_set c ask cmp p) 0 (fun _ => G) G pe.
Proof.
  intros Ha Hp. eapply pays_bind; [apply rich_u64|]. intros n. cbv beta.
  apply (pays_fold c flt (as_usize c n) (set_step ask cmp p) [] (fun _ => True) (fun _ => G)); [|intros; repeat intro; exact I|exact I].
  intros m _. unfold set_step. apply (pays_with _ _ _ _ _ _ _ G) in Hp. eapply pays_bind; [eapply pays_less with (post' := G); [exact Hp|lia|lia]|].
  intros v. rewrite Ha. destruct (_ =? _); apply pays_ret, N.le_refl.
Qed.
Definition arm (pe : N) (p : prog stdval) : Prop := exists al o, al <= G /\ (o = false -> al = 0) /\ pays c flt p al (fun _ => spare G o) G pe.
Lemma arm_left pe (p : prog stdval) al o : al <= G -> (o = false -> al = 0) -> pays c flt p al (fun _ => spare G o) G pe -> pays c flt p G (fun _ => G) G pe.
Proof.
  intros H1 H2 H3. apply (pays_with _ _ _ _ _ _ _ (G - al)) in H3. eapply pays_less; [exact H3|lia|]. unfold spare. destruct o; [lia|]. rewrite H2 by reflexivity. lia.
Qed.
Lemma rich_std_enum pe ps : Forall (arm pe) ps -> pays c flt (std_enum ps) 0 (fun _ => G) G pe.
Proof.
  intros H. eapply pays_bind; [apply rich_u16|]. intros i. cbv beta. destruct (pickN ps i) as [p|] eqn:E; [|apply pays_fail].
  apply pickN_some in E as [Hin _]. rewrite Forall_forall in H. destruct (H p Hin) as (al & o & H1 & H2 & H3). eapply arm_left; eassumption.
Qed.
Lemma rich_user_enum {X} (g : X -> N -> prog stdval) (al : X -> N) (o : X -> bool) pe vs :
  Forall (fun x => al x <= G /\ (o x = false -> al x = 0) /\ forall i, pays c flt (g x i) (al x) (fun _ => spare G (o x)) G pe) vs ->
  pays c flt (user_enum (map g vs)) 0 (fun _ => G) G pe.
Proof.
  intros H. eapply pays_bind; [apply rich_u16|]. intros i. cbv beta. rewrite pickN_map. destruct (pickN vs i) as [x|] eqn:E; cbn [option_map]; [|apply pays_fail].
  apply pickN_some in E as [Hin _]. rewrite Forall_forall in H. destruct (H x Hin) as (H1 & H2 & H3). eapply arm_left; [exact H1|exact H2|apply H3].
Qed.
Lemma rich_range (p : prog stdval) al o pe miss mk : pays c flt p al (fun _ => spare G o) G pe ->
  pays c flt (range_de p miss mk) (2 * al) (fun _ => spare G o) G pe.
Proof.
  intros H. unfold range_de. eapply pays_bind with (mid := fun _ => spare G o).
  - assert (B := rich_struct c flt G (fun _ : unit => p) (fun _ => al) (fun _ => o) pe [("start", tt); ("end", tt)]%string [miss; miss]).
    cbn [map fst snd added fold_right existsb] in B. eapply pays_less; [apply B| |].
    + repeat constructor; cbn [In]; [intros [X|[]]; discriminate X|tauto].
    + repeat constructor; exact H.
    + lia.
    + destruct o; cbn [orb]; lia.
  - intros [|a [|b [|? ?]]]; try apply pays_fail. apply pays_ret, N.le_refl.
Qed.
Variable (Hw : wf_cfg c).
Lemma rich_cstring l : 4096 <= heap_limit c -> (forall n, total (s_cstring l n) <= 2 * (n + 1)) -> per_buffer_byte c + 14 <= G ->
  pays c flt (gstd c l TCString) 2 (fun _ => G) G 4096.
Proof.
  intros Hh Ha Hg. cbn [gstd].
  assert (B : pays c flt (g_byte_buf c) 0 (fun bs => (G - 2) + (2 * lenN bs + 2)) ((G - 2) + 2) 4096).
  { apply pays_bank; [apply rich_buffer; [exact Hw|exact Hh|lia]|]. eapply adds_consumes; [apply adds_buf|].
    eapply consumes_weaken; [apply consumes_byte_buf; assumption|]. cbv beta. intros bs n Hn. change ser_bytes with ser_str in Hn. rewrite wsize_str in Hn.
    pose proof (enc_u64_some (lenN bs)). lia. }
  apply (pays_shift _ _ _ _ _ _ _ 2) in B.
  eapply pays_bind with (mid := fun bs => 2 * (lenN bs + 1) + G); [eapply pays_weaken; [exact B|lia|intros; cbv beta; lia|lia|lia]|].
  intros bs. destruct (existsb (N.eqb 0) bs); [apply pays_fail|].
  eapply pays_weaken; [apply pays_asks with (pre := G) (post := fun _ => G), pays_ret, N.le_refl| |intros; apply N.le_refl|apply N.le_refl|apply N.le_refl].
  specialize (Ha (lenN bs)). lia.
Qed.

Lemma quiet_octets n : quiet (octets_de n).
Proof.
  unfold octets_de. induction n as [|n IH]; cbn [repeat sequence]; [exact I|]. apply quiet_bind; [apply quiet_byte|]. intros a. apply quiet_bind; [exact IH|]. intros l. exact I.
Qed.
Lemma find_quiet {A} key (fs : list (string * prog A)) i p : Forall (fun f => quiet (snd f)) fs -> find_field key fs = Some (i, p) -> quiet p.
Proof.
  intros H. revert i. induction H as [|[n q] fs Hq _ IH]; intros i; cbn [find_field]; [discriminate|]. destruct (String.eqb key n); [intros E; injection E as _ <-; exact Hq|].
  destruct (find_field key fs) as [[j q']|]; [|discriminate]. intros E; injection E as _ ->. eapply IH; reflexivity.
Qed.
Lemma quiet_struct_loop {A} keys (fs : list (string * prog A)) : Forall (fun f => quiet (snd f)) fs -> forall slots, quiet (struct_loop keys fs slots).
Proof.
  intros H. induction keys as [|k keys IH]; intros slots; cbn [struct_loop]; [exact I|]. destruct (find_field k fs) as [[i p]|] eqn:E; [|exact I].
  destruct (nth_error slots i) as [[a|]|]; try exact I. apply quiet_bind; [eapply find_quiet; eassumption|]. intros a. apply IH.
Qed.
Lemma quiet_duration a b : quiet (duration_de a b).
Proof.
  apply quiet_bind.
  - apply quiet_bind; [|intros; apply quiet_fill_missing]. apply quiet_struct_loop. constructor; [apply quiet_u64|]. constructor; [apply quiet_u32|constructor].
  - intros [|x [|y [|? ?]]]; try exact I. destruct (_ <? _); exact I.
Qed.
Lemma proper_in {X} (f : X -> Prop) (l : list X) x : fold_right (fun x P => f x /\ P) True l -> In x l -> f x.
Proof. induction l as [|y l IH]; cbn [fold_right]; intros H []; [subst; tauto|apply IH; tauto]. Qed.

Lemma speak_pays l e es t : 4096 <= heap_limit c -> sound_slayout l e es -> proper t -> wf_dty (wire t) = true -> speak c l e es t <= G ->
  pays c flt (gstd c l t) (owed t) (fun _ => spare G (occupies (wire t))) G 4096.
Proof.
  intros Hh (Hm & Hz & Hset & Hset0 & Hcs).
  assert (Q : forall t, proper t -> wf_dty (wire t) = true -> occupies (wire t) = true -> quiet (std_de c t) -> pays c flt (std_de c t) 0 (fun _ => spare G (occupies (wire t))) G 4096).
  { intros u Hu1 Hu2 Hu3 Hu4. rewrite Hu3. apply rich_quiet; [exact Hu4|]. apply std_short; assumption. }
  assert (QO : forall n, quiet (octets_de n)) by exact quiet_octets.
  induction t as [d|d|t IH|t IH|cmp t IH|n t IH|ts IH|t IH|t IH|t IH|t u IH IHu| | | | | | | | | | | |t IH|fs IH|vs IH] using stdty_ind2;
    cbn [proper]; intros Hp Hwf Hg; cbn [speak] in Hg.
  - cbn [gstd owed wire]. apply pays_pmap. apply (peak_pays c flt G Hw (s_mem l) e); assumption.
  - cbn [gstd owed wire]. eapply pays_bind; [apply (peak_pays c flt G Hw (s_mem l) e); assumption|]. intros v. cbv beta. destruct (is_zero v); [apply pays_fail|apply pays_ret, N.le_refl].
  - cbn [gstd owed wire occupies]. apply pays_pmap. apply (rich_option c flt G _ (owed t) (occupies (wire t))); [lia|apply owed_none|]. apply IH; [exact Hp|exact Hwf|lia].
  - cbn [gstd owed wire occupies]. apply pays_pmap. assert (Hg' : speak c l e es t <= G) by lia. specialize (IH Hp Hwf Hg'). destruct (occupies (wire t)) eqn:E.
    + eapply rich_vec; [exact IH|lia].
    + rewrite (Hz t E). rewrite owed_none in IH by exact E. apply flat_vec, IH.
  - destruct Hp as [Hl Hp]. cbn [gstd owed wire occupies]. apply pays_pmap. assert (Hg' : speak c l e es t <= G) by lia. specialize (IH Hp Hwf Hg'). destruct (occupies (wire t)) eqn:E.
    + eapply rich_set; [apply Hset| |exact IH]. lia.
    + rewrite (Hz t E). rewrite owed_none in IH by exact E. apply flat_set; [apply Hset0|exact IH].
  - cbn [gstd owed]. apply pays_pmap. rewrite repeat_map.
    assert (Ea : added owed (repeat t n) = N.of_nat n * owed t).
    { clear. unfold added. induction n as [|n IHn]; [reflexivity|]. cbn [repeat fold_right]. rewrite IHn, Nat2N.inj_succ, N.mul_succ_l. lia. }
    assert (Eo : existsb (fun t => occupies (wire t)) (repeat t n) = occupies (wire (TArray n t))).
    { clear. cbn [wire occupies]. induction n as [|n IHn]; [reflexivity|]. cbn [repeat existsb]. rewrite IHn. reflexivity. }
    rewrite <- Ea, <- Eo. apply (rich_sequence c flt G (gstd c l) owed (fun t => occupies (wire t))). apply Forall_forall. intros x Hx. apply repeat_spec in Hx as Hx'. subst x.
    apply IH; [exact Hp| |exact Hg]. cbn [wire wf_dty] in Hwf. rewrite forallb_forall in Hwf. apply Hwf. rewrite repeat_map. apply in_map, Hx.
  - cbn [gstd owed wire occupies]. apply pays_pmap.
    assert (Eo : existsb occupies (map wire ts) = existsb (fun t => occupies (wire t)) ts).
    { clear. induction ts as [|t ts IH]; [reflexivity|]. cbn [map existsb]. rewrite IH. reflexivity. }
    rewrite Eo. apply (rich_sequence c flt G (gstd c l) owed (fun t => occupies (wire t))). cbn [wire wf_dty] in Hwf. rewrite forallb_forall in Hwf. rewrite Forall_forall in *. intros t Hin.
    apply (IH t Hin); [exact (proper_in proper ts t Hp Hin)|apply Hwf, in_map, Hin|]. pose proof (largest_in (speak c l e es) _ _ Hin). lia.
  - cbn [gstd owed wire occupies existsb]. cbn [wire wf_dty forallb] in Hwf. apply andb_prop in Hwf as [Hwf _]. rewrite orb_false_r, orb_diag. apply rich_range, IH; assumption.
  - cbn [gstd owed wire occupies existsb]. cbn [wire wf_dty forallb] in Hwf. apply andb_prop in Hwf as [Hwf _]. rewrite orb_false_r, orb_diag. apply rich_range, IH; assumption.
  - cbn [gstd owed wire occupies]. cbn [wire wf_dty] in Hwf. apply andb_prop in Hwf as [_ Hwf]. cbn [forallb snd] in Hwf.
    assert (Hwf' : wf_dty (wire t) = true) by (destruct (wf_dty (wire t)); [reflexivity|rewrite !andb_false_r in Hwf; discriminate]).
    assert (Hg' : speak c l e es t <= G) by lia. specialize (IH Hp Hwf' Hg').
    apply rich_std_enum. constructor; [exists 0, false; split; [lia|split; [reflexivity|apply pays_ret, N.le_refl]]|].
    constructor; [|constructor; [|constructor]]; exists (owed t), (occupies (wire t)); (split; [lia|split; [apply owed_none|apply pays_pmap, IH]]).
  - cbn [gstd owed wire occupies]. cbn [wire wf_dty] in Hwf. apply andb_prop in Hwf as [_ Hwf]. cbn [forallb snd] in Hwf.
    assert (Hwf' : wf_dty (wire t) = true) by (destruct (wf_dty (wire t)); [reflexivity|rewrite !andb_false_r in Hwf; discriminate]).
    assert (Hwfu : wf_dty (wire u) = true) by (destruct (wf_dty (wire u)); [reflexivity|rewrite !andb_false_r in Hwf; discriminate]).
    destruct Hp as [Hp Hpu]. assert (Hg' : speak c l e es t <= G) by lia. assert (Hgu : speak c l e es u <= G) by lia. specialize (IH Hp Hwf' Hg'). specialize (IHu Hpu Hwfu Hgu).
    apply rich_std_enum. constructor; [|constructor; [|constructor]].
    + exists (owed t), (occupies (wire t)). split; [lia|split; [apply owed_none|apply pays_pmap, IH]].
    + exists (owed u), (occupies (wire u)). split; [lia|split; [apply owed_none|apply pays_pmap, IHu]].
  - apply Q; [exact I|reflexivity|reflexivity|]. apply quiet_pmap, quiet_duration.
  - apply Q; [exact I|reflexivity|reflexivity|]. cbn [std_de]. apply quiet_bind; [apply quiet_duration|]. intros p. destruct (_ <? _); exact I.
  - cbn [owed wire occupies]. change (spare G true) with G. apply rich_cstring; assumption.
  - cbn [gstd owed wire occupies]. apply rich_std_enum. constructor; [exists 0, true|constructor; [exists 0, true|constructor]]; (split; [lia|split; [reflexivity|]]); [|apply pays_fail].
    apply pays_pmap. eapply rich_vec with (al := 0); [|lia]. apply rich_quiet; [apply quiet_byte|apply consumes_read; lia].
  - cbn [gstd owed wire occupies]. apply pays_pmap. eapply pays_weaken; [apply rich_string; [exact Hw|apply Hm|exact Hg]|lia|intros; apply N.le_refl|lia|lia].
  - apply Q; [exact I|reflexivity|reflexivity|]. apply quiet_pmap, QO.
  - apply Q; [exact I|reflexivity|reflexivity|]. apply quiet_pmap, QO.
  - apply Q; [exact I|reflexivity|reflexivity|]. apply quiet_bind; [apply quiet_u16|]. intros i. cbn [pickN]. destruct (i =? 0); [apply quiet_pmap, quiet_pmap, QO|]. destruct (i - 1 =? 0); [apply quiet_pmap, quiet_pmap, QO|exact I].
  - apply Q; [exact I|reflexivity|reflexivity|]. apply quiet_bind; [apply QO|]. intros x. apply quiet_bind; [apply quiet_u16|]. intros y. exact I.
  - apply Q; [exact I|reflexivity|reflexivity|]. apply quiet_bind; [apply QO|]. intros x. apply quiet_bind; [apply quiet_u16|]. intros y. exact I.
  - apply Q; [exact I|reflexivity|reflexivity|]. apply quiet_bind; [apply quiet_u16|]. intros i. cbn [pickN].
    destruct (i =? 0); [|destruct (i - 1 =? 0); [|exact I]]; (apply quiet_bind; [apply QO|]; intros x; apply quiet_bind; [apply quiet_u16|]; intros y; exact I).
  - cbn [gstd owed wire occupies]. apply pays_pmap.
    eapply pays_weaken; [eapply (rich_map c flt G Hw (s_mem l) e (s_size l t) _ (owed t)); [apply Hm|apply Hm|lia|lia|apply IH; [exact Hp|exact Hwf|lia]]|lia|intros; apply N.le_refl|lia|lia].
  - destruct Hp as [Hn Hp]. cbn [gstd owed wire occupies]. apply pays_pmap.
    assert (Eo : existsb (fun nf : string * dty => occupies (snd nf)) (map (fun nf => (fst nf, wire (snd nf))) fs) = existsb (fun nf => occupies (wire (snd nf))) fs).
    { clear. induction fs as [|t ts IH]; [reflexivity|]. cbn [map existsb snd]. rewrite IH. reflexivity. }
    rewrite Eo. apply (rich_struct c flt G (gstd c l) owed (fun t => occupies (wire t))); [exact Hn|].
    cbn [wire wf_dty] in Hwf. apply andb_prop in Hwf as [_ Hwf]. rewrite forallb_forall in Hwf. rewrite Forall_forall in *. intros nf Hin.
    apply (IH nf Hin); [exact (proper_in (fun nf => proper (snd nf)) fs nf Hp Hin)|exact (Hwf _ (in_map (fun nf => (fst nf, wire (snd nf))) _ _ Hin))|].
    pose proof (largest_in (fun nf => speak c l e es (snd nf)) _ _ Hin). cbv beta in *. lia.
  - cbn [gstd owed wire occupies]. cbn [wire wf_dty] in Hwf. apply andb_prop in Hwf as [_ Hwf]. rewrite forallb_forall in Hwf. rewrite Forall_forall in IH.
    apply (rich_user_enum (fun v i => pmap (XVariant (fst v) i) (gstd c l (snd v))) (fun v => owed (snd v)) (fun v => occupies (wire (snd v)))).
    apply Forall_forall. intros v Hin. pose proof (largest_in (fun v => N.max (owed (snd v)) (speak c l e es (snd v))) _ _ Hin) as M. cbv beta in M.
    split; [lia|]. split; [apply owed_none|]. intros i. apply pays_pmap.
    specialize (Hwf _ (in_map (fun v => (fst v, wire (snd v))) _ _ Hin)). cbn [fst snd] in Hwf. apply andb_prop in Hwf as [_ Hwf].
    apply (IH v Hin); [exact (proj2 (proper_in (fun v => payload (fst v) (snd v) /\ proper (snd v)) vs v Hp Hin))|exact Hwf|lia].
Qed.
End RichStd.

(** ** Theorems *)
Lemma std_asked c l e es t s : wf_cfg c -> 4096 <= heap_limit c -> sound_slayout l e es -> proper t -> wf_dty (wire t) = true -> bytes_ok s ->
  match run c (gstd c l t) s with
  | OOk v r => lenN r <= lenN s /\ total (allocs c (gstd c l t) s) <= owed t + speak c l e es t * (lenN s - lenN r)
  | _ => total (allocs c (gstd c l t) s) <= owed t + speak c l e es t * lenN s + 4096
  end.
Proof.
  intros Hw Hh Hl Hp Hd Hs. assert (H := speak_pays c (fun _ => true) (speak c l e es t) Hw l e es t Hh Hl Hp Hd (N.le_refl _) s Hs). rewrite cost_all in H.
  destruct (run c (gstd c l t) s); [destruct H; split|..]; lia.
Qed.
Lemma std_spare c l e es t s v r : wf_cfg c -> 4096 <= heap_limit c -> sound_slayout l e es -> proper t -> wf_dty (wire t) = true -> bytes_ok s ->
  occupies (wire t) = true -> run c (gstd c l t) s = OOk v r ->
  lenN r < lenN s /\ total (allocs c (gstd c l t) s) <= owed t + speak c l e es t * (lenN s - lenN r - 1).
Proof.
  intros Hw Hh Hl Hp Hd Hs Ho E. assert (H := speak_pays c (fun _ => true) (speak c l e es t) Hw l e es t Hh Hl Hp Hd (N.le_refl _) s Hs). rewrite cost_all, E in H.
  destruct H as [_ H]. rewrite Ho in H. cbn [spare] in H.
  destruct (adds_run c _ _ (gstd_adds c l t) s) as [E'|(n & x & _ & _ & E')]; [|rewrite E in E'; discriminate]. rewrite E in E'. symmetry in E'.
  destruct (std_short c t Hp Hd Ho s v r Hs E') as (n & H1 & H2). assert (L : lenN s - lenN r = n) by lia. rewrite L in H. rewrite L, N.mul_sub_distr_l. split; lia.
Qed.
Lemma std_enough c l e es t s : wf_cfg c -> 4096 <= heap_limit c -> sound_slayout l e es -> proper t -> wf_dty (wire t) = true -> bytes_ok s ->
  owed t + speak c l e es t * lenN s + 4096 <= heap_limit c -> heap_limit c <= isize_max c -> run c (gstd c l t) s = run c (std_de c t) s.
Proof.
  intros Hw Hh Hl Hp Hd Hs H1 H2. eapply fits_enough; [apply gstd_adds| |exact H1|exact H2].
  assert (H := std_asked c l e es t s Hw Hh Hl Hp Hd Hs). destruct (run c (gstd c l t) s) as [v r|y|y]; [|lia..]. destruct H as [_ H].
  assert (speak c l e es t * (lenN s - lenN r) <= speak c l e es t * lenN s) by (apply N.mul_le_mono_l; lia). lia.
Qed.
(** Members that ask for nothing: only those that the set keeps are paid for. *)
Lemma asks_done {A} c l (a : A) s x r : run c (asks l (Ret a)) s = OOk x r -> x = a /\ r = s /\ allocs c (asks l (Ret a)) s = l.
Proof.
  induction l as [|n l IH]; cbn [asks run allocs]; [intros E; injection E as <- <-; auto|]. destruct (alloc_result c n); [discriminate|].
  intros E. destruct (IH E) as (-> & -> & ->). auto.
Qed.
Lemma set_exact c l cmp t s m r : (forall i, allocs c (gstd c l t) i = []) -> run c (gstd c l (TSet cmp t)) s = OOk (XSeq m) r ->
  total (allocs c (gstd c l (TSet cmp t)) s) = set_total (s_set l (s_size l t)) (length m).
Proof.
  intros Hq. cbn [gstd]. rewrite run_pmap. unfold pmap at 1. rewrite allocs_bind. destruct (run c (g_set _ _ _ _) s) as [m' r'|e|q] eqn:E; cbn [obind]; try discriminate.
  intros E'. injection E' as -> ->. cbn [allocs]. rewrite app_nil_r. revert E. unfold g_set. rewrite run_bind, allocs_bind.
  destruct (run c (dec_u64 ERead) s) as [n r1|e|q] eqn:En; cbn [obind]; try discriminate. rewrite run_foldN, allocs_foldN, total_app.
  rewrite quiet_allocs by apply quiet_u64. cbn [total]. rewrite N.add_0_l. clear s En.
  set (ask := s_set l (s_size l t)). assert (K : forall k m0 s, run c (iter k (set_step ask cmp (gstd c l t)) m0) s = OOk m r ->
    set_total ask (length m0) + total (allocs c (iter k (set_step ask cmp (gstd c l t)) m0) s) = set_total ask (length m)).
  { induction k as [|k IH]; intros m0 s; cbn [iter].
    - cbn [run allocs total]. intros E. injection E as -> ->. lia.
    - rewrite run_bind, allocs_bind, total_app. unfold set_step at 1 3 4. rewrite run_bind, allocs_bind, Hq.
      destruct (run c (gstd c l t) s) as [v r2|e|q] eqn:Ev; cbn [obind]; try discriminate.
      destruct (run c (asks _ (Ret (set_insert cmp v m0))) r2) as [m1 r3|e|q] eqn:Ea; cbn [obind]; try discriminate.
      destruct (asks_done _ _ _ _ _ _ Ea) as (-> & -> & Eb). intros E. specialize (IH _ _ E). rewrite app_nil_l, Eb, <- IH, N.add_assoc. f_equal.
      destruct (N.eqb_spec (lenN (set_insert cmp v m0)) (lenN m0)) as [L|L].
      + apply Nat2N.inj in L. rewrite L. cbn [total]. lia.
      + destruct (insert_grows cmp v m0) as [L'|L']; [contradiction|]. assert (L2 : length (set_insert cmp v m0) = S (length m0)) by (unfold lenN in L'; lia).
        rewrite L2. reflexivity. }
  intros E. apply K in E. rewrite <- E. cbn [length set_total]. reflexivity.
Qed.
