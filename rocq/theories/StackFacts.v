(** * Proofs about Stack.v. *)
From Verif Require Import Base BaseFacts Serde SerdeFacts SerdeMore RecFacts Header HeaderFacts Body SpecBody BodyFacts Stack SpecStack.
Local Open Scope list_scope.
Local Open Scope N_scope.

(** ** Depth of lists *)
Lemma max_all {A} (f : A -> nat) d l :
  (fold_right (fun a n => Nat.max (f a) n) O l <= d)%nat -> Forall (fun a => (f a <= d)%nat) l.
Proof. induction l as [|a l IH]; cbn [fold_right]; intros H; constructor; [lia|apply IH; lia]. Qed.
Lemma all_max {A} (f : A -> nat) d l :
  Forall (fun a => (f a <= d)%nat) l -> (fold_right (fun a n => Nat.max (f a) n) O l <= d)%nat.
Proof. induction 1; cbn [fold_right]; lia. Qed.
Lemma list_max_fold {A} (f : A -> nat) l : list_max (map f l) = fold_right (fun a n => Nat.max (f a) n) O l.
Proof. induction l as [|a l IH]; [reflexivity|]. cbn [map fold_right list_max] in *. f_equal. exact IH. Qed.

Lemma levels_hdepth h : header_levels h = hdepth h.
Proof.
  apply (header_ind2 (fun h => header_levels h = hdepth h)); clear h.
  - intros h; destruct h; try exact I; reflexivity.
  - intros h IH; cbn [header_levels hdepth]; lia.
  - intros h IH; cbn [header_levels hdepth]; lia.
  - intros h IH; cbn [header_levels hdepth]; lia.
  - intros hs IH; cbn [header_levels hdepth]. rewrite list_max_fold. change (1 + ?x)%nat with (S x). f_equal.
    induction IH as [|h hs Hh _ IH]; cbn [fold_right]; lia.
  - intros hs IH; cbn [header_levels hdepth]. rewrite list_max_fold. change (1 + ?x)%nat with (S x). f_equal.
    induction IH as [|h hs Hh _ IH]; cbn [fold_right]; lia.
Qed.

(** ** [tracks c P p q]: p does what q does, or, only if P, overflows the stack. *)
Definition tracks {A} (c : cfg) (P : Prop) (p q : prog A) : Prop :=
  forall s, run c p s = run c q s \/ (P /\ run c p s = OPanic PStack).
Lemma tracks_refl {A} c P (p : prog A) : tracks c P p p.
Proof. intros s; left; reflexivity. Qed.
Lemma tracks_bind {A B} c P (p q : prog A) (f g : A -> prog B) :
  tracks c P p q -> (forall a, tracks c P (f a) (g a)) -> tracks c P (bind p f) (bind q g).
Proof.
  intros H Hf s. rewrite !run_bind. destruct (H s) as [->|[HP ->]]; [|right; auto].
  destruct (run c q s); cbn [obind]; [apply Hf|left; reflexivity..].
Qed.
Lemma tracks_pmap {A B} c P (f : A -> B) (p q : prog A) : tracks c P p q -> tracks c P (pmap f p) (pmap f q).
Proof. intros H. apply tracks_bind; [exact H|intros; apply tracks_refl]. Qed.
Lemma tracks_alloc {A} c P n (p q : prog A) : tracks c P p q -> tracks c P (Alloc n p) (Alloc n q).
Proof. intros H s. cbn [run]. destruct (alloc_result c n); [left; reflexivity|apply H]. Qed.
Lemma tracks_ext {A} c P (p p' q q' : prog A) : (forall s, run c p s = run c p' s) -> (forall s, run c q s = run c q' s) ->
  tracks c P p' q' -> tracks c P p q.
Proof. intros Hp Hq H s. rewrite Hp, Hq. apply H. Qed.
Lemma tracks_foldN {S} c P n (f g : S -> prog S) s : (forall s, tracks c P (f s) (g s)) -> tracks c P (foldN n f s) (foldN n g s).
Proof.
  intros H. eapply tracks_ext; [intros; apply run_foldN..|]. revert s; induction (N.to_nat n) as [|k IH]; intros s; cbn [iter]; [apply tracks_refl|].
  apply tracks_bind; [apply H|exact IH].
Qed.
Lemma tracks_repeatN {A} c P n (p q : prog A) : tracks c P p q -> tracks c P (repeatN n p) (repeatN n q).
Proof.
  intros H. apply tracks_bind; [|intros; apply tracks_refl]. apply tracks_foldN. intros s.
  apply tracks_bind; [exact H|intros; apply tracks_refl].
Qed.
Lemma tracks_sequence {A B} c P (f g : A -> prog B) l : Forall (fun a => tracks c P (f a) (g a)) l ->
  tracks c P (sequence (map f l)) (sequence (map g l)).
Proof.
  induction 1 as [|a l H _ IH]; cbn [map sequence]; [apply tracks_refl|].
  apply tracks_bind; [exact H|]. intros y. apply tracks_bind; [exact IH|intros; apply tracks_refl].
Qed.
Lemma tracks_call c P call h :
  match h with
  | HOptional h | HArray h | HMap h => tracks c P (call h) (bde c h)
  | HTuple hs | HEnum hs => Forall (fun h => tracks c P (call h) (bde c h)) hs
  | _ => True
  end -> tracks c P (bde_call c call h) (bde c h).
Proof.
  destruct h; intros H; cbn [bde_call]; try apply tracks_refl; cbn [bde].
  - apply tracks_pmap, tracks_bind; [apply tracks_refl|]. intros []; [apply tracks_pmap, H|apply tracks_refl].
  - apply tracks_bind; [apply tracks_refl|]. intros len. apply tracks_alloc, tracks_pmap, tracks_repeatN, H.
  - apply tracks_alloc, tracks_pmap, tracks_sequence, H.
  - apply tracks_bind; [apply tracks_refl|]. intros len. apply tracks_pmap, tracks_foldN. intros m.
    apply tracks_bind; [apply tracks_refl|]. intros k. apply tracks_bind; [exact H|intros; apply tracks_refl].
  - apply tracks_bind; [apply tracks_refl|]. intros i. rewrite pickN_map.
    destruct (pickN hs (as_usize c i)) as [h|] eqn:E; cbn [option_map]; [|apply tracks_refl].
    apply tracks_pmap. rewrite Forall_forall in H. apply H. apply pickN_some in E as [E _]; exact E.
Qed.
Lemma bde_d_any c d h : tracks c True (bde_d c d h) (bde c h).
Proof.
  revert h; induction d as [|d IH]; intros h; cbn [bde_d]; [intros s; right; split; [exact I|reflexivity]|].
  apply tracks_call. destruct h; try exact I; try apply IH; apply Forall_forall; intros; apply IH.
Qed.
Lemma bde_d_enough c d h : (header_levels h <= d)%nat -> tracks c False (bde_d c d h) (bde c h).
Proof.
  revert d. apply (header_ind2 (fun h => forall d, (header_levels h <= d)%nat -> tracks c False (bde_d c d h) (bde c h))); clear h.
  - intros h; destruct h; try exact I; intros [|d] Hd; cbn [header_levels] in Hd; try lia; cbn [bde_d bde_call]; apply tracks_refl.
  - intros h IH [|d] Hd; cbn [header_levels] in Hd; [lia|]. cbn [bde_d]. apply tracks_call, IH; lia.
  - intros h IH [|d] Hd; cbn [header_levels] in Hd; [lia|]. cbn [bde_d]. apply tracks_call, IH; lia.
  - intros h IH [|d] Hd; cbn [header_levels] in Hd; [lia|]. cbn [bde_d]. apply tracks_call, IH; lia.
  - intros hs IH [|d] Hd; cbn [header_levels] in Hd; [lia|]. cbn [bde_d]. apply tracks_call.
    assert (Hm := max_all header_levels d hs ltac:(lia)). rewrite Forall_forall in *. intros h Hin. apply IH, Hm; exact Hin.
  - intros hs IH [|d] Hd; cbn [header_levels] in Hd; [lia|]. cbn [bde_d]. apply tracks_call.
    assert (Hm := max_all header_levels d hs ltac:(lia)). rewrite Forall_forall in *. intros h Hin. apply IH, Hm; exact Hin.
Qed.
Lemma bde_d_enough_run c d h s : (header_levels h <= d)%nat -> run c (bde_d c d h) s = run c (bde c h) s.
Proof. intros H. destruct (bde_d_enough c d h H s) as [E|[[] _]]; exact E. Qed.
Lemma bde_d_any_run c d h s : run c (bde_d c d h) s = run c (bde c h) s \/ run c (bde_d c d h) s = OPanic PStack.
Proof. destruct (bde_d_any c d h s) as [E|[_ E]]; auto. Qed.

(** ** Depth of what is decoded *)
Lemma validate_levels h : forall b, validate h b = true -> (body_levels b <= header_levels h)%nat.
Proof.
  apply (header_ind2 (fun h => forall b, validate h b = true -> (body_levels b <= header_levels h)%nat)); clear h.
  - intros h; destruct h; try exact I; intros b Hb; destruct b; try discriminate; cbn [body_levels header_levels]; lia.
  - intros h IH b Hb; destruct b as [|[b|]| | | | | | | | | | | | | | | | | | | | | |]; try discriminate; cbn [body_levels header_levels]; [|lia].
    specialize (IH b Hb); lia.
  - intros h IH b Hb; destruct b; try discriminate. cbn [body_levels header_levels validate] in *.
    assert (fold_right (fun b n => Nat.max (body_levels b) n) O l <= header_levels h)%nat; [|lia].
    apply all_max, Forall_forall. intros b Hin. apply IH. rewrite forallb_forall in Hb. auto.
  - intros h IH b Hb; destruct b; try discriminate. cbn [body_levels header_levels validate] in *.
    assert (fold_right (fun kv n => Nat.max (body_levels (snd kv)) n) O m <= header_levels h)%nat; [|lia].
    apply (all_max (fun kv => body_levels (snd kv))), Forall_forall. intros b Hin. apply IH. rewrite forallb_forall in Hb. apply (Hb b Hin).
  - intros hs IH b Hb; destruct b as [| | | | | | | | | | | | | | | | | | |l| | | |]; try discriminate. cbn [body_levels header_levels validate] in *.
    apply andb_prop in Hb as [Hl Hb]. apply Nat.eqb_eq in Hl.
    enough (fold_right (fun b n => Nat.max (body_levels b) n) O l <= fold_right (fun h n => Nat.max (header_levels h) n) O hs)%nat by lia.
    revert l Hl Hb; induction IH as [|h hs Hh _ IHs]; intros [|b l] Hl Hb; cbn [length] in Hl; try discriminate; cbn [fold_right]; [lia|].
    cbn [map all2] in Hb. apply andb_prop in Hb as [Hb1 Hb2]. specialize (Hh b Hb1). specialize (IHs l ltac:(lia) Hb2). lia.
  - intros hs IH b Hb; destruct b; try discriminate. cbn [body_levels header_levels validate] in *. rewrite pickN_map in Hb.
    destruct (pickN hs i) as [h|] eqn:E; cbn [option_map] in Hb; [|discriminate]. apply pickN_some in E as [E _].
    rewrite Forall_forall in IH. specialize (IH h E b Hb).
    assert (Hm := max_all header_levels _ hs (le_n _)). rewrite Forall_forall in Hm. specialize (Hm h E). lia.
Qed.

Definition gives {A} (c : cfg) (p : prog A) (P : A -> Prop) : Prop := forall s a r, run c p s = OOk a r -> P a.
Lemma gives_bind {A B} c (p : prog A) (f : A -> prog B) P Q :
  gives c p P -> (forall a, P a -> gives c (f a) Q) -> gives c (bind p f) Q.
Proof. intros H Hf s b r E. apply run_bind_ok in E as (a & r' & E1 & E2). eapply Hf; [eapply H; exact E1|exact E2]. Qed.
Lemma gives_any {A} c (p : prog A) : gives c p (fun _ => True).
Proof. intros s a r _; exact I. Qed.
Lemma gives_ret {A} c (a : A) (P : A -> Prop) : P a -> gives c (Ret a) P.
Proof. intros H s b r E; cbn [run] in E; injection E as <- _; exact H. Qed.
Lemma gives_fail {A} c e (P : A -> Prop) : gives c (Fail e) P.
Proof. intros s b r E; discriminate. Qed.
Lemma gives_pmap {A B} c (f : A -> B) p (P : A -> Prop) (Q : B -> Prop) : gives c p P -> (forall a, P a -> Q (f a)) -> gives c (pmap f p) Q.
Proof. intros H Hf s b r E. apply run_pmap_ok in E as (a & E & ->). apply Hf. eapply H; exact E. Qed.
Lemma gives_alloc {A} c n (p : prog A) P : gives c p P -> gives c (Alloc n p) P.
Proof. intros H s b r E. cbn [run] in E. destruct (alloc_result c n); [discriminate|]. eapply H; exact E. Qed.
Lemma gives_foldN {S} c n (f : S -> prog S) s (P : S -> Prop) : P s -> (forall s, P s -> gives c (f s) P) -> gives c (foldN n f s) P.
Proof.
  intros H0 Hf i a r E. rewrite run_foldN in E. revert s i H0 E; induction (N.to_nat n) as [|k IH]; intros s i H0 E; cbn [iter] in E.
  - cbn [run] in E; injection E as <- _; exact H0.
  - apply run_bind_ok in E as (s' & r' & E1 & E2). eapply IH; [|exact E2]. eapply Hf; [exact H0|exact E1].
Qed.
Lemma gives_repeatN {A} c n (p : prog A) P : gives c p P -> gives c (repeatN n p) (Forall P).
Proof.
  intros H. eapply gives_bind with (P := Forall P).
  - apply gives_foldN; [constructor|]. intros acc Ha. eapply gives_bind; [exact H|]. intros a Hp. apply gives_ret. constructor; assumption.
  - intros acc Ha. apply gives_ret. apply Forall_rev, Ha.
Qed.
Lemma gives_sequence {A} c (ps : list (prog A)) P : Forall (fun p => gives c p P) ps -> gives c (sequence ps) (Forall P).
Proof.
  induction 1 as [|p ps H _ IH]; cbn [sequence]; [apply gives_ret; constructor|].
  eapply gives_bind; [exact H|]. intros a Ha. eapply gives_bind; [exact IH|]. intros l Hl. apply gives_ret. constructor; assumption.
Qed.
Lemma bde_d_levels c d h : gives c (bde_d c d h) (fun b => (body_levels b <= d)%nat).
Proof.
  revert h; induction d as [|d IH]; intros h; cbn [bde_d]; [intros s a r E; discriminate|].
  assert (Hleaf : match h with HOptional _ | HArray _ | HMap _ | HTuple _ | HEnum _ => True
    | _ => gives c (bde c h) (fun b => (body_levels b <= S d)%nat) end).
  { destruct h; try exact I; cbn [bde]; try (eapply gives_pmap; [apply gives_any|]; intros; cbn [body_levels]; lia).
    apply gives_ret. cbn [body_levels]; lia. }
  destruct h; cbn [bde_call]; try exact Hleaf; clear Hleaf.
  - eapply gives_pmap with (P := fun o => match o with Some b => (body_levels b <= d)%nat | None => True end).
    + eapply gives_bind; [apply gives_any|]. intros [] _; [|apply gives_ret, I]. eapply gives_pmap; [apply IH|]. intros a Ha; exact Ha.
    + intros [b|] Hb; cbn beta iota in Hb; cbn [body_levels]; lia.
  - eapply gives_bind; [apply gives_any|]. intros len _. apply gives_alloc.
    eapply gives_pmap; [apply gives_repeatN, IH|]. intros l Hl. cbn [body_levels]. apply (all_max body_levels) in Hl. lia.
  - apply gives_alloc. eapply gives_pmap; [apply gives_sequence; rewrite Forall_map; apply Forall_forall; intros; apply IH|].
    intros l Hl. cbn [body_levels]. apply (all_max body_levels) in Hl. lia.
  - eapply gives_bind; [apply gives_any|]. intros len _.
    eapply gives_pmap with (P := Forall (fun kv => True /\ (body_levels (snd kv) <= d)%nat)).
    + apply gives_foldN; [constructor|]. intros m Hm. eapply gives_bind; [apply gives_any|]. intros k _.
      eapply gives_bind; [apply IH|]. intros v Hv. apply gives_ret.
      apply (map_insert_keys (fun _ => True) (fun v => (body_levels v <= d)%nat)); [exact I|exact Hv|exact Hm].
    + intros m Hm. cbn [body_levels].
      assert (Hm' : Forall (fun kv : list N * body => (body_levels (snd kv) <= d)%nat) m) by (eapply Forall_impl; [|exact Hm]; cbn; tauto).
      apply (all_max (fun kv => body_levels (snd kv))) in Hm'. lia.
  - eapply gives_bind; [apply gives_any|]. intros i _. destruct (pickN hs (as_usize c i)) as [h|]; [|apply gives_fail].
    eapply gives_pmap; [apply IH|]. intros b Hb; cbv beta in Hb; cbn [body_levels]; lia.
Qed.
Lemma bde_d_decoded c d h s b r : run c (bde_d c d h) s = OOk b r -> run c (bde c h) s = OOk b r /\ (body_levels b <= d)%nat.
Proof.
  intros E. split; [|eapply bde_d_levels; exact E]. destruct (bde_d_any_run c d h s) as [E'|E']; congruence.
Qed.

(** ** A header cut below depth d: what is cut off is replaced by an enum without variants. *)
Fixpoint trim (d : nat) (h : header) : header :=
  match d with
  | O => HEnum []
  | S d =>
    match h with
    | HOptional h => HOptional (trim d h)
    | HArray h => HArray (trim d h)
    | HMap h => HMap (trim d h)
    | HTuple hs => HTuple (map (trim d) hs)
    | HEnum hs => HEnum (map (trim d) hs)
    | h => h
    end
  end.
Lemma shadow_alloc {A} c b n (p q : prog A) : shadow c b p q -> shadow c b (Alloc n p) (Alloc n q).
Proof. intros H s. cbn [run]. destruct (alloc_result c n); [left; reflexivity|apply H]. Qed.
Lemma shadow_sequence2 {A B C} c b (f : A -> prog C) (g : B -> prog C) (l : list A) (m : list B) :
  Forall2 (fun x y => shadow c b (f x) (g y)) l m -> shadow c b (sequence (map f l)) (sequence (map g m)).
Proof.
  induction 1 as [|x y l m H _ IH]; cbn [map sequence]; [apply shadow_refl|].
  apply shadow_bind; [exact H|]. intros a. apply shadow_bind; [exact IH|intros; apply shadow_refl].
Qed.
Lemma shadow_trim c d h : shadow c true (bde_d c d h) (bde c (trim d h)).
Proof.
  revert h; induction d as [|d IH]; intros h.
  - cbn [bde_d trim]. apply shadow_stack. intros _ s a r E. cbn [bde map] in E. apply run_bind_ok in E as (i & r' & _ & E). discriminate.
  - cbn [bde_d trim]. destruct h; cbn [bde_call]; try apply shadow_refl; cbn [bde].
    + apply shadow_pmap, shadow_bind; [apply shadow_refl|]. intros []; [apply shadow_pmap, IH|apply shadow_refl].
    + apply shadow_bind; [apply shadow_refl|]. intros len. apply shadow_alloc, shadow_pmap, shadow_repeatN, IH.
    + replace (lenN (map (trim d) hs)) with (lenN hs) by (unfold lenN; rewrite map_length; reflexivity).
      apply shadow_alloc, shadow_pmap, shadow_sequence2. induction hs; constructor; [apply IH|assumption].
    + apply shadow_bind; [apply shadow_refl|]. intros len. apply shadow_pmap, shadow_foldN. intros m.
      apply shadow_bind; [apply shadow_refl|]. intros k. apply shadow_bind; [apply IH|intros; apply shadow_refl].
    + apply shadow_bind; [apply shadow_refl|]. intros i. rewrite map_map, pickN_map.
      destruct (pickN hs (as_usize c i)) as [h|]; cbn [option_map]; [apply shadow_pmap, IH|apply shadow_refl].
Qed.
Lemma validate_trim d : forall h b, validate h b = true -> (body_levels b <= d)%nat -> validate (trim d h) b = true.
Proof.
  induction d as [|d IH]; intros h b Hv Hd; [destruct b as [|[b|]| | | | | | | | | | | | | | | | | | | | | |]; cbn [body_levels] in Hd; lia|].
  destruct h; cbn [trim]; try exact Hv; destruct b as [|[b|]| | | | | | | | | | | | | | | | |l|l|m|i b| | ]; try discriminate Hv;
    try (cbn [validate]; reflexivity); cbn [body_levels] in Hd.
  - cbn [validate] in *. apply IH; [exact Hv|lia].
  - assert (Hm := max_all body_levels d l ltac:(lia)). rewrite Forall_forall in Hm.
    cbn [validate] in *. rewrite forallb_forall in *. intros b Hb. apply IH; auto.
  - assert (Hm := max_all body_levels d l ltac:(lia)).
    apply (proj2 (all2_Forall2 (map (trim d) hs) l)). apply (proj1 (all2_Forall2 hs l)) in Hv. clear Hd.
    induction Hv as [|h b hs l H Hv IHv]; cbn [map]; constructor; inversion Hm; subst; [apply IH; assumption|apply IHv; assumption].
  - assert (Hm := max_all (fun kv => body_levels (snd kv)) d m ltac:(lia)). rewrite Forall_forall in Hm.
    cbn [validate] in *. rewrite forallb_forall in *. intros b Hb. apply IH; auto.
  - cbn [validate] in *. rewrite map_map, pickN_map. rewrite pickN_map in Hv.
    destruct (pickN hs i) as [h|]; cbn [option_map] in *; [|discriminate]. apply IH; [exact Hv|lia].
Qed.
Lemma bde_d_roundtrip c d h b rest : wf_cfg c -> 4096 <= heap_limit c -> validate h b = true -> body_ok c b = true -> body_fits c b = true ->
  run c (bde_d c d h) (wbytes (bser c b) ++ rest) = if (body_levels b <=? d)%nat then OOk b rest else OPanic PStack.
Proof.
  intros Hw Hh Hv Ho Hf. destruct (Nat.leb_spec (body_levels b) d) as [Hd|Hd].
  - destruct (body_roundtrip c (trim d h) b Hw Hh (validate_trim d h b Hv Hd) Ho Hf) as [_ [Hp _]].
    destruct (shadow_trim c d h (wbytes (bser c b) ++ rest)) as [E|[_ E]]; [rewrite E; apply Hp|].
    destruct (E eq_refl b rest). apply Hp.
  - destruct (body_roundtrip c h b Hw Hh Hv Ho Hf) as [_ [Hp _]].
    destruct (bde_d_any_run c d h (wbytes (bser c b) ++ rest)) as [E|E]; [|exact E].
    rewrite Hp in E. apply bde_d_decoded in E as [_ E]. lia.
Qed.

(** ** Writing *)
Definition torn (a b : wprog) : Prop := wresult a = WePanic PStack /\ exists t, wbytes b = wbytes a ++ t.
Lemma wbytes_wseq_app a b : exists t, wbytes (wseq a b) = wbytes a ++ t.
Proof.
  induction a as [|e|p|bs k [t IH]]; cbn [wseq wbytes]; [exists (wbytes b); reflexivity|exists []; reflexivity|exists []; reflexivity|].
  exists t. rewrite IH, app_assoc; reflexivity.
Qed.
Lemma wbytes_wseq_stop a b p : wresult a = WePanic p -> wseq a b = a.
Proof. induction a as [|e|q|bs k IH]; cbn [wseq wresult]; intros H; try discriminate; [reflexivity|]. rewrite IH by exact H. reflexivity. Qed.
Lemma torn_here a b x y : torn a b -> torn (wseq a x) (wseq b y).
Proof.
  intros [H [t E]]. rewrite (wbytes_wseq_stop a x PStack H). split; [exact H|].
  destruct (wbytes_wseq_app b y) as [t' E']. exists (t ++ t'). rewrite E', E, app_assoc. reflexivity.
Qed.
Lemma torn_later a x y : wresult a = WeOk -> torn x y -> torn (wseq a x) (wseq a y).
Proof.
  intros Ha [H [t E]]. split; [rewrite wresult_wseq, Ha; exact H|]. exists t. rewrite !wbytes_wseq_done, E, app_assoc by exact Ha. reflexivity.
Qed.
Lemma wseq_ok a b : wresult (wseq a b) = WeOk -> wresult a = WeOk /\ wresult b = WeOk.
Proof. rewrite wresult_wseq. destruct (wresult a); intros H; try discriminate; auto. Qed.
Lemma torn_list {A} (f g : A -> wprog) (lv : A -> nat) d l :
  Forall (fun a => ((lv a <= d)%nat -> f a = g a) /\ ((d < lv a)%nat -> wresult (g a) = WeOk -> torn (f a) (g a))) l ->
  (d < fold_right (fun a n => Nat.max (lv a) n) O l)%nat -> wresult (wconcat (map g l)) = WeOk ->
  torn (wconcat (map f l)) (wconcat (map g l)).
Proof.
  induction 1 as [|a l [H1 H2] _ IH]; cbn [fold_right map wconcat]; intros Hd Hw; [lia|].
  apply wseq_ok in Hw as [Ha Hl]. destruct (Nat.leb_spec (lv a) d) as [Hle|Hlt].
  - rewrite H1 by exact Hle. apply torn_later; [exact Ha|]. apply IH; [lia|exact Hl].
  - apply torn_here, H2; assumption.
Qed.
Lemma map_same {A B} (f g : A -> B) (lv : A -> nat) d l :
  Forall (fun a => (lv a <= d)%nat -> f a = g a) l -> (fold_right (fun a n => Nat.max (lv a) n) O l <= d)%nat -> map f l = map g l.
Proof. induction 1 as [|a l H _ IH]; cbn [fold_right map]; intros Hd; [reflexivity|]. rewrite H, IH by lia. reflexivity. Qed.

Lemma body_sval_enough c b : forall d, (body_levels b <= d)%nat -> body_sval_d c d b = body_sval c b.
Proof.
  apply (body_ind2 (fun b => forall d, (body_levels b <= d)%nat -> body_sval_d c d b = body_sval c b)); clear b.
  - intros b. assert (H : (body_levels b = 1)%nat -> body_sval_call c (body_sval_d c 0) b = body_sval c b ->
      (forall d, body_sval_call c (body_sval_d c d) b = body_sval c b) -> forall d, (body_levels b <= d)%nat -> body_sval_d c d b = body_sval c b).
    { intros H1 _ H2 [|d] Hd; [lia|apply H2]. }
    destruct b as [|[b|]| | | | | | | | | | | | | | | | | | | | | |]; try exact I; apply H; reflexivity.
  - intros b IH [|d] Hd; cbn [body_levels] in Hd; [lia|]. cbn [body_sval_d body_sval_call body_sval]. rewrite IH by lia. reflexivity.
  - intros l IH [|d] Hd; cbn [body_levels] in Hd; [lia|]. cbn [body_sval_d body_sval_call body_sval]. f_equal.
    apply (map_same _ _ body_levels d); [|lia]. eapply Forall_impl; [|exact IH]. auto.
  - intros l IH [|d] Hd; cbn [body_levels] in Hd; [lia|]. cbn [body_sval_d body_sval_call body_sval]. f_equal.
    apply (map_same _ _ body_levels d); [|lia]. eapply Forall_impl; [|exact IH]. auto.
  - intros m IH [|d] Hd; cbn [body_levels] in Hd; [lia|]. cbn [body_sval_d body_sval_call body_sval]. f_equal.
    apply (map_same _ _ (fun kv => body_levels (snd kv)) d); [|lia]. eapply Forall_impl; [|exact IH]. intros kv H Hl. cbv beta in H. rewrite H by exact Hl. reflexivity.
  - intros i b IH [|d] Hd; cbn [body_levels] in Hd; [lia|]. cbn [body_sval_d body_sval_call body_sval]. rewrite IH by lia. reflexivity.
Qed.
Lemma torn_stack c b : torn (bser_d c 0 b) (bser c b).
Proof. split; [reflexivity|]. exists (wbytes (bser c b)). reflexivity. Qed.
Lemma bser_torn c b : forall d, (d < body_levels b)%nat -> wresult (bser c b) = WeOk -> torn (bser_d c d b) (bser c b).
Proof.
  apply (body_ind2 (fun b => forall d, (d < body_levels b)%nat -> wresult (bser c b) = WeOk -> torn (bser_d c d b) (bser c b))); clear b.
  - intros b. assert (H : (body_levels b = 1)%nat -> forall d, (d < body_levels b)%nat -> wresult (bser c b) = WeOk -> torn (bser_d c d b) (bser c b)).
    { intros H1 [|d] Hd _; [apply torn_stack|lia]. }
    destruct b as [|[b|]| | | | | | | | | | | | | | | | | | | | | |]; try exact I; apply H; reflexivity.
  - intros b IH [|d] Hd Hw; cbn [body_levels] in Hd; [apply torn_stack|].
    unfold bser, bser_d in *. cbn [body_sval_d body_sval_call body_sval ser] in *. apply wseq_ok in Hw as [H1 H2].
    apply torn_later; [exact H1|]. apply IH; [lia|exact H2].
  - intros l IH [|d] Hd Hw; cbn [body_levels] in Hd; [apply torn_stack|].
    unfold bser, bser_d in *. cbn [body_sval_d body_sval_call body_sval ser] in *. apply wseq_ok in Hw as [H1 H2].
    apply torn_later; [exact H1|]. rewrite !map_map in *. apply (torn_list _ _ body_levels d); [|lia|exact H2].
    eapply Forall_impl; [|exact IH]. intros b Hb; cbv beta in Hb. split; [intros Hl; rewrite body_sval_enough by exact Hl; reflexivity|apply Hb].
  - intros l IH [|d] Hd Hw; cbn [body_levels] in Hd; [apply torn_stack|].
    unfold bser, bser_d in *. cbn [body_sval_d body_sval_call body_sval ser] in *.
    rewrite !map_map in *. apply (torn_list _ _ body_levels d); [|lia|exact Hw].
    eapply Forall_impl; [|exact IH]. intros b Hb; cbv beta in Hb. split; [intros Hl; rewrite body_sval_enough by exact Hl; reflexivity|apply Hb].
  - intros m IH [|d] Hd Hw; cbn [body_levels] in Hd; [apply torn_stack|].
    unfold bser, bser_d in *. cbn [body_sval_d body_sval_call body_sval ser] in *. apply wseq_ok in Hw as [H1 H2].
    apply torn_later; [exact H1|]. rewrite !map_map in *. cbn [fst snd] in *.
    apply (torn_list (fun kv => wseq (ser_key (SStr (fst kv))) (ser (body_sval_d c d (snd kv))))
      (fun kv => wseq (ser_key (SStr (fst kv))) (ser (body_sval c (snd kv)))) (fun kv => body_levels (snd kv)) d); [|lia|exact H2].
    eapply Forall_impl; [|exact IH]. intros kv Hb; cbv beta in Hb.
    split; [intros Hl; rewrite body_sval_enough by exact Hl; reflexivity|].
    intros Hl Hok. apply wseq_ok in Hok as [K1 K2]. apply torn_later; [exact K1|]. apply Hb; assumption.
  - intros i b IH [|d] Hd Hw; cbn [body_levels] in Hd; [apply torn_stack|].
    unfold bser, bser_d in *. cbn [body_sval_d body_sval_call body_sval ser] in *. apply wseq_ok in Hw as [H1 H2].
    apply torn_later; [exact H1|]. apply IH; [lia|exact H2].
Qed.
Lemma bser_enough c d b : (body_levels b <= d)%nat -> bser_d c d b = bser c b.
Proof. intros H. unfold bser_d, bser. rewrite body_sval_enough by exact H. reflexivity. Qed.

Lemma hser_enough h : forall d, (header_levels h <= d)%nat -> hser_d d h = hser h.
Proof.
  apply (header_ind2 (fun h => forall d, (header_levels h <= d)%nat -> hser_d d h = hser h)); clear h.
  - intros h; destruct h; try exact I; intros [|d] Hd; cbn [header_levels] in Hd; try lia; reflexivity.
  - intros h IH [|d] Hd; cbn [header_levels] in Hd; [lia|]. cbn [hser_d hser]. rewrite IH by lia. reflexivity.
  - intros h IH [|d] Hd; cbn [header_levels] in Hd; [lia|]. cbn [hser_d hser]. rewrite IH by lia. reflexivity.
  - intros h IH [|d] Hd; cbn [header_levels] in Hd; [lia|]. cbn [hser_d hser]. rewrite IH by lia. reflexivity.
  - intros hs IH [|d] Hd; cbn [header_levels] in Hd; [lia|]. cbn [hser_d hser]. do 2 f_equal. f_equal.
    apply (map_same _ _ header_levels d); [|lia]. eapply Forall_impl; [|exact IH]. auto.
  - intros hs IH [|d] Hd; cbn [header_levels] in Hd; [lia|]. cbn [hser_d hser]. do 2 f_equal. f_equal.
    apply (map_same _ _ header_levels d); [|lia]. eapply Forall_impl; [|exact IH]. auto.
Qed.
Lemma hser_torn h : forall d, (d < header_levels h)%nat -> torn (hser_d d h) (hser h).
Proof.
  assert (H0 : forall h, torn (hser_d 0 h) (hser h)) by (intros x; split; [reflexivity|exists (wbytes (hser x)); reflexivity]).
  apply (header_ind2 (fun h => forall d, (d < header_levels h)%nat -> torn (hser_d d h) (hser h))); clear h.
  - intros h. assert (H : (header_levels h = 1)%nat -> forall d, (d < header_levels h)%nat -> torn (hser_d d h) (hser h)).
    { intros H1 [|d] Hd; [apply H0|lia]. }
    destruct h; try exact I; apply H; reflexivity.
  - intros h IH [|d] Hd; cbn [header_levels] in Hd; [apply H0|]. cbn [hser_d hser]. apply torn_later; [reflexivity|]. apply IH; lia.
  - intros h IH [|d] Hd; cbn [header_levels] in Hd; [apply H0|]. cbn [hser_d hser]. apply torn_later; [reflexivity|]. apply IH; lia.
  - intros h IH [|d] Hd; cbn [header_levels] in Hd; [apply H0|]. cbn [hser_d hser]. apply torn_later; [reflexivity|]. apply IH; lia.
  - intros hs IH [|d] Hd; cbn [header_levels] in Hd; [apply H0|]. cbn [hser_d hser]. apply torn_later; [reflexivity|]. apply torn_later; [reflexivity|].
    apply (torn_list _ _ header_levels d); [|lia|apply wresult_wconcat; rewrite Forall_map; apply Forall_forall; intros; apply hser_wire].
    eapply Forall_impl; [|exact IH]. intros h Hh; cbv beta in Hh. split; [intros; apply hser_enough; assumption|auto].
  - intros hs IH [|d] Hd; cbn [header_levels] in Hd; [apply H0|]. cbn [hser_d hser]. apply torn_later; [reflexivity|]. apply torn_later; [reflexivity|].
    apply (torn_list _ _ header_levels d); [|lia|apply wresult_wconcat; rewrite Forall_map; apply Forall_forall; intros; apply hser_wire].
    eapply Forall_impl; [|exact IH]. intros h Hh; cbv beta in Hh. split; [intros; apply hser_enough; assumption|auto].
Qed.

(** ** Validation *)
Lemma all_d_some {A} (f : A -> option bool) (g : A -> bool) l x :
  (forall a x, In a l -> f a = Some x -> x = g a) -> all_d f l = Some x -> x = forallb g l.
Proof.
  induction l as [|a l IH]; cbn [all_d forallb]; intros H E; [injection E as <-; reflexivity|].
  destruct (f a) as [[]|] eqn:Ea; [|injection E as <-|discriminate].
  - rewrite <- (H a true (or_introl eq_refl) Ea). cbn [andb]. apply IH; [|exact E]. intros; eapply H; [right|]; eassumption.
  - rewrite <- (H a false (or_introl eq_refl) Ea). reflexivity.
Qed.
Lemma all_d_total {A} (f : A -> option bool) l : Forall (fun a => f a <> None) l -> all_d f l <> None.
Proof. induction 1 as [|a l H _ IH]; cbn [all_d]; [discriminate|]. destruct (f a) as [[]|]; [exact IH|discriminate|exact H]. Qed.
Lemma validate_d_some d : forall h b x, validate_d d h b = Some x -> x = validate h b.
Proof.
  induction d as [|d IH]; intros h b x E; [discriminate|].
  destruct h; destruct b as [|[b|]| | | | | | | | | | | | | | | | |l|l|m|i b| | ]; cbn [validate_d] in E;
    try (injection E as <-; reflexivity); cbn [validate].
  - apply IH, E.
  - eapply all_d_some; [|exact E]. intros; eapply IH; eassumption.
  - destruct (length hs =? length l)%nat eqn:El; [|injection E as <-; reflexivity]. cbn [andb].
    apply (all_d_some _ (fun hb => validate (fst hb) (snd hb))) in E; [|intros; eapply IH; eassumption]. subst x.
    clear El. revert l; induction hs as [|h hs IHs]; intros [|b l]; cbn [combine forallb map all2 fst snd]; try reflexivity. f_equal. apply IHs.
  - eapply (all_d_some _ (fun kv => validate h (snd kv))); [|exact E]. intros; eapply IH; eassumption.
  - rewrite pickN_map. destruct (pickN hs i) as [h|]; cbn [option_map]; [apply IH, E|injection E as <-; reflexivity].
Qed.
Lemma all_d_true {A} (f : A -> option bool) l : all_d f l = Some true -> Forall (fun a => f a = Some true) l.
Proof.
  induction l as [|a l IH]; intros E; [constructor|]. cbn [all_d] in E. destruct (f a) as [[]|] eqn:Ea; try discriminate. constructor; auto.
Qed.
Lemma validate_d_true d : forall h b, validate_d d h b = Some true -> (body_levels b <= d)%nat.
Proof.
  induction d as [|d IH]; intros h b E; [discriminate|].
  assert (M : forall X (f : X -> nat) l, Forall (fun x => f x <= d)%nat l -> (fold_right (fun x n => Nat.max (f x) n) O l <= d)%nat).
  { intros X f l H. induction H as [|x l Hx _ IHl]; cbn [fold_right]; lia. }
  destruct h; destruct b as [|[b|]| | | | | | | | | | | | | | | | |l|l|m|i b| | ]; cbn [validate_d validate] in E; try discriminate;
    cbn [body_levels]; try lia.
  - apply IH in E. lia.
  - apply all_d_true in E. apply le_n_S, M. rewrite Forall_forall in *. intros b Hb. eapply IH, E, Hb.
  - destruct (length hs =? length l)%nat eqn:El; [|discriminate]. apply all_d_true in E. apply Nat.eqb_eq in El. apply le_n_S, M.
    revert l El E; induction hs as [|h hs IHs]; intros [|b l] El E; try discriminate; constructor.
    + inversion E as [|? ? E1 _]; subst. eapply IH, E1.
    + inversion E; subst. apply IHs; [injection El as El; exact El|assumption].
  - apply all_d_true in E. apply le_n_S, (M _ (fun kv => body_levels (snd kv))). rewrite Forall_forall in *. intros b Hb. eapply IH, E, Hb.
  - destruct (pickN hs i) as [h|]; [|discriminate]. apply IH in E. lia.
Qed.
Lemma validate_d_total d : forall h b, (Nat.min (header_levels h) (body_levels b) <= d)%nat -> validate_d d h b <> None.
Proof.
  induction d as [|d IH]; intros h b Hd.
  { exfalso. assert (1 <= header_levels h)%nat by (destruct h; cbn [header_levels]; lia).
    assert (1 <= body_levels b)%nat by (destruct b as [|[b|]| | | | | | | | | | | | | | | | | | | | | |]; cbn [body_levels]; lia). lia. }
  destruct h; destruct b as [|[b|]| | | | | | | | | | | | | | | | |l|l|m|i b| | ]; cbn [validate_d]; try discriminate;
    cbn [header_levels body_levels] in Hd.
  - apply IH. lia.
  - apply all_d_total, Forall_forall. intros b Hb. apply IH.
    assert (Hm := max_all body_levels _ l (le_n _)). rewrite Forall_forall in Hm. specialize (Hm b Hb). lia.
  - destruct (length hs =? length l)%nat; [|discriminate]. apply all_d_total, Forall_forall. intros [h b] Hb. cbn [fst snd]. apply IH.
    assert (Hm := max_all body_levels _ l (le_n _)). rewrite Forall_forall in Hm. specialize (Hm b (in_combine_r _ _ _ _ Hb)).
    assert (Hn := max_all header_levels _ hs (le_n _)). rewrite Forall_forall in Hn. specialize (Hn h (in_combine_l _ _ _ _ Hb)). lia.
  - apply all_d_total, Forall_forall. intros b Hb. apply IH.
    assert (Hm := max_all (fun kv => body_levels (snd kv)) _ m (le_n _)). rewrite Forall_forall in Hm. specialize (Hm b Hb). cbv beta in Hm. lia.
  - destruct (pickN hs i) as [h|] eqn:E; [|discriminate]. apply IH. apply pickN_some in E as [E _].
    assert (Hn := max_all header_levels _ hs (le_n _)). rewrite Forall_forall in Hn. specialize (Hn h E). lia.
Qed.
