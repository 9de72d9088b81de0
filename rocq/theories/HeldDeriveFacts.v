(** * Memory asked for by derived types: no less than what is held. *)
From Coq Require Import String.
From Verif Require Import HeaderFacts SerdeFacts.
From Verif Require Import Base BaseFacts Varint Utf8 Serde Typing SpecDty SpecRequest SpecHeap HeapFacts Consume Big Time
  Derive SpecDerive DeriveFacts DeriveDe SpecDeriveDe DeriveDeFacts Grow SpecGrow GrowFacts HeldFacts GrowDerive SpecGrowDerive.
Local Open Scope list_scope.
Local Open Scope N_scope.

Section Held.
Context (c : cfg) (l : rlayout) (dflt : rty -> rval).
Hypothesis (Ht : holds_text (r_tree l)) (Hh : holds_text (r_hash l)).

Lemma leaf_held k : asked c (gleaf c l k) (fun v n => rheld l (RLeaf k) v <= n).
Proof.
  destruct k; cbn [gleaf rheld]; try (eapply asked_weaken; [apply asked_any|]; cbv beta; intros; apply N.le_0_l).
  all: try (apply asked_pmap; eapply asked_weaken; [apply (asked_vec c 1 de_u8 (fun _ => 0)); eapply asked_weaken; [apply asked_any|intros; apply N.le_0_l]|]; cbv beta; intros; lia).
  - apply asked_pmap. eapply asked_bind; [apply (asked_vec c 1 de_u8 (fun _ => 0)); eapply asked_weaken; [apply asked_any|intros; apply N.le_0_l]|].
    cbv beta. intros [|x bs] k H; [apply asked_ret, N.le_0_l|]. eapply asked_bind; [apply asked_any|]. intros z t _. apply asked_ret. cbn [fst snd]. lia.
  - apply asked_pmap. apply asked_string, Ht.
  - apply asked_pmap. apply asked_buf.
Qed.

(** Fields with what their values hold. *)
Definition weighed (g : dfield * (rval -> N)) : Prop :=
  (if serde_skips_de (df_attrs (fst g)) then forall v, snd g v = 0 else asked c (df_read (fst g)) (fun v n => snd g v <= n)) /\
  forall v, df_miss (fst g) = Some v -> snd g v = 0.
Definition keptg (gs : list (dfield * (rval -> N))) := filter (fun g => negb (serde_skips_de (df_attrs (fst g)))) gs.
Lemma kept_g gs : kept (map fst gs) = map fst (keptg gs).
Proof. unfold kept, keptg. induction gs as [|g gs IH]; [reflexivity|]. cbn [map filter]. destruct (negb _); cbn [map]; rewrite IH; reflexivity. Qed.
Lemma seq_held gs : Forall weighed gs -> asked c (seq_fields (map fst gs)) (fun vs n => all_of (map snd gs) vs <= n).
Proof.
  induction 1 as [|g gs [Hg _] _ IH]; cbn [map seq_fields]; [apply asked_ret, N.le_refl|]. destruct (serde_skips_de _).
  - eapply asked_bind; [exact IH|]. cbv beta. intros vs n H. apply asked_ret. cbn [all_of]. rewrite Hg. lia.
  - eapply asked_bind; [exact Hg|]. cbv beta. intros v n Hv. eapply asked_bind; [exact IH|]. cbv beta. intros vs n' H. apply asked_ret. cbn [all_of]. lia.
Qed.
Lemma fill_held gs : Forall weighed gs -> forall slots,
  asked c (fill_fields (map fst gs) slots) (fun vs _ => all_of (map snd gs) vs <= slots_of (map snd (keptg gs)) slots).
Proof.
  unfold keptg. induction 1 as [|g gs [Hg Hm] _ IH]; intros slots; cbn [map fill_fields filter]; [apply asked_ret, N.le_0_l|].
  destruct (serde_skips_de _); cbn [negb].
  - eapply asked_bind; [apply IH|]. cbv beta. intros vs n H. apply asked_ret. cbn [all_of]. rewrite Hg. lia.
  - destruct slots as [|[v|] slots]; [apply asked_fail| |destruct (df_miss (fst g)) as [v|]; [|apply asked_fail]].
    + eapply asked_bind; [apply IH|]. cbv beta. intros vs n H. apply asked_ret. cbn [map all_of slots_of]. lia.
    + eapply asked_bind; [apply IH|]. cbv beta. intros vs n H. apply asked_ret. cbn [map all_of slots_of]. rewrite (Hm v eq_refl). lia.
Qed.
Lemma members_held k gs : Forall weighed gs -> asked c (members_de k (map fst gs)) (fun vs n => all_of (map snd gs) vs <= n).
Proof.
  intros H. destruct k; cbn [members_de].
  - unfold map_fields. rewrite kept_g.
    eapply asked_bind with (R := fun slots n => slots_of (map snd (keptg gs)) slots <= n).
    + eapply asked_weaken; [apply (asked_struct_loop c _ _ (map snd (keptg gs)))|].
      * rewrite map_map. apply F2_both. cbn [snd]. apply Forall_forall. intros g Hin. unfold keptg in Hin. apply filter_In in Hin as [Hin Hk].
        rewrite Forall_forall in H. destruct (H g Hin) as [Hg _]. destruct (serde_skips_de _); [discriminate|exact Hg].
      * cbv beta. intros slots n Hs. assert (E : forall gs : list (dfield * (rval -> N)), slots_of (map snd gs) (map (fun _ : dfield => None) (map fst gs)) = 0) by (clear; induction gs as [|g gs IH]; [reflexivity|]; cbn [map slots_of]; rewrite IH; reflexivity).
        rewrite E in Hs. exact Hs.
    + cbv beta. intros slots n Hs. eapply asked_weaken; [apply fill_held, H|]. cbv beta. intros vs k Hv. lia.
  - apply seq_held, H.
  - apply asked_ret. destruct gs; apply N.le_0_l.
Qed.
Definition field_held (f : attrs * (string * rty)) : rval -> N := if serde_skips_de (fst f) then fun _ => 0 else rheld l (snd (snd f)).
Definition field_de (f : attrs * (string * rty)) : dfield := DField (fst f) (fst (snd f)) (dflt (snd (snd f))) (is_option (snd (snd f))) (grde c l dflt (snd (snd f))).
Lemma fields_held k fs : Forall (fun f : attrs * (string * rty) => asked c (grde c l dflt (snd (snd f))) (fun v n => rheld l (snd (snd f)) v <= n)) fs ->
  asked c (members_de k (map field_de fs)) (fun vs n => all_of (map field_held fs) vs <= n).
Proof.
  intros H. assert (M := members_held k (map (fun f => (field_de f, field_held f)) fs)). rewrite !map_map in M. cbn [fst snd] in M. apply M.
  apply Forall_map. eapply Forall_impl; [|exact H]. cbv beta. intros f Hf. split; cbn [fst snd field_de df_attrs df_read df_miss]; unfold field_held.
  - destruct (serde_skips_de (fst f)); [reflexivity|exact Hf].
  - intros v E. destruct (serde_skips_de (fst f)); [reflexivity|]. destruct (snd (snd f)); try discriminate E. injection E as <-. reflexivity.
Qed.
Lemma pickN_shift {A} (x : A) xs i : pickN (x :: xs) (i + 1) = pickN xs i.
Proof. cbn [pickN]. destruct (N.eqb_spec (i + 1) 0); [lia|]. f_equal. lia. Qed.
Lemma alts_held (R : N -> list rval -> N) vs : forall j,
  (forall i v, pickN vs i = Some v -> serde_skips_de (fst v) = true \/ asked c (snd v) (fun xs n => R (j + i) xs <= n)) ->
  Forall (fun p => asked c p (fun v n => match v with VVariant i xs => R i xs | _ => 0 end <= n)) (enum_alts j vs).
Proof.
  induction vs as [|[a p] vs IH]; intros j H; cbn [enum_alts]; [constructor|].
  assert (T : Forall (fun p => asked c p (fun v n => match v with VVariant i xs => R i xs | _ => 0 end <= n)) (enum_alts (j + 1) vs)).
  { apply IH. intros i v E. replace (j + 1 + i) with (j + (i + 1)) by lia. apply H. rewrite pickN_shift. exact E. }
  destruct (serde_skips_de a) eqn:E; [exact T|]. constructor; [|exact T]. destruct (H 0 (a, p) eq_refl) as [S|S]; cbn [fst snd] in S; [congruence|].
  rewrite N.add_0_r in S. apply asked_pmap, S.
Qed.
Lemma grde_held t : asked c (grde c l dflt t) (fun v n => rheld l t v <= n).
Proof.
  induction t using rty_ind2; cbn [grde].
  - apply leaf_held.
  - apply asked_pmap. eapply asked_bind; [apply asked_any|]. cbv beta. intros [|] t' _; [|apply asked_ret, N.le_0_l].
    apply asked_pmap. eapply asked_weaken; [exact IHt|]. cbn [rheld]. intros; lia.
  - apply asked_pmap. apply asked_vec, IHt.
  - apply asked_pmap. eapply asked_bind; [apply asked_any|]. cbv beta. intros n t' _. eapply asked_weaken; [apply (asked_map_n c (r_tree l) (r_size l t)), IHt; exact Ht|]. cbn [rheld]. intros; lia.
  - apply asked_pmap. eapply asked_bind; [apply asked_any|]. cbv beta. intros n t' _. eapply asked_weaken; [apply (asked_map_n c (r_hash l) (r_size l t)), IHt; exact Hh|]. cbn [rheld]. intros; lia.
  - apply asked_pmap. apply (asked_sequence c (map (grde c l dflt) ts) (map (rheld l) ts)), F2_both. assumption.
  - apply asked_pmap. exact (fields_held k fs H).
  - eapply asked_bind; [apply asked_any|]. cbv beta. intros i t' _.
    match goal with |- asked _ (match ?x with _ => _ end) _ => destruct x as [p|] eqn:E end; [|apply asked_fail].
    apply pickN_some in E as [Hin _].
    assert (F := alts_held (fun i xs => match pickN (map (fun a => all_of (map field_held (snd (snd a)))) vs) i with Some f => f xs | None => 0 end)
      (map (fun v => (fst v, members_de (fst (snd v)) (map field_de (snd (snd v))))) vs) 0).
    rewrite Forall_forall in F. eapply asked_weaken; [apply F; [|exact Hin]|].
    + cbv beta. intros i0 v Ev. rewrite N.add_0_l. rewrite pickN_map in Ev. destruct (pickN vs i0) as [w|] eqn:Ew; [|discriminate]. injection Ev as <-. right. cbn [fst snd].
      rewrite pickN_map, Ew. cbn [option_map]. apply fields_held. apply pickN_some in Ew as [Hw _]. rewrite Forall_forall in H. apply (H w Hw).
    + cbv beta. intros v n Hv. destruct v; cbn [rheld] in *; try apply N.le_0_l. unfold field_held in Hv. lia.
  - apply asked_fail.
  - apply asked_fail.
Qed.
End Held.
