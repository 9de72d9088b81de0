(** * Types that differ in labels only: proofs. *)
From Coq Require Import String.
From Verif Require Import Base BaseFacts Varint Serde SerdeFacts SerdeMore Header Derive SpecDerive DeriveFacts DeriveRec SpecLabel.
Local Open Scope list_scope.
Local Open Scope N_scope.

Lemma skips_same a a' : same_skips a a' -> is_skip_field a' = is_skip_field a /\ has_skip_serializing_if a' = has_skip_serializing_if a.
Proof.
  intros [H1 H2]. rewrite <- !skip_iff in H1. rewrite <- !skip_if_iff in H2.
  split; apply eq_true_iff_eq; intuition.
Qed.
Definition field_pair (R : rty -> rty -> Prop) (f f' : attrs * (string * rty)) : Prop :=
  same_skips (fst f) (fst f') /\ R (snd (snd f)) (snd (snd f')).
Lemma all_pairs ts ts' : relabelled_all ts ts' -> Forall2 relabelled ts ts'.
Proof. revert ts'; induction ts as [|t ts IH]; intros ts' H; inversion H; subst; constructor; auto. Qed.
Lemma field_pairs fs fs' : relabelled_fields fs fs' -> Forall2 (field_pair relabelled) fs fs'.
Proof. revert fs'; induction fs as [|[a [n t]] fs IH]; intros fs' H; inversion H; subst; constructor; [split; assumption|auto]. Qed.
Lemma variant_pairs vs vs' : relabelled_variants vs vs' ->
  Forall2 (fun v v' => same_skips (fst v) (fst v') /\ Forall2 (field_pair relabelled) (snd (snd v)) (snd (snd v'))) vs vs'.
Proof. revert vs'; induction vs as [|[a [k fs]] vs IH]; intros vs' H; inversion H; subst; constructor; [split; [assumption|apply field_pairs; assumption]|auto]. Qed.

(** ** Headers *)
Lemma map_pairs {A B X} (R : A -> B -> Prop) (f : A -> X) (g : B -> X) l l' : Forall2 R l l' -> (forall a b, In a l -> R a b -> f a = g b) -> map f l = map g l'.
Proof. induction 1 as [|a b l l' H _ IH]; intros Hf; cbn [map]; [reflexivity|]. rewrite (Hf a b (in_eq _ _) H), IH; [reflexivity|]. intros; apply Hf; [right|]; assumption. Qed.
Lemma derive_struct_same l l' : Forall2 (fun f f' => same_skips (fst f) (fst f') /\ snd f = snd f') l l' -> derive_struct l = derive_struct l'.
Proof.
  intros H. unfold derive_struct.
  assert (E1 : existsb (fun f => has_skip_serializing_if (fst f)) l = existsb (fun f => has_skip_serializing_if (fst f)) l').
  { induction H as [|f f' l l' [H _] _ IH]; cbn [existsb]; [reflexivity|]. apply skips_same in H as [_ ->]. rewrite IH. reflexivity. }
  assert (E2 : map snd (filter (fun f => negb (is_skip_field (fst f))) l) = map snd (filter (fun f => negb (is_skip_field (fst f))) l')).
  { clear E1. induction H as [|f f' l l' [H E] _ IH]; cbn [filter]; [reflexivity|]. apply skips_same in H as [-> _].
    destruct (is_skip_field (fst f)); cbn [negb map]; [exact IH|]. rewrite IH, E. reflexivity. }
  rewrite E1, E2. reflexivity.
Qed.
Lemma derive_enum_same l l' : Forall2 (fun f f' => same_skips (fst f) (fst f') /\ snd f = snd f') l l' -> derive_enum l = derive_enum l'.
Proof.
  intros H. unfold derive_enum.
  assert (E1 : existsb (fun f => has_skip_serializing_if (fst f)) l = existsb (fun f => has_skip_serializing_if (fst f)) l').
  { induction H as [|f f' l l' [H _] _ IH]; cbn [existsb]; [reflexivity|]. apply skips_same in H as [_ ->]. rewrite IH. reflexivity. }
  assert (E2 : map snd (filter (fun f => negb (is_skip_field (fst f))) l) = map snd (filter (fun f => negb (is_skip_field (fst f))) l')).
  { clear E1. induction H as [|f f' l l' [H E] _ IH]; cbn [filter]; [reflexivity|]. apply skips_same in H as [-> _].
    destruct (is_skip_field (fst f)); cbn [negb map]; [exact IH|]. rewrite IH, E. reflexivity. }
  rewrite E1, E2. reflexivity.
Qed.
Lemma F2_map {A B C D} (R : C -> D -> Prop) (f : A -> C) (g : B -> D) l l' : Forall2 (fun a b => R (f a) (g b)) l l' -> Forall2 R (map f l) (map g l').
Proof. induction 1; constructor; assumption. Qed.
Lemma F2_in {A B} (R S : A -> B -> Prop) l l' : Forall2 R l l' -> (forall a b, In a l -> R a b -> S a b) -> Forall2 S l l'.
Proof. induction 1 as [|a b l l' H _ IH]; intros Hf; constructor; [apply Hf; [left; reflexivity|exact H]|]. apply IH. intros; apply Hf; [right|]; assumption. Qed.
Lemma header_same item t t' : relabelled t t' -> ser_header_in item t = ser_header_in item t'.
Proof.
  revert t'. induction t using rty_ind2; intros t' H'; inversion H'; subst; cbn [ser_header_in]; try reflexivity.
  1-4: erewrite IHt by eassumption; reflexivity.
  - match goal with Hr : relabelled_all _ _ |- _ => apply all_pairs in Hr; rename Hr into Hr' end. rewrite Forall_forall in H.
    assert (E : map (ser_header_in item) ts = map (ser_header_in item) ts') by (eapply map_pairs; [exact Hr'|auto]).
    assert (L : lenN ts = lenN ts') by (unfold lenN; erewrite Forall2_length by exact Hr'; reflexivity). rewrite E, L. reflexivity.
  - match goal with Hr : relabelled_fields _ _ |- _ => apply field_pairs in Hr; rename Hr into Hr' end. rewrite Forall_forall in H.
    apply derive_struct_same, F2_map. eapply F2_in; [exact Hr'|]. cbn [fst snd]. intros f f' Hin [H1 H2]. split; [exact H1|]. apply (H f Hin), H2.
  - match goal with Hr : relabelled_variants _ _ |- _ => apply variant_pairs in Hr; rename Hr into Hr' end. rewrite Forall_forall in H.
    apply derive_enum_same, F2_map. eapply F2_in; [exact Hr'|]. cbn [fst snd]. intros v v' Hin [H1 H2]. split; [exact H1|].
    specialize (H v Hin). rewrite Forall_forall in H. eapply map_pairs; [exact H2|]. intros f f' Hf [_ H3]. apply (H f Hf), H3.
Qed.
Lemma item_header_same items items' : Forall2 relabelled items items' -> forall depth i, item_header items depth i = item_header items' depth i.
Proof.
  intros H. induction depth as [|n IH]; intros i; cbn [item_header]; [reflexivity|].
  assert (E : match nth_error items i, nth_error items' i with Some t, Some t' => relabelled t t' | None, None => True | _, _ => False end).
  { clear IH. revert i. induction H as [|t t' l l' Ht _ IHl]; intros [|i]; cbn [nth_error]; auto. apply IHl. }
  destruct (nth_error items i) as [t|], (nth_error items' i) as [t'|]; try contradiction; [|reflexivity].
  rewrite (header_same _ t t' E). apply header_ext. intros j _. apply IH.
Qed.

(** ** Bytes *)
Lemma wseq_done w : wseq w WDone = w.
Proof. induction w; cbn [wseq]; try reflexivity. rewrite IHw. reflexivity. Qed.
Notation nothing := (fun (_ : string) (_ : rval) => false).
Definition agree (f f' : rval -> option sval) : Prop := forall v w w', f v = Some w -> f' v = Some w' -> ser w = ser w'.
Definition same_field (f f' : attrs * (string * (rval -> option sval))) : Prop := same_skips (fst f) (fst f') /\ agree (snd (snd f)) (snd (snd f')).
Notation out := (map (fun kv : string * sval => ser (snd kv))).
Lemma fields_same fs fs' : Forall2 same_field fs fs' -> forall vs l l', ser_fields nothing fs vs = Some l -> ser_fields nothing fs' vs = Some l' -> out l = out l'.
Proof.
  induction 1 as [|[a [n f]] [a' [n' f']] fs fs' [H1 H2] _ IH]; intros [|v vs] l l'; cbn [ser_fields]; try discriminate; [congruence|].
  cbn [fst snd] in *. apply skips_same in H1 as [H1 _]. rewrite !andb_false_r, !orb_false_r, !serde_skips_eq, H1.
  destruct (is_skip_field a); [apply IH|].
  destruct (f v) as [w|] eqn:E; [|discriminate]. destruct (ser_fields nothing fs vs) as [x|] eqn:Ex; [|discriminate]. intros H; injection H as <-.
  destruct (f' v) as [w'|] eqn:E'; [|discriminate]. destruct (ser_fields nothing fs' vs) as [x'|] eqn:Ex'; [|discriminate]. intros H; injection H as <-.
  cbn [map snd]. rewrite (H2 v w w' E E'), (IH vs x x' Ex Ex'). reflexivity.
Qed.
(** What a style writes is what its fields write. *)
Lemma struct_out k fs vs w : rser_struct nothing k fs vs = Some w -> exists l, ser_fields nothing fs vs = Some l /\ ser w = wconcat (out l).
Proof.
  destruct k; cbn [rser_struct].
  - destruct (ser_fields nothing fs vs) as [l|]; [|discriminate]. intros H; injection H as <-. exists l. split; reflexivity.
  - destruct fs as [|[a [n f]] [|g fs]].
    + destruct (ser_fields nothing [] vs) as [l|]; [|discriminate]. intros H; injection H as <-. exists l. split; [reflexivity|]. cbn [ser]. rewrite map_map. reflexivity.
    + destruct (serde_skips a) eqn:Es; [discriminate|]. destruct (serde_skips_if a); [discriminate|]. cbn [orb]. destruct vs as [|v [|]]; [discriminate| |discriminate].
      destruct (f v) as [x|] eqn:Ef; [|discriminate]. intros H; injection H as <-. exists [(n, x)]. cbn [ser_fields]. rewrite Es, Ef, andb_false_r. cbn [orb].
      split; [reflexivity|]. cbn [ser map snd]. unfold wconcat. cbn [fold_right]. rewrite wseq_done. reflexivity.
    + destruct (ser_fields nothing _ vs) as [l|]; [|discriminate]. intros H; injection H as <-. exists l. split; [reflexivity|]. cbn [ser]. rewrite map_map. reflexivity.
  - destruct fs, vs; try discriminate. intros H; injection H as <-. exists []. split; reflexivity.
Qed.
Lemma variant_out i k fs vs w : rser_variant nothing i k fs vs = Some w -> exists l, ser_fields nothing fs vs = Some l /\ ser w = wseq (ser_u32 i) (wconcat (out l)).
Proof.
  destruct k; cbn [rser_variant].
  - destruct (ser_fields nothing fs vs) as [l|]; [|discriminate]. intros H; injection H as <-. exists l. split; reflexivity.
  - destruct fs as [|[a [n f]] [|g fs]].
    + destruct (ser_fields nothing [] vs) as [l|]; [|discriminate]. intros H; injection H as <-. exists l. split; [reflexivity|]. cbn [ser]. rewrite map_map. reflexivity.
    + destruct vs as [|v [|]]; [discriminate| |discriminate]. destruct (serde_skips a) eqn:Es.
      * intros H; injection H as <-. exists []. cbn [ser_fields]. rewrite Es. cbn [orb]. split; [reflexivity|]. cbn [ser map]. unfold wconcat. cbn [fold_right]. rewrite wseq_done. reflexivity.
      * destruct (f v) as [x|] eqn:Ef; [|discriminate]. intros H; injection H as <-. exists [(n, x)]. cbn [ser_fields]. rewrite Es, Ef, andb_false_r. cbn [orb].
        split; [reflexivity|]. cbn [ser map snd]. unfold wconcat. cbn [fold_right]. rewrite wseq_done. reflexivity.
    + destruct (ser_fields nothing _ vs) as [l|]; [|discriminate]. intros H; injection H as <-. exists l. split; [reflexivity|]. cbn [ser]. rewrite map_map. reflexivity.
  - destruct fs, vs; try discriminate. intros H; injection H as <-. exists []. split; [reflexivity|]. cbn [ser map]. unfold wconcat. cbn [fold_right]. rewrite wseq_done. reflexivity.
Qed.
Lemma some_same {A B} (f f' : A -> option B) (g : B -> wprog) : (forall v w w', f v = Some w -> f' v = Some w' -> g w = g w') ->
  forall l x x', map_some f l = Some x -> map_some f' l = Some x' -> map g x = map g x'.
Proof.
  intros Hf. unfold map_some. induction l as [|v l IH]; intros x x'; cbn [map all_some]; [congruence|].
  destruct (f v) as [w|] eqn:E; [|discriminate]. destruct (all_some (map f l)) as [y|] eqn:Ey; [|discriminate]. intros H; injection H as <-.
  destruct (f' v) as [w'|] eqn:E'; [|discriminate]. destruct (all_some (map f' l)) as [y'|] eqn:Ey'; [|discriminate]. intros H; injection H as <-.
  cbn [map]. rewrite (Hf v w w' E E'), (IH y y'); reflexivity.
Qed.
Lemma F2_pick {A B} (R : A -> B -> Prop) l l' : Forall2 R l l' -> forall i, match pickN l i, pickN l' i with Some a, Some b => R a b | None, None => True | _, _ => False end.
Proof.
  induction 1 as [|a b l l' H _ IH]; intros i; cbn [pickN]; [exact I|]. destruct (i =? 0); [exact H|]. apply IH.
Qed.
Lemma bytes_same c t t' : relabelled t t' -> agree (rser c nothing t) (rser c nothing t').
Proof.
  revert t'. induction t using rty_ind2; intros t' H' v w w'; inversion H'; subst; cbn [rser].
  - congruence.
  - destruct v; try discriminate; [congruence|].
    destruct (rser c nothing t v) as [x|] eqn:E; [|discriminate]. intros Hw; injection Hw as <-.
    destruct (rser c nothing _ v) as [x'|] eqn:E' in |- *; [|discriminate]. intros Hw; injection Hw as <-. cbn [ser]. erewrite IHt by eassumption. reflexivity.
  - destruct v; try discriminate. destruct (map_some _ l) as [x|] eqn:E; [|discriminate]. intros Hw; injection Hw as <-.
    destruct (map_some _ l) as [x'|] eqn:E' in |- *; [|discriminate]. intros Hw; injection Hw as <-. cbn [ser]. erewrite some_same; [reflexivity| |exact E|exact E'].
    intros u y y' Hy Hy'. eapply IHt; eassumption.
  - destruct v; try discriminate. destruct (map_some _ m) as [x|] eqn:E; [|discriminate]. intros Hw; injection Hw as <-.
    destruct (map_some _ m) as [x'|] eqn:E' in |- *; [|discriminate]. intros Hw; injection Hw as <-. cbn [ser]. erewrite some_same; [reflexivity| |exact E|exact E'].
    intros [k u] y y'. cbn [fst snd]. destruct (rser c nothing t u) as [z|] eqn:Ez; [|discriminate]. intros Hy; injection Hy as <-.
    destruct (rser c nothing _ u) as [z'|] eqn:Ez' in |- *; [|discriminate]. intros Hy; injection Hy as <-. cbn [fst snd]. erewrite IHt by eassumption. reflexivity.
  - destruct v; try discriminate. destruct (map_some _ m) as [x|] eqn:E; [|discriminate]. intros Hw; injection Hw as <-.
    destruct (map_some _ m) as [x'|] eqn:E' in |- *; [|discriminate]. intros Hw; injection Hw as <-. cbn [ser]. erewrite some_same; [reflexivity| |exact E|exact E'].
    intros [k u] y y'. cbn [fst snd]. destruct (rser c nothing t u) as [z|] eqn:Ez; [|discriminate]. intros Hy; injection Hy as <-.
    destruct (rser c nothing _ u) as [z'|] eqn:Ez' in |- *; [|discriminate]. intros Hy; injection Hy as <-. cbn [fst snd]. erewrite IHt by eassumption. reflexivity.
  - match goal with Hr : relabelled_all _ _ |- _ => apply all_pairs in Hr; rename Hr into Hr' end. rewrite Forall_forall in H.
    destruct v; try discriminate.
    destruct (ser_fields _ _ l) as [x|] eqn:E; [|discriminate]. intros Hw; injection Hw as <-.
    destruct (ser_fields _ _ l) as [x'|] eqn:E' in |- *; [|discriminate]. intros Hw; injection Hw as <-. cbn [ser]. rewrite !map_map. f_equal.
    eapply fields_same; [|exact E|exact E']. apply F2_map. eapply F2_in; [exact Hr'|]. intros a b Ha Hab. split; [split; split; auto|]. cbn [snd]. apply (H a Ha), Hab.
  - match goal with Hr : relabelled_fields _ _ |- _ => apply field_pairs in Hr; rename Hr into Hr' end. rewrite Forall_forall in H.
    destruct v; try discriminate. intros E E'. apply struct_out in E as (x & Ex & ->). apply struct_out in E' as (x' & Ex' & ->). f_equal.
    eapply fields_same; [|exact Ex|exact Ex']. apply F2_map. eapply F2_in; [exact Hr'|]. intros f f' Hf [H1 H2]. split; [exact H1|]. cbn [snd]. apply (H f Hf), H2.
  - match goal with Hr : relabelled_variants _ _ |- _ => apply variant_pairs in Hr; rename Hr into Hr' end. rewrite Forall_forall in H.
    destruct v; try discriminate. rewrite !pickN_map. assert (P := F2_pick _ _ _ Hr' i).
    destruct (pickN vs i) as [u|] eqn:Eu; [|discriminate]. destruct (pickN _ i) as [u'|] in P |- *; [|contradiction]. cbn [option_map].
    destruct P as [P1 P2]. apply skips_same in P1 as [P1 _]. rewrite !serde_skips_eq, P1. destruct (is_skip_field (fst u)); [congruence|].
    intros E E'. apply variant_out in E as (x & Ex & ->). apply variant_out in E' as (x' & Ex' & ->). f_equal. f_equal.
    apply pickN_some in Eu as [Hin _]. specialize (H u Hin). rewrite Forall_forall in H.
    eapply fields_same; [|exact Ex|exact Ex']. apply F2_map. eapply F2_in; [exact P2|]. intros f f' Hf [H1 H2]. split; [exact H1|]. cbn [snd]. apply (H f Hf), H2.
  - discriminate.
  - discriminate.
Qed.
