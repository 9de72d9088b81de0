(** * Proofs about Eq.v. *)
From Verif Require Import Base BaseFacts Serde Header Body SpecVarint SerdeFacts BodyFacts SpecBody Eq SpecEq.
Local Open Scope list_scope.
Local Open Scope N_scope.

(** ** Floats *)
Lemma split_mag k w n : k < w -> n mod 2 ^ w = exponent k w n * 2 ^ k + mantissa k n /\ mantissa k n < 2 ^ k /\
  exponent k w n < 2 ^ (w - k).
Proof.
  intros H. unfold mantissa, exponent.
  assert (2 ^ k <> 0) by (apply N.pow_nonzero; discriminate).
  assert (Ew : 2 ^ w = 2 ^ k * 2 ^ (w - k)) by (rewrite <- N.pow_add_r; f_equal; lia).
  assert (2 ^ (w - k) <> 0) by (apply N.pow_nonzero; discriminate).
  assert (Em : n mod 2 ^ k = (n mod 2 ^ w) mod 2 ^ k).
  { rewrite Ew, N.mod_mul_r by assumption. rewrite N.mul_comm, N.mod_add, N.mod_mod by assumption. reflexivity. }
  rewrite Em. split; [|split].
  - rewrite N.mul_comm. apply N.div_mod; assumption.
  - apply N.mod_lt; assumption.
  - apply N.div_lt_upper_bound; [assumption|]. rewrite <- Ew. apply N.mod_lt. rewrite Ew. apply N.neq_mul_0; split; assumption.
Qed.

Lemma mag_lt k e m e' m' : m < 2 ^ k -> m' < 2 ^ k -> e * 2 ^ k + m < e' * 2 ^ k + m' ->
  (if e =? 0 then m else (2 ^ k + m) * 2 ^ (e - 1)) < (if e' =? 0 then m' else (2 ^ k + m') * 2 ^ (e' - 1)).
Proof.
  intros Hm Hm' H. set (K := 2 ^ k) in *.
  assert (Hc : e < e' \/ (e = e' /\ m < m')).
  { destruct (N.lt_trichotomy e e') as [?|[<-|?]]; [left; assumption|right; split; [reflexivity|lia]|exfalso; nia]. }
  destruct Hc as [Hc|[<- Hc]].
  - destruct (N.eqb_spec e' 0); [lia|].
    assert (1 <= 2 ^ (e' - 1)) by (assert (2 ^ (e' - 1) <> 0) by (apply N.pow_nonzero; discriminate); lia).
    destruct (N.eqb_spec e 0) as [->|He]; [nia|].
    assert (2 * 2 ^ (e - 1) <= 2 ^ (e' - 1)).
    { rewrite <- N.pow_succ_r'. apply N.pow_le_mono_r; lia. }
    assert (0 < 2 ^ (e - 1)) by (assert (2 ^ (e - 1) <> 0) by (apply N.pow_nonzero; discriminate); lia).
    apply N.lt_le_trans with (2 * K * 2 ^ (e - 1)); [nia|]. nia.
  - destruct (N.eqb_spec e 0); [assumption|].
    assert (0 < 2 ^ (e - 1)) by (assert (2 ^ (e - 1) <> 0) by (apply N.pow_nonzero; discriminate); lia). nia.
Qed.
Lemma magnitude_lt k w a b : k < w -> a mod 2 ^ w < b mod 2 ^ w -> magnitude k w a < magnitude k w b.
Proof.
  intros Hk H. destruct (split_mag k w a Hk) as (Ea & Ma & _), (split_mag k w b Hk) as (Eb & Mb & _).
  rewrite Ea, Eb in H. apply mag_lt; assumption.
Qed.
Lemma magnitude_inj k w a b : k < w -> (magnitude k w a = magnitude k w b <-> a mod 2 ^ w = b mod 2 ^ w).
Proof.
  intros Hk. split.
  - intros E. destruct (N.lt_trichotomy (a mod 2 ^ w) (b mod 2 ^ w)) as [H|[H|H]]; [|exact H|];
      apply (magnitude_lt k w) in H; try lia; assumption.
  - intros E. destruct (split_mag k w a Hk) as (Ea & Ma & _), (split_mag k w b Hk) as (Eb & Mb & _).
    unfold magnitude. rewrite Ea, Eb in E.
    assert (exponent k w a = exponent k w b /\ mantissa k a = mantissa k b) as [-> ->]; [|reflexivity].
    set (K := 2 ^ k) in *. destruct (N.lt_trichotomy (exponent k w a) (exponent k w b)) as [?|[?|?]]; [nia| |nia].
    split; [assumption|nia].
Qed.
Lemma magnitude_0 k w n : k < w -> (magnitude k w n = 0 <-> n mod 2 ^ w = 0).
Proof.
  intros Hk.
  assert (E : magnitude k w 0 = 0).
  { unfold magnitude, exponent, mantissa. rewrite !N.mod_0_l by (apply N.pow_nonzero; discriminate).
    rewrite N.div_0_l by (apply N.pow_nonzero; discriminate). reflexivity. }
  rewrite <- E at 1. rewrite magnitude_inj by assumption. rewrite (N.mod_0_l (2 ^ w)) by (apply N.pow_nonzero; discriminate). reflexivity.
Qed.

Lemma nan_iff k w n : k < w -> (is_nan k w n = true <-> nan k w n).
Proof.
  intros Hk. destruct (split_mag k w n Hk) as (E & M & X). unfold is_nan, nan. rewrite N.ltb_lt, E.
  assert (Ew : 2 ^ w = 2 ^ (w - k) * 2 ^ k) by (rewrite <- N.pow_add_r; f_equal; lia). rewrite Ew.
  assert (0 < 2 ^ (w - k)) by (assert (2 ^ (w - k) <> 0) by (apply N.pow_nonzero; discriminate); lia).
  generalize dependent (exponent k w n). generalize dependent (mantissa k n). intros m Hm e _ He.
  set (K := 2 ^ k) in *. set (B := 2 ^ (w - k)) in *. replace (B * K - K) with ((B - 1) * K) by nia.
  split.
  - intros L. assert (e = B - 1) by nia. subst e. split; [reflexivity|nia].
  - intros [-> L]. nia.
Qed.

Lemma number_eq k w a b : k < w -> a < 2 ^ (w + 1) -> b < 2 ^ (w + 1) ->
  (number k w a = number k w b <-> a = b \/ (a mod 2 ^ w = 0 /\ b mod 2 ^ w = 0)).
Proof.
  intros Hk Ha Hb. rewrite <- (magnitude_0 k w a), <- (magnitude_0 k w b) by assumption. unfold number.
  assert (Hn : 2 ^ w <> 0) by (apply N.pow_nonzero; discriminate).
  assert (D : forall n, n < 2 ^ (w + 1) -> n / 2 ^ w < 2).
  { intros n Hn'. apply N.div_lt_upper_bound; [assumption|]. rewrite N.mul_comm, <- N.pow_succ_r', <- N.add_1_r. exact Hn'. }
  assert (S : negative w a = negative w b -> magnitude k w a = magnitude k w b -> a = b).
  { intros E1 E2. apply magnitude_inj in E2; [|assumption]. unfold negative in E1. specialize (D a Ha) as Da. specialize (D b Hb) as Db.
    assert (a / 2 ^ w = b / 2 ^ w).
    { destruct (a / 2 ^ w) as [|[?|?|]], (b / 2 ^ w) as [|[?|?|]]; try reflexivity; try lia; discriminate E1. }
    rewrite (N.div_mod a (2 ^ w)), (N.div_mod b (2 ^ w)) by assumption. congruence. }
  destruct (negative w a) eqn:Na, (negative w b) eqn:Nb; (split; [intros E|intros [->|[E1 E2]]]); try lia.
Qed.

Lemma float_eq_iff k w a b : k < w -> a < 2 ^ (w + 1) -> b < 2 ^ (w + 1) ->
  (float_eq k w a b = true <-> ~ nan k w a /\ ~ nan k w b /\ number k w a = number k w b).
Proof.
  intros Hk Ha Hb. rewrite number_eq by assumption. rewrite <- !nan_iff by assumption.
  unfold float_eq, is_zero. rewrite !Bool.andb_true_iff, Bool.orb_true_iff, Bool.andb_true_iff, !N.eqb_eq, !Bool.negb_true_iff, !Bool.not_true_iff_false. tauto.
Qed.

(** ** Bodies *)
Lemma list_eqb_iff {A} (f : A -> A -> bool) (P : A -> Prop) (R : A -> A -> Prop) a b :
  Forall (fun x => forall y, P y -> (f x y = true <-> R x y)) a -> Forall P b -> (list_eqb f a b = true <-> Forall2 R a b).
Proof.
  intros H Hb. revert a H. induction Hb as [|y b Hy _ IH]; intros [|x a] H; cbn [list_eqb].
  - split; constructor.
  - split; [discriminate|intros H'; inversion H'].
  - split; [discriminate|intros H'; inversion H'].
  - inversion H; subst. rewrite Bool.andb_true_iff, (H2 y Hy), (IH a H3).
    split; [intros [? ?]; constructor; assumption|intros H'; inversion H'; split; assumption].
Qed.
Lemma Forall2_eq {A} (a b : list A) : Forall2 eq a b <-> a = b.
Proof. split; [induction 1; congruence|intros ->; induction b; constructor; auto]. Qed.
Lemma bytes_eq_iff a b : bytes_eq a b = true <-> a = b.
Proof.
  unfold bytes_eq. rewrite (list_eqb_iff _ (fun _ => True) eq), Forall2_eq; [reflexivity|apply Forall_forall; intros x _ y _; apply N.eqb_eq|apply Forall_forall; auto].
Qed.

Lemma float_plus_zero k w a b : k < w -> a < 2 ^ (w + 1) -> b < 2 ^ (w + 1) ->
  (float_eq k w a b = true <->
   a mod 2 ^ w <= 2 ^ w - 2 ^ k /\ b mod 2 ^ w <= 2 ^ w - 2 ^ k /\ (if a =? 2 ^ w then 0 else a) = (if b =? 2 ^ w then 0 else b)).
Proof.
  intros Hk Ha Hb. unfold float_eq, is_nan, is_zero.
  rewrite !Bool.andb_true_iff, Bool.orb_true_iff, Bool.andb_true_iff, !N.eqb_eq, !Bool.negb_true_iff, !N.ltb_ge.
  rewrite and_assoc. assert (Hn : 2 ^ w <> 0) by (apply N.pow_nonzero; discriminate).
  assert (Z : forall n, n < 2 ^ (w + 1) -> (n mod 2 ^ w = 0 <-> n = 0 \/ n = 2 ^ w)).
  { intros n Hn'. split; [|intros [->| ->]; [apply N.mod_0_l|apply N.mod_same]; assumption].
    intros E. rewrite N.add_1_r, N.pow_succ_r' in Hn'. pose proof (N.div_mod n (2 ^ w) Hn) as D. rewrite E, N.add_0_r in D.
    set (q := n / 2 ^ w) in *. assert (q < 2) by nia. assert (q = 0 \/ q = 1) as [Eq | Eq] by lia; rewrite Eq in D; lia. }
  assert (X : (a = b \/ a mod 2 ^ w = 0 /\ b mod 2 ^ w = 0) <-> (if a =? 2 ^ w then 0 else a) = (if b =? 2 ^ w then 0 else b)).
  { rewrite !Z by assumption. destruct (N.eqb_spec a (2 ^ w)), (N.eqb_spec b (2 ^ w)); lia. }
  rewrite X. reflexivity.
Qed.


Lemma every_split f l : forallb (every f) l = true <-> Forall (fun b => every f b = true) l.
Proof. rewrite forallb_forall, Forall_forall. reflexivity. Qed.
Lemma every_split_snd f (l : list (list N * body)) : forallb (fun kv => every f (snd kv)) l = true <-> Forall (fun kv => every f (snd kv) = true) l.
Proof. rewrite forallb_forall, Forall_forall. reflexivity. Qed.
Lemma Forall2_canon {A B} (g : A -> B) (P : A -> Prop) a b :
  Forall2 (fun x y => P x /\ P y /\ g x = g y) a b <-> Forall P a /\ Forall P b /\ map g a = map g b.
Proof.
  split.
  - induction 1 as [|x y a b (H1 & H2 & H3) _ (IH1 & IH2 & IH3)]; [repeat split; constructor|].
    split; [constructor; assumption|]. split; [constructor; assumption|]. cbn [map]. congruence.
  - revert b. induction a as [|x a IH]; intros [|y b] (H1 & H2 & H3); try discriminate H3; [constructor|].
    inversion H1; inversion H2; subst. cbn [map] in H3. injection H3 as E1 E2. constructor; [auto|]. apply IH. auto.
Qed.

Ltac off := try (split; [discriminate|intros (_ & _ & E); discriminate E]).
Lemma body_eq_iff c a : forall b, body_ok c a = true -> body_ok c b = true ->
  (body_eq a b = true <-> no_nan a = true /\ no_nan b = true /\ plus_zero a = plus_zero b).
Proof.
  unfold body_ok, no_nan. revert a.
  match goal with |- context [every ?g _ = true /\ every _ _ = true /\ _] => set (f := g) end.
  apply (body_ind2 (fun a => forall b, every (node_ok c) a = true -> every (node_ok c) b = true ->
    (body_eq a b = true <-> every f a = true /\ every f b = true /\ plus_zero a = plus_zero b))).
  - intros a; destruct a as [|[?|]| | | | | | | | | | | | | | | | | | | | | |]; try exact I;
      (intros b' Ha Hb; destruct b' as [|[?|]| | | | | | | | | | | | | | | | | | | | | |]; off);
      cbn [every andb body_eq plus_zero f];
      rewrite ?Bool.andb_true_iff, ?bytes_eq_iff, ?Bool.eqb_true_iff, ?N.eqb_eq, ?Z.eqb_eq;
      try (split; [intuition congruence|intros (_ & _ & E); injection E; intuition congruence]).
    all: try (split; [auto|reflexivity]).
    + cbn [every andb node_ok] in Ha, Hb. unfold f32_eq. rewrite float_plus_zero by lia.
      change (2 ^ 31 - 2 ^ 23) with (255 * 2 ^ 23). rewrite !N.leb_le.
      split; [intros (? & ? & ?); repeat split; auto; congruence|intros ([? _] & [? _] & E); injection E; auto].
    + cbn [every andb node_ok] in Ha, Hb. unfold f64_eq. rewrite float_plus_zero by lia.
      change (2 ^ 63 - 2 ^ 52) with (2047 * 2 ^ 52). rewrite !N.leb_le.
      split; [intros (? & ? & ?); repeat split; auto; congruence|intros ([? _] & [? _] & E); injection E; auto].
  - intros a IHa b' Ha Hb; destruct b' as [|[?|]| | | | | | | | | | | | | | | | | | | | | |]; off.
    cbn [every andb body_eq plus_zero node_ok f] in *. rewrite IHa by assumption.
    split; [intros (? & ? & ?); repeat split; auto; congruence|intros (? & ? & E); injection E; auto].
  - intros l IHl b' Ha Hb; destruct b' as [|[?|]| | | | | | | | | | | | | | | | |l'| | | | |]; off.
    cbn [every andb body_eq plus_zero f] in *. apply andb_prop in Ha as [_ Ha], Hb as [_ Hb]. rewrite every_split in *.
    rewrite (list_eqb_iff body_eq (fun b => every (node_ok c) b = true)
      (fun a b => every f a = true /\ every f b = true /\ plus_zero a = plus_zero b)); [|clear - IHl Ha|exact Hb].
    + rewrite (Forall2_canon plus_zero (fun b => every f b = true)).
      rewrite ?every_split, ?every_split_snd. split; intros (? & ? & E); [rewrite E; auto|injection E as E; auto].
    + rewrite Forall_forall in *. intros x Hx y Hy. apply IHl; auto.
  - intros l IHl b' Ha Hb; destruct b' as [|[?|]| | | | | | | | | | | | | | | | | |l'| | | |]; off.
    cbn [every andb body_eq plus_zero f] in *. apply andb_prop in Ha as [_ Ha], Hb as [_ Hb]. rewrite every_split in *.
    rewrite (list_eqb_iff body_eq (fun b => every (node_ok c) b = true)
      (fun a b => every f a = true /\ every f b = true /\ plus_zero a = plus_zero b)); [|clear - IHl Ha|exact Hb].
    + rewrite (Forall2_canon plus_zero (fun b => every f b = true)).
      rewrite ?every_split, ?every_split_snd. split; intros (? & ? & E); [rewrite E; auto|injection E as E; auto].
    + rewrite Forall_forall in *. intros x Hx y Hy. apply IHl; auto.
  - intros l IHl b' Ha Hb; destruct b' as [|[?|]| | | | | | | | | | | | | | | | | | |l'| | |]; off.
    cbn [every andb body_eq plus_zero f] in *. apply andb_prop in Ha as [_ Ha], Hb as [_ Hb]. rewrite every_split_snd in *.
    rewrite (list_eqb_iff _ (fun b => every (node_ok c) (snd b) = true)
      (fun a b => every f (snd a) = true /\ every f (snd b) = true /\ (fst a, plus_zero (snd a)) = (fst b, plus_zero (snd b))));
      [|clear - IHl Ha|exact Hb].
    + rewrite (Forall2_canon (fun kv => (fst kv, plus_zero (snd kv))) (fun b => every f (snd b) = true)).
      rewrite ?every_split, ?every_split_snd. split; intros (? & ? & E); [rewrite E; auto|injection E as E; auto].
    + rewrite Forall_forall in *. intros x Hx y Hy. rewrite Bool.andb_true_iff, bytes_eq_iff, IHl by auto.
      split; [intros (? & ? & ? & ?); repeat split; auto; congruence|intros (? & ? & E); injection E; auto].
  - intros i a IHa b' Ha Hb; destruct b' as [|[?|]| | | | | | | | | | | | | | | | | | | |j b| |]; off.
    cbn [every andb body_eq plus_zero f] in *. apply andb_prop in Ha as [_ Ha], Hb as [_ Hb].
    rewrite Bool.andb_true_iff, N.eqb_eq, IHa by assumption.
    split; [intros (? & ? & ? & ?); repeat split; auto; congruence|intros (? & ? & E); injection E; auto].
Qed.

Lemma map_ext_Forall {A B} (f g : A -> B) l : Forall (fun x => f x = g x) l -> map f l = map g l.
Proof. induction 1; cbn; congruence. Qed.

Lemma plus_zero_id b : no_neg_zero b = true -> plus_zero b = b.
Proof.
  unfold no_neg_zero. revert b. match goal with |- context [every ?g _] => set (f := g) end.
  apply (body_ind2 (fun b => every f b = true -> plus_zero b = b)).
  - intros b; destruct b as [|[?|]| | | | | | | | | | | | | | | | | | | | | |]; try exact I; try reflexivity;
      cbn [every f andb plus_zero]; intros H; apply andb_prop in H as [H _]; apply Bool.negb_true_iff in H; rewrite H; reflexivity.
  - intros b IH H. cbn [every f andb plus_zero] in *. rewrite IH by assumption; reflexivity.
  - intros l IH H. cbn [every f andb plus_zero] in *. apply every_split in H. f_equal. rewrite <- (map_id l) at 2.
    apply map_ext_Forall. rewrite Forall_forall in *. auto.
  - intros l IH H. cbn [every f andb plus_zero] in *. apply every_split in H. f_equal. rewrite <- (map_id l) at 2.
    apply map_ext_Forall. rewrite Forall_forall in *. auto.
  - intros l IH H. cbn [every f andb plus_zero] in *. apply every_split_snd in H. f_equal. rewrite <- (map_id l) at 2.
    apply map_ext_Forall. rewrite Forall_forall in *. intros [k b] Hx. rewrite (IH _ Hx) by (apply (H _ Hx)). reflexivity.
  - intros i b IH H. cbn [every f andb plus_zero] in *. rewrite IH by assumption; reflexivity.
Qed.

Lemma plus_zero_validate b : forall h, validate h (plus_zero b) = validate h b.
Proof.
  revert b. apply (body_ind2 (fun b => forall h, validate h (plus_zero b) = validate h b)).
  - intros b; destruct b as [|[?|]| | | | | | | | | | | | | | | | | | | | | |]; try exact I; intros []; reflexivity.
  - intros b IH h; destruct h; cbn [plus_zero validate]; auto.
  - intros l IH h; destruct h; cbn [plus_zero validate]; auto.
    induction IH as [|x l Hx _ IHl]; [reflexivity|]. cbn [map forallb]. rewrite Hx, IHl. reflexivity.
  - intros l IH h; destruct h as [| | | | | | | | | | | | | | | | | | |hs| | | |]; cbn [plus_zero validate]; auto.
    rewrite map_length. f_equal. revert hs. induction IH as [|x l Hx _ IHl]; intros [|h hs]; cbn [map all2]; try reflexivity. rewrite Hx, IHl. reflexivity.
  - intros l IH h; destruct h; cbn [plus_zero validate]; auto.
    induction IH as [|x l Hx _ IHl]; [reflexivity|]. cbn [map forallb snd]. rewrite Hx, IHl. reflexivity.
  - intros i b IH h; destruct h; cbn [plus_zero validate]; auto.
    rewrite pickN_map. destruct (pickN _ i); [apply IH|reflexivity].
Qed.

Lemma wbytes_wseq_failed a b : wresult a <> WeOk -> wbytes (wseq a b) = wbytes a.
Proof. induction a as [|e|p|bs k IH]; cbn [wresult wseq wbytes]; intros H; [congruence|reflexivity|reflexivity|]. rewrite IH by exact H. reflexivity. Qed.
(** Two traces that end alike after as many bytes. *)
Definition as_long (w w' : wprog) : Prop := wresult w = wresult w' /\ lenN (wbytes w) = lenN (wbytes w').
Lemma as_long_refl w : as_long w w.
Proof. split; reflexivity. Qed.
Lemma as_long_wseq a a' b b' : as_long a a' -> as_long b b' -> as_long (wseq a b) (wseq a' b').
Proof.
  intros [Ra La] [Rb Lb]. unfold as_long. rewrite !wresult_wseq, <- Ra. destruct (wresult a) eqn:E.
  - split; [exact Rb|]. rewrite !wbytes_wseq_done, !lenN_app by congruence. congruence.
  - split; [reflexivity|]. rewrite !wbytes_wseq_failed by congruence. exact La.
  - split; [reflexivity|]. rewrite !wbytes_wseq_failed by congruence. exact La.
Qed.
Lemma as_long_wconcat {A} (f g : A -> wprog) l : Forall (fun x => as_long (f x) (g x)) l ->
  as_long (wconcat (map f l)) (wconcat (map g l)).
Proof. induction 1 as [|x l H _ IH]; [apply as_long_refl|]. cbn [map]. apply as_long_wseq; assumption. Qed.
Lemma plus_zero_write c b : as_long (bser c (plus_zero b)) (bser c b).
Proof.
  unfold bser. revert b. apply (body_ind2 (fun b => as_long (ser (body_sval c (plus_zero b))) (ser (body_sval c b)))).
  - intros b; destruct b as [|[?|]| | | | | | | | | | | | | | | | | | | | | |]; try exact I; try apply as_long_refl; split; reflexivity.
  - intros b IH. cbn [plus_zero body_sval ser]. apply as_long_wseq; [apply as_long_refl|exact IH].
  - intros l IH. cbn [plus_zero body_sval ser]. rewrite lenN_map, !map_map. apply as_long_wseq; [apply as_long_refl|].
    apply as_long_wconcat, IH.
  - intros l IH. cbn [plus_zero body_sval ser]. rewrite !map_map. apply as_long_wconcat, IH.
  - intros l IH. cbn [plus_zero body_sval ser]. rewrite lenN_map, !map_map. apply as_long_wseq; [apply as_long_refl|].
    apply as_long_wconcat. rewrite Forall_forall in *. intros kv Hx. cbn [fst snd]. apply as_long_wseq; [apply as_long_refl|apply (IH _ Hx)].
  - intros i b IH. cbn [plus_zero body_sval ser]. apply as_long_wseq; [apply as_long_refl|exact IH].
Qed.

Lemma body_eq_alike c a b : body_ok c a = true -> body_ok c b = true -> body_eq a b = true ->
  (forall h, validate h a = validate h b) /\
  wresult (bser c a) = wresult (bser c b) /\ lenN (wbytes (bser c a)) = lenN (wbytes (bser c b)) /\
  (no_neg_zero a = true -> no_neg_zero b = true -> a = b).
Proof.
  intros Ha Hb E. apply (body_eq_iff c) in E as (_ & _ & E); [|assumption..].
  destruct (plus_zero_write c a) as [R1 L1], (plus_zero_write c b) as [R2 L2]. split; [|split; [|split]]; [|congruence|congruence|].
  - intros h. rewrite <- (plus_zero_validate a), <- (plus_zero_validate b), E. reflexivity.
  - intros Na Nb. rewrite <- (plus_zero_id a Na), <- (plus_zero_id b Nb). exact E.
Qed.

Lemma body_eq_same_bytes c h a b : wf_cfg c -> 4096 <= heap_limit c ->
  validate h a = true -> body_ok c a = true -> body_fits c a = true ->
  validate h b = true -> body_ok c b = true -> body_fits c b = true ->
  wbytes (bser c a) = wbytes (bser c b) -> a = b.
Proof.
  intros Hc Hh Va Oa Fa Vb Ob Fb E.
  destruct (body_roundtrip c h a Hc Hh Va Oa Fa) as [_ [Ra _]], (body_roundtrip c h b Hc Hh Vb Ob Fb) as [_ [Rb _]].
  specialize (Ra []). specialize (Rb []). rewrite E, Rb in Ra. injection Ra as ->. reflexivity.
Qed.
