(** * Inputs that end too early. *)
From Coq Require Import String Sorted.
From Verif Require Import Base BaseFacts Serde SerdeFacts Typing SpecVarint VarintFacts SpecUtf8 Utf8Facts SpecMap MapFacts Header Body SpecBody SpecAccept AcceptFacts SpecReject RejectFacts PortableFacts FinalFacts SpecCut.
Local Open Scope list_scope.
Local Open Scope N_scope.

Scheme cut_mind := Induction for cut Sort Prop with cut_all_mind := Induction for cut_all Sort Prop.
Combined Scheme cut_mut from cut_mind, cut_all_mind.
Scheme body_cut_mind := Induction for body_cut Sort Prop with bodies_cut_mind := Induction for bodies_cut Sort Prop.
Combined Scheme body_cut_mut from body_cut_mind, bodies_cut_mind.

Lemma app_cut {A} (u w s t : list A) : u ++ w = s ++ t -> t <> [] ->
  (exists t', t' <> [] /\ u = s ++ t' /\ t = t' ++ w) \/ (exists s', s = u ++ s' /\ w = s' ++ t).
Proof.
  revert s. induction u as [|x u IH]; intros s E Ht; [right; exists s; auto|]. destruct s as [|y s]; cbn [app] in E.
  - left. exists (x :: u). repeat split; [discriminate|symmetry; exact E].
  - injection E as <- E. destruct (IH s E Ht) as [(t' & H1 & -> & H2)|(s' & -> & H2)]; [left; exists t'; auto|right; exists s'; auto].
Qed.
Lemma app_nonempty_r {A} (x y : list A) : y <> [] -> x ++ y <> [].
Proof. destruct x; [auto|discriminate]. Qed.
Lemma app_nonempty_l {A} (x y : list A) : x <> [] -> x ++ y <> [].
Proof. destruct x; [contradiction|discriminate]. Qed.
Lemma nonempty_length {A} (x : list A) : x <> [] -> (0 < length x)%nat.
Proof. destruct x; [contradiction|cbn; lia]. Qed.
Lemma nonempty_lenN {A} (x : list A) : x <> [] -> 0 < lenN x.
Proof. intros H. unfold lenN. apply nonempty_length in H. lia. Qed.

(** ** Numbers *)
Lemma code_cut m s t n : code m (s ++ t) n -> t <> [] -> short m s.
Proof.
  intros (p & x & E & Hx & _) Ht. destruct s as [|q s]; [left; reflexivity|]. right. cbn [app] in E. injection E as <- <-. exists q, s. split; [reflexivity|].
  rewrite app_length in Hx. apply nonempty_length in Ht. lia.
Qed.
Lemma short_code m s n : short m s -> ~ code m s n.
Proof. intros [->|(p & x & -> & Hx)] (p' & x' & E & Hx' & _); [discriminate|]. injection E as <- <-. lia. Qed.
Lemma short_code_more m s t n : short m s -> code m (s ++ t) n -> t <> [].
Proof. intros H H' ->. rewrite app_nil_r in H'. exact (short_code _ _ _ H H'). Qed.
Lemma fill_byte_ok b k : b < 256 -> bytes_ok (repeat b k).
Proof. intros Hb. apply Forall_forall. intros x Hx. apply repeat_spec in Hx as ->. exact Hb. Qed.
Lemma ones_le f b : (ones f b <= f)%nat.
Proof. revert b. induction f; intros b; cbn [ones]; [lia|]. destruct (128 <=? b); [specialize (IHf ((b - 128) * 2)); lia|lia]. Qed.
Lemma le_value_app x y : le_value (x ++ y) = le_value x + 256 ^ lenN x * le_value y.
Proof.
  induction x as [|b x IH]; cbn [app le_value]; [change (lenN (@nil N)) with 0; rewrite N.pow_0_r; lia|].
  rewrite IH, lenN_cons, N.pow_add_r, N.pow_1_r. ring.
Qed.
(** Filled with zeros a number stays small; filled with ones it is not zero. *)
Lemma code_fill m s : short m s -> (0 < m)%nat -> bytes_ok s ->
  (exists k n, (0 < k)%nat /\ code m (s ++ repeat 0 k) n /\ n < 2 ^ (7 * N.of_nat m)) /\
  (exists k n, (0 < k)%nat /\ code m (s ++ repeat 1 k) n /\ 0 < n).
Proof.
  intros [->|(p & x & -> & Hx)] Hm Hs.
  - split; exists 1%nat; [exists 0|exists 1]; (split; [lia|]); (split; [|try reflexivity]).
    + exists 0, []. repeat split. unfold varint_value. change (leading_ones 0) with O. destruct m; [lia|reflexivity].
    + apply N.neq_0_lt_0, N.pow_nonzero. lia.
    + exists 1, []. repeat split. unfold varint_value. change (leading_ones 1) with O. destruct m; [lia|reflexivity].
  - set (j := (varint_extra m p - length x)%nat). assert (Hj : (0 < j)%nat) by (unfold j; lia).
    assert (Hl : forall b, length (x ++ repeat b j) = varint_extra m p) by (intros b; rewrite app_length, repeat_length; unfold j; lia).
    assert (Hxb : bytes_ok x) by (inversion Hs; assumption).
    split; exists j; eexists; (split; [exact Hj|]); (split; [exists p; eexists; split; [reflexivity|]; split; [apply Hl|reflexivity]|]).
    + unfold varint_value. assert (B : le_value (x ++ repeat 0 j) < 256 ^ (N.of_nat (varint_extra m p) - 1)).
      { rewrite le_value_app. assert (Z : le_value (repeat 0 j) = 0) by (clear; induction j; cbn [repeat le_value]; lia). rewrite Z, N.mul_0_r, N.add_0_r.
        eapply N.lt_le_trans; [apply le_value_bound, Hxb|]. apply N.pow_le_mono_r; [lia|]. unfold lenN, j in *. lia. }
      unfold varint_extra in *. destruct (Nat.ltb_spec (leading_ones p) m) as [L|L].
      * rewrite Nat.min_l in * by lia. set (k := leading_ones p) in *.
        assert (K8 : (k <= 8)%nat) by apply ones_le. assert (K1 : (1 <= k)%nat) by lia.
        change 256 with (2 ^ 8) in B. rewrite <- N.pow_mul_r in B.
        assert (M : p mod 2 ^ (7 - N.of_nat k) < 2 ^ (7 - N.of_nat k)) by (apply N.mod_lt, N.pow_nonzero; lia).
        apply N.lt_le_trans with (2 ^ (7 - N.of_nat k) * 2 ^ (8 * (N.of_nat k - 1))).
        { apply N.lt_le_trans with (2 ^ (7 - N.of_nat k) * (le_value (x ++ repeat 0 j) + 1)); [rewrite N.mul_add_distr_l, N.mul_1_r, N.add_comm; apply N.add_lt_mono_l; exact M|]. apply N.mul_le_mono_l. rewrite N.add_1_r. apply N.le_succ_l. exact B. }
        rewrite <- N.pow_add_r. apply N.pow_le_mono_r; lia.
      * rewrite Nat.min_r in * by lia. eapply N.lt_le_trans; [exact B|]. change 256 with (2 ^ 8). rewrite <- N.pow_mul_r.
        apply N.pow_le_mono_r; [lia|]. assert (m <= 8)%nat by (pose proof (ones_le 8 p); unfold leading_ones in L; lia). lia.
    + unfold varint_value. assert (B : 0 < le_value (x ++ repeat 1 j)).
      { rewrite le_value_app. assert (Z : 0 < le_value (repeat 1 j)) by (destruct j; [lia|]; cbn [repeat le_value]; lia).
        apply N.add_pos_r, N.mul_pos_pos; [apply N.neq_0_lt_0, N.pow_nonzero; discriminate|exact Z]. }
      destruct (Nat.ltb_spec (leading_ones p) m); [|exact B].
      apply N.add_pos_r, N.mul_pos_pos; [apply N.neq_0_lt_0, N.pow_nonzero; discriminate|exact B].
Qed.

(** ** Lengths followed by bytes *)
Lemma block_cut s t bs : block (s ++ t) bs -> t <> [] -> no_block s.
Proof.
  intros (l & E & Hl) Ht. destruct (app_cut l bs s t (eq_sym E) Ht) as [(t' & Ht' & -> & _)|(s' & -> & ->)].
  - left. exact (code_cut _ _ _ _ Hl Ht').
  - right. exists l, (lenN (s' ++ t)), s'. split; [reflexivity|]. split; [exact Hl|]. rewrite lenN_app. apply nonempty_lenN in Ht. lia.
Qed.
Lemma lenN_repeat {A} (a : A) k : lenN (repeat a k) = N.of_nat k.
Proof. unfold lenN. rewrite repeat_length. reflexivity. Qed.
Lemma block_fill s : bytes_ok s -> no_block s -> exists t bs, bytes_ok t /\ t <> [] /\ block (s ++ t) bs /\ bs <> [].
Proof.
  intros Hs [H|(l & n & r & -> & Hl & Hn)].
  - destruct (code_fill 8 s H) as [_ (k & n & Hk & Hc & Hn)]; [lia|exact Hs|]. exists (repeat 1 k ++ repeat 0 (N.to_nat n)), (repeat 0 (N.to_nat n)). split; [apply Forall_app; split; apply fill_byte_ok; lia|].
    split; [apply app_nonempty_l; destruct k; [lia|discriminate]|]. split; [|destruct (N.to_nat n) eqn:E; [lia|discriminate]].
    exists (s ++ repeat 1 k). split; [apply app_assoc|]. rewrite lenN_repeat, N2Nat.id. exact Hc.
  - exists (repeat 0 (N.to_nat (n - lenN r))), (r ++ repeat 0 (N.to_nat (n - lenN r))). split; [apply fill_byte_ok; lia|].
    assert (X : repeat 0 (N.to_nat (n - lenN r)) <> []) by (destruct (N.to_nat (n - lenN r)) eqn:E; [lia|discriminate]).
    split; [exact X|]. split; [|apply app_nonempty_r, X]. exists l. split; [symmetry; apply app_assoc|].
    rewrite lenN_app, lenN_repeat, N2Nat.id. replace (lenN r + (n - lenN r)) with n by lia. exact Hl.
Qed.
(** ** Text *)
Lemma wellformed_app a b : wellformed a -> wellformed b -> wellformed (a ++ b).
Proof. intros (x & Hx & ->) (y & Hy & ->). exists (x ++ y). split; [apply Forall_app; auto|]. rewrite map_app, concat_app. reflexivity. Qed.
Lemma wellformed_char c : scalar c -> wellformed (utf8 c).
Proof. intros H. exists [c]. split; [auto|]. cbn. rewrite app_nil_r. reflexivity. Qed.
Lemma wellformed_zeros k : wellformed (repeat 0 k).
Proof. exists (repeat 0 k). split; [apply Forall_forall; intros x Hx; apply repeat_spec in Hx as ->; left; reflexivity|]. induction k; cbn [repeat map concat]; [reflexivity|]. rewrite <- IHk. reflexivity. Qed.
Lemma text_start_cut s t : wellformed (s ++ t) -> t <> [] -> text_start (lenN (s ++ t)) s.
Proof.
  intros (cs & Hcs & E) Ht. split; [rewrite lenN_app; apply nonempty_lenN in Ht; lia|]. revert s E. induction cs as [|c cs IH]; intros s E; cbn [map concat] in E.
  - exists [], []. apply app_eq_nil in E as [-> ->]. contradiction.
  - inversion Hcs; subst. destruct (app_cut _ _ _ _ (eq_sym E) Ht) as [(t' & Ht' & E1 & E2)|(s' & -> & E2)].
    + exists [], s. split; [reflexivity|]. split; [exists []; auto|]. right. exists c, t'. split; [assumption|]. split; [exact E1|]. rewrite E1, E2, !lenN_app. change (lenN (@nil N)) with 0. lia.
    + destruct (IH H2 s' (eq_sym E2)) as (w & p & -> & Hw & Hp). exists (utf8 c ++ w), p. split; [rewrite app_assoc; reflexivity|].
      split; [apply wellformed_app; [apply wellformed_char; assumption|exact Hw]|].
      destruct Hp as [Hp|(ch & x & H3 & H4 & H5)]; [left; exact Hp|right]. exists ch, x. split; [exact H3|]. split; [exact H4|]. rewrite !lenN_app in *. lia.
Qed.
Lemma text_start_fill n r : text_start n r -> exists t, bytes_ok t /\ t <> [] /\ wellformed (r ++ t) /\ lenN (r ++ t) = n.
Proof.
  intros (Hn & w & p & -> & Hw & [->|(ch & t & Hc & E & Hl)]).
  - rewrite app_nil_r in *. exists (repeat 0 (N.to_nat (n - lenN w))). split; [apply fill_byte_ok; lia|]. split; [destruct (N.to_nat (n - lenN w)) eqn:X; [lia|discriminate]|].
    split; [apply wellformed_app; [exact Hw|apply wellformed_zeros]|]. rewrite lenN_app, lenN_repeat, N2Nat.id. lia.
  - set (k := N.to_nat (n - (lenN w + lenN (utf8 ch)))). exists (t ++ repeat 0 k).
    assert (W : (w ++ p) ++ t ++ repeat 0 k = w ++ utf8 ch ++ repeat 0 k) by (rewrite E, !app_assoc; reflexivity).
    assert (L : lenN ((w ++ p) ++ t ++ repeat 0 k) = n) by (rewrite W, !lenN_app, lenN_repeat; unfold k; lia).
    split; [apply Forall_app; split; [|apply fill_byte_ok; lia]; pose proof (utf8_bytes ch Hc) as B; rewrite E in B; apply Forall_app in B as [_ B]; exact B|].
    split; [intros X; rewrite X, app_nil_r in L; rewrite L in Hn; lia|]. split; [|exact L].
    rewrite W. apply wellformed_app; [exact Hw|]. apply wellformed_app; [apply wellformed_char, Hc|apply wellformed_zeros].
Qed.
Lemma text_cut_of s t bs : block (s ++ t) bs -> wellformed bs -> t <> [] -> text_cut s.
Proof.
  intros (l & E & Hl) Hw Ht. destruct (app_cut l bs s t (eq_sym E) Ht) as [(t' & Ht' & -> & _)|(s' & -> & ->)].
  - left. exact (code_cut _ _ _ _ Hl Ht').
  - right. exists l, (lenN (s' ++ t)), s'. split; [reflexivity|]. split; [exact Hl|]. apply text_start_cut; assumption.
Qed.
Lemma text_fill s : bytes_ok s -> text_cut s -> exists t bs, bytes_ok t /\ t <> [] /\ block (s ++ t) bs /\ wellformed bs /\ bs <> [].
Proof.
  intros Hs [H|(l & n & r & -> & Hl & Hn)].
  - destruct (code_fill 8 s H) as [_ (k & n & Hk & Hc & Hn)]; [lia|exact Hs|]. exists (repeat 1 k ++ repeat 0 (N.to_nat n)), (repeat 0 (N.to_nat n)). split; [apply Forall_app; split; apply fill_byte_ok; lia|].
    split; [apply app_nonempty_l; destruct k; [lia|discriminate]|]. split; [|split; [apply wellformed_zeros|destruct (N.to_nat n) eqn:E; [lia|discriminate]]].
    exists (s ++ repeat 1 k). split; [apply app_assoc|]. rewrite lenN_repeat, N2Nat.id. exact Hc.
  - destruct (text_start_fill n r Hn) as (t & H1 & H2 & H3 & H4). exists t, (r ++ t). repeat split; [exact H1|exact H2| |exact H3|apply app_nonempty_r, H2].
    exists l. split; [symmetry; apply app_assoc|]. rewrite H4. exact Hl.
Qed.
Lemma wellformed_first bs : wellformed bs -> bs <> [] -> exists ch t, scalar ch /\ wellformed t /\ bs = utf8 ch ++ t.
Proof.
  intros (cs & H & ->) Hn. destruct cs as [|c cs]; [contradiction|]. inversion H; subst. exists c, (concat (map utf8 cs)). split; [assumption|]. split; [exists cs; auto|reflexivity].
Qed.
(** ** Dates, times and decimals *)
Lemma date_cut c l k y o s t : code 4 l y -> code 2 k o -> date_range c (unzigzag y) o -> l ++ k = s ++ t -> t <> [] -> no_date c s read_error.
Proof.
  intros Hl Hk Hr E Ht. destruct (app_cut _ _ _ _ E Ht) as [(t' & Ht' & -> & _)|(s' & -> & ->)].
  - left. split; [exact (code_cut _ _ _ _ Hl Ht')|reflexivity].
  - right. exists l, y, s'. split; [reflexivity|]. split; [exact Hl|]. cbv zeta. right. left. split; [|split; [exact (code_cut _ _ _ _ Hk Ht)|reflexivity]].
    intros [H1 H2]. destruct (Hr H1). lia.
Qed.
Lemma unzigzag_small n : n < 2 ^ 28 -> (unzigzag n + 2000 < 2 ^ 31)%Z.
Proof.
  intros H. unfold unzigzag. assert (n / 2 <= n) by (apply N.div_le_upper_bound; lia). generalize dependent (n / 2). intros q Hq.
  change (2 ^ 28) with 268435456 in H. change (2 ^ 31)%Z with 2147483648%Z. destruct (N.even n); lia.
Qed.
Lemma zeros_nonempty k : (0 < k)%nat -> repeat 0 k <> [].
Proof. destruct k; [lia|discriminate]. Qed.
Lemma code_zero m : code m [0] 0.
Proof. exists 0, []. repeat split. unfold varint_value. change (leading_ones 0) with O. destruct m; reflexivity. Qed.
Lemma date_fill c s : bytes_ok s -> no_date c s read_error ->
  exists t l k y o, bytes_ok t /\ t <> [] /\ s ++ t = l ++ k /\ code 4 l y /\ code 2 k o /\ date_range c (unzigzag y) o.
Proof.
  intros Hs [[H _]|(l & y & r & -> & Hl & H)].
  - destruct (code_fill 4 s H) as [(k & y & Hk & Hc & Hy) _]; [lia|exact Hs|]. exists (repeat 0 k ++ [0]), (s ++ repeat 0 k), [0], y, 0.
    split; [apply Forall_app; split; [apply zeros_ok|apply (zeros_ok 1)]|]. split; [apply app_nonempty_r; discriminate|]. split; [apply app_assoc|]. split; [exact Hc|].
    split; [apply code_zero|]. intros _. split; [apply unzigzag_small; exact Hy|reflexivity].
  - cbv zeta in H. destruct H as [[_ X]|[(Ho & Hr & _)|(_ & k & o & r' & _ & _ & _ & _ & X)]]; [discriminate| |discriminate].
    destruct (code_fill 2 r Hr) as [(k & o & Hk & Hc & Hy) _]; [lia|apply Forall_app in Hs as [_ Hs]; exact Hs|].
    exists (repeat 0 k), l, (r ++ repeat 0 k), y, o. split; [apply zeros_ok|]. split; [apply zeros_nonempty, Hk|]. split; [symmetry; apply app_assoc|]. split; [exact Hl|]. split; [exact Hc|].
    intros X. split; [destruct (Z.lt_ge_cases (unzigzag y + 2000) (2 ^ 31)); [assumption|exfalso; apply Ho; auto]|].
    change (2 ^ (7 * N.of_nat 2)) with 16384 in Hy. change (2 ^ 16) with 65536. lia.
Qed.
Lemma date_time_cut l k n y s t : code 8 l n -> code 4 k y -> l ++ k = s ++ t -> t <> [] -> no_date_time s.
Proof.
  intros Hl Hk E Ht. destruct (app_cut _ _ _ _ E Ht) as [(t' & Ht' & -> & _)|(s' & -> & ->)].
  - left. exact (code_cut _ _ _ _ Hl Ht').
  - right. exists l, n, s'. split; [reflexivity|]. split; [exact Hl|exact (code_cut _ _ _ _ Hk Ht)].
Qed.
Lemma date_time_fill s : bytes_ok s -> no_date_time s -> exists t l k n y, bytes_ok t /\ t <> [] /\ s ++ t = l ++ k /\ code 8 l n /\ code 4 k y.
Proof.
  intros Hs [H|(l & n & r & -> & Hl & H)].
  - destruct (code_fill 8 s H) as [(k & y & Hk & Hc & _) _]; [lia|exact Hs|]. exists (repeat 0 k ++ [0]), (s ++ repeat 0 k), [0], y, 0.
    split; [apply Forall_app; split; [apply zeros_ok|apply (zeros_ok 1)]|]. split; [apply app_nonempty_r; discriminate|]. split; [apply app_assoc|]. split; [exact Hc|apply code_zero].
  - destruct (code_fill 4 r H) as [(k & y & Hk & Hc & _) _]; [lia|apply Forall_app in Hs as [_ Hs]; exact Hs|].
    exists (repeat 0 k), l, (r ++ repeat 0 k), n, y. split; [apply zeros_ok|]. split; [apply zeros_nonempty, Hk|]. split; [symmetry; apply app_assoc|]. auto.
Qed.
Lemma decimal_cut u bs l n s t : block u bs -> bs <> [] -> code 8 l n -> u ++ l = s ++ t -> t <> [] -> no_decimal s.
Proof.
  intros Hu Hb Hl E Ht. destruct (app_cut _ _ _ _ E Ht) as [(t' & Ht' & -> & _)|(s' & -> & ->)].
  - left. exact (block_cut _ _ _ Hu Ht').
  - right. exists u, bs, s'. split; [reflexivity|]. split; [exact Hu|]. split; [exact Hb|exact (code_cut _ _ _ _ Hl Ht)].
Qed.
Lemma decimal_fill s : bytes_ok s -> no_decimal s -> exists t u bs l n, bytes_ok t /\ t <> [] /\ s ++ t = u ++ l /\ bs <> [] /\ block u bs /\ code 8 l n.
Proof.
  intros Hs [H|(u & bs & r & -> & Hu & Hb & H)].
  - destruct (block_fill s Hs H) as (t & bs & H1 & H2 & H3 & H4). exists (t ++ [0]), (s ++ t), bs, [0], 0. split; [apply Forall_app; split; [exact H1|apply (zeros_ok 1)]|].
    split; [apply app_nonempty_r; discriminate|]. split; [apply app_assoc|]. repeat split; [exact H4|exact H3|apply code_zero].
  - destruct (code_fill 8 r H) as [(k & y & Hk & Hc & _) _]; [lia|apply Forall_app in Hs as [_ Hs]; exact Hs|].
    exists (repeat 0 k), u, bs, (r ++ repeat 0 k), y. split; [apply zeros_ok|]. split; [apply zeros_nonempty, Hk|]. split; [symmetry; apply app_assoc|]. auto.
Qed.

(** ** Types *)
Lemma cut_all_same c d n s : cut_all c (repeat d n) s ->
  exists u vs s', s = u ++ s' /\ accepts_all c (map (fun _ => d) vs) u vs /\ lenN vs < N.of_nat n /\ cut c d s'.
Proof.
  revert s. induction n as [|n IH]; intros s H; inversion H as [d' ds s' Hc Hp|d' ds u v s' Ha Hc]; subst.
  - exists [], [], s. split; [reflexivity|]. split; [constructor|]. split; [cbn [lenN length]; unfold lenN; cbn; lia|exact Hc].
  - destruct (IH _ Hc) as (w & vs & r & -> & H1 & H2 & H3). exists (u ++ w), (v :: vs), r. split; [apply app_assoc|]. split; [cbn [map]; constructor; assumption|].
    split; [rewrite lenN_cons; lia|exact H3].
Qed.
Lemma map_const_repeat {A B} (a : A) (l : list B) : map (fun _ => a) l = repeat a (length l).
Proof. induction l; cbn; congruence. Qed.

Definition entries_cut (c : cfg) (d : dty) (n : N) (s : list N) : Prop :=
  exists u es s', s = u ++ s' /\ accepts_entries c d u es /\ lenN es < n /\
    ((text_cut s' /\ possible c d) \/ exists k bs r, s' = k ++ r /\ wellformed bs /\ block k bs /\ cut c d r).

Lemma cut_of c :
  (forall d w v, accepts c d w v -> forall s t, w = s ++ t -> t <> [] -> bytes_ok w -> cut c d s) /\
  (forall ds w vs, accepts_all c ds w vs -> forall s t, w = s ++ t -> t <> [] -> bytes_ok w -> cut_all c ds s) /\
  (forall d w es, accepts_entries c d w es -> forall s t, w = s ++ t -> t <> [] -> bytes_ok w -> entries_cut c d (lenN es) s).
Proof.
  assert (One : forall (b : N) s t, [b] = s ++ t -> t <> [] -> s = []).
  { intros b [|x s] t E Ht; [reflexivity|]. cbn [app] in E. injection E as _ E. symmetry in E. apply app_eq_nil in E as [_ ->]. contradiction. }
  assert (Code : forall m w n s t, code m w n -> w = s ++ t -> t <> [] -> short m s) by (intros m w n s t H -> Ht; exact (code_cut _ _ _ _ H Ht)).
  assert (Block : forall w bs s t, block w bs -> w = s ++ t -> t <> [] -> no_block s) by (intros w bs s t H -> Ht; exact (block_cut _ _ _ H Ht)).
  assert (Len : forall k (w s t : list N), length w = k -> w = s ++ t -> t <> [] -> (length s < k)%nat).
  { intros k w s t <- -> Ht. rewrite app_length. apply nonempty_length in Ht. lia. }
  assert (Num : forall m (P : N -> Prop) l n s t, code m l n -> P n -> l = s ++ t -> t <> [] -> bytes_ok l -> number_cut m P s).
  { intros m P l n s t Hl Hn -> Ht Hb. split; [exact (code_cut _ _ _ _ Hl Ht)|]. exists t, n. apply Forall_app in Hb as [_ Hb]. auto. }
  apply accepts_mut; intros; subst.
  - rewrite (One _ _ _ H H0). constructor.
  - rewrite (One _ _ _ H H0). constructor.
  - constructor; eauto.
  - constructor; eauto.
  - constructor; eauto.
  - constructor; eauto.
  - rewrite (One _ _ _ H H0). constructor.
  - constructor; eauto.
  - constructor; eauto.
  - constructor; eauto.
  - constructor; eauto.
  - constructor; eauto.
  - constructor; eauto.
  - constructor. eapply text_cut_of; eauto. apply wellformed_app; [apply wellformed_char; assumption|assumption].
  - constructor. eapply text_cut_of; eauto.
  - constructor; eauto.
  - rewrite (One _ _ _ H H0). constructor.
  - destruct s as [|b s]; [constructor|]. cbn [app] in H0. injection H0 as <- ->. constructor. inversion H2; eauto.
  - symmetry in H. apply app_eq_nil in H as [_ ->]. contradiction.
  - symmetry in H. apply app_eq_nil in H as [_ ->]. contradiction.
  - constructor. eapply H; eauto.
  - apply Forall_app in H2 as [B1 B2]. destruct (app_cut _ _ _ _ H0 H1) as [(t' & Ht' & E & _)|(s' & -> & ->)].
    + apply cu_vec_count. eapply Num; eauto. destruct vs as [|v vs]; [left; reflexivity|right]. inversion a; subst. apply Forall_app in B2 as [B2 _]. eexists; eexists; split; eauto.
    + specialize (H s' t eq_refl H1 B2). rewrite map_const_repeat in H. apply cut_all_same in H as (w & us & r & -> & X1 & X2 & X3).
      eapply cu_vec; eauto.
  - constructor. eapply H; eauto.
  - constructor. eapply H; eauto.
  - apply Forall_app in H2 as [B1 B2]. destruct (app_cut _ _ _ _ H0 H1) as [(t' & Ht' & E & _)|(s' & -> & ->)].
    + apply cu_map_count. eapply Num; eauto. destruct es as [|kv es]; [left; reflexivity|right]. inversion a; subst. apply Forall_app in B2 as [_ B2]. apply Forall_app in B2 as [B2 _]. eexists; eexists; split; eauto.
    + destruct (H s' t eq_refl H1 B2) as (w & us & r & -> & X1 & X2 & [[X3 X4]|(k & bs & q & -> & X3 & X4 & X5)]).
      * eapply cu_map_key; eauto.
      * eapply cu_map_value; eauto.
  - eapply cu_struct; eauto. intros g Hg. match goal with F : Forall2 (field_value _) _ _ |- _ => clear - F Hg; induction F as [|g' w gs ws Hw _ IH] end; [contradiction|]. destruct Hg as [->|Hg]; [|auto].
    destruct Hw as [Hw|(_ & _ & Hw)]; [left|right; exact Hw]. eapply in_combine_l, Hw.
  - apply cu_index. eapply Num; eauto. exists KUnit, DUnit. split; [assumption|]. exists [], SUnit. split; [constructor|constructor].
  - apply Forall_app in H2 as [B1 B2]. destruct (app_cut _ _ _ _ H0 H1) as [(t' & Ht' & E & _)|(s' & -> & ->)].
    + apply cu_index. eapply Num; eauto. exists KNewtype, d. split; [assumption|]. exists u, v. auto.
    + eapply cu_enum; eauto.
  - apply Forall_app in H2 as [B1 B2]. destruct (app_cut _ _ _ _ H0 H1) as [(t' & Ht' & E & _)|(s' & -> & ->)].
    + apply cu_index. eapply Num; eauto. exists KTuple, (DTuple ds). split; [assumption|]. exists u, (STuple xs). split; [assumption|constructor; assumption].
    + eapply cu_enum; eauto. constructor. eapply H; eauto.
  - apply Forall_app in H2 as [B1 B2]. destruct (app_cut _ _ _ _ H0 H1) as [(t' & Ht' & E & _)|(s' & -> & ->)].
    + apply cu_index. eapply Num; eauto. exists KStruct, (DStruct keys fields). split; [assumption|]. exists u, (SStruct xs). auto.
    + eapply cu_enum; eauto.
  - constructor; eauto.
  - constructor; eauto.
  - constructor. left. left. eauto.
  - constructor. eapply decimal_cut; eauto.
  - constructor. eapply date_cut; eauto.
  - constructor. eapply date_time_cut; eauto.
  - symmetry in H. apply app_eq_nil in H as [_ ->]. contradiction.
  - apply Forall_app in H3 as [B1 B2]. destruct (app_cut _ _ _ _ H1 H2) as [(t' & Ht' & E & _)|(s' & -> & ->)].
    + apply ca_here; [eapply H; eauto|]. exists w, vs. auto.
    + eapply ca_later; eauto.
  - symmetry in H. apply app_eq_nil in H as [_ ->]. contradiction.
  - apply Forall_app in H3 as [B1 B2]. apply Forall_app in B2 as [B2 B3]. destruct (app_cut _ _ _ _ H1 H2) as [(t' & Ht' & E & _)|(s' & -> & E)].
    + exists [], [], s. split; [reflexivity|]. split; [constructor|]. split; [rewrite lenN_cons; change (lenN (@nil (list N * sval))) with 0; lia|]. left. split; [subst; eapply text_cut_of; eauto|]. exists u, v. auto.
    + destruct (app_cut _ _ _ _ E H2) as [(t' & Ht' & E' & _)|(s2 & -> & ->)].
      * exists [], [], (x ++ s'). split; [reflexivity|]. split; [constructor|]. split; [rewrite lenN_cons; change (lenN (@nil (list N * sval))) with 0; lia|].
        right. exists x, k, s'. split; [reflexivity|]. split; [assumption|]. split; [assumption|]. eapply H; eauto.
      * destruct (H0 s2 t eq_refl H2 B3) as (w & us & r & -> & X1 & X2 & X3). exists (x ++ u ++ w), ((k, v) :: us), r.
        split; [rewrite <- !app_assoc; reflexivity|]. split; [constructor; assumption|]. split; [rewrite !lenN_cons; lia|exact X3].
Qed.
Lemma accepts_all_app c ds u vs ds' u' vs' : accepts_all c ds u vs -> accepts_all c ds' u' vs' -> accepts_all c (ds ++ ds') (u ++ u') (vs ++ vs').
Proof. intros H. revert ds' u' vs'. induction H; intros ds' u' vs' H'; [exact H'|]. cbn [app]. rewrite <- app_assoc. constructor; auto. Qed.
Lemma accepts_entries_app c d u es u' es' : accepts_entries c d u es -> accepts_entries c d u' es' -> accepts_entries c d (u ++ u') (es ++ es').
Proof. intros H. revert u' es'. induction H; intros u' es' H'; [exact H'|]. cbn [app]. rewrite <- !app_assoc. constructor; auto. Qed.
Lemma copies c d k : k = O \/ possible c d -> exists u vs, bytes_ok u /\ length vs = k /\ accepts_all c (map (fun _ => d) vs) u vs.
Proof.
  intros [->|(w & v & Hw & Hv)]; [exists [], []; repeat split; constructor|]. induction k as [|k (u & vs & H1 & H2 & H3)]; [exists [], []; repeat split; constructor|].
  exists (w ++ u), (v :: vs). split; [apply Forall_app; auto|]. split; [cbn; lia|]. cbn [map]. constructor; assumption.
Qed.
Lemma entry_copies c d k : k = O \/ possible c d -> exists u es, bytes_ok u /\ length es = k /\ accepts_entries c d u es.
Proof.
  intros [->|(w & v & Hw & Hv)]; [exists [], []; repeat split; constructor|]. induction k as [|k (u & es & H1 & H2 & H3)]; [exists [], []; repeat split; constructor|].
  exists ([0] ++ w ++ u), (([], v) :: es). split; [constructor; [reflexivity|]; apply Forall_app; auto|]. split; [cbn; lia|]. constructor; [exists []; auto| |assumption|assumption].
  exists [0]. split; [reflexivity|apply code_zero].
Qed.
Lemma map_made {V} (es : list (list N * V)) : exists m, StronglySorted lex_lt (map fst m) /\ forall k, last_binding k m = last_binding k es.
Proof. exists (insert_all es []). apply (proj1 (insert_all_iff es _)). reflexivity. Qed.
Lemma fields_made (keys : list string) (vs : list sval) (fields : list (string * dty)) : length keys = length vs ->
  (forall f, In f fields -> In (fst f) keys \/ exists d, snd f = DOption d) -> exists ws, Forall2 (field_value (combine keys vs)) fields ws.
Proof.
  intros Hl. induction fields as [|f fs IH]; intros H; [exists []; constructor|]. destruct IH as [ws Hws]; [intros g Hg; apply H; right; exact Hg|].
  assert (D : {In (fst f) (map fst (combine keys vs))} + {~ In (fst f) (map fst (combine keys vs))}) by (apply in_dec, string_dec).
  destruct D as [D|D].
  - apply in_map_iff in D as ([k w] & E & D). cbn [fst] in E. subst k. exists (w :: ws). constructor; [left; exact D|exact Hws].
  - exists (SNone :: ws). constructor; [right|exact Hws]. split; [exact D|]. split; [reflexivity|]. destruct (H f (or_introl eq_refl)) as [X|X]; [|exact X].
    rewrite map_fst_combine in D by exact Hl. contradiction.
Qed.
Lemma Forall2_len {A B} (P : A -> B -> Prop) l m : Forall2 P l m -> length l = length m.
Proof. induction 1; cbn; congruence. Qed.

Lemma variant_made c vs l i k d u v : payload_shape k d = true -> code 2 l i -> pickN vs i = Some (k, d) -> accepts c d u v -> exists w, accepts c (DEnum vs) (l ++ u) w.
Proof.
  intros Hs Hl Hp Hv. destruct k.
  - destruct d; try discriminate. inversion Hv; subst. rewrite app_nil_r. eexists. eapply ac_unit_variant; eassumption.
  - eexists. eapply ac_newtype_variant; eassumption.
  - destruct d; try discriminate. inversion Hv; subst. eexists. eapply ac_tuple_variant; eassumption.
  - destruct d; try discriminate. inversion Hv; subst. eexists. eapply ac_struct_variant; eassumption.
Qed.
Lemma shaped_variant vs i k d : shaped (DEnum vs) = true -> pickN vs i = Some (k, d) -> payload_shape k d = true /\ shaped d = true.
Proof. cbn [shaped]. rewrite forallb_forall. intros H Hp. apply pickN_some in Hp as [Hp _]. apply H in Hp. apply andb_prop in Hp. exact Hp. Qed.

Lemma cut_fill c :
  (forall d s, cut c d s -> shaped d = true -> bytes_ok s -> exists t v, bytes_ok t /\ t <> [] /\ accepts c d (s ++ t) v) /\
  (forall ds s, cut_all c ds s -> forallb shaped ds = true -> bytes_ok s -> exists t vs, bytes_ok t /\ t <> [] /\ accepts_all c ds (s ++ t) vs).
Proof.
  assert (Code : forall m s, short m s -> (0 < m)%nat -> bytes_ok s -> exists t n, bytes_ok t /\ t <> [] /\ code m (s ++ t) n).
  { intros m s H Hm Hs. destruct (code_fill m s H Hm Hs) as [(k & n & Hk & Hc & _) _]. exists (repeat 0 k), n. split; [apply zeros_ok|]. split; [apply zeros_nonempty, Hk|exact Hc]. }
  assert (Fix : forall k s, (length s < k)%nat -> exists t, bytes_ok t /\ t <> [] /\ length (s ++ t) = k).
  { intros k s H. exists (repeat 0 (k - length s)). split; [apply zeros_ok|]. split; [apply zeros_nonempty; lia|]. rewrite app_length, repeat_length. lia. }
  assert (Zero : bytes_ok [0]) by apply (zeros_ok 1). assert (NZ : [0] <> []) by discriminate.
  apply cut_mut; intros.
  - exists [0], (SBool false). repeat split; [exact Zero|exact NZ|]. apply (ac_bool c false).
  - exists [0], (SU8 0). repeat split; [exact Zero|exact NZ|]. constructor.
  - destruct (Code 2%nat _ s0) as (t & n & H2 & H3 & H4); [lia|assumption|]. exists t. eexists. repeat split; eauto. constructor; exact H4.
  - destruct (Code 4%nat _ s0) as (t & n & H2 & H3 & H4); [lia|assumption|]. exists t. eexists. repeat split; eauto. constructor; exact H4.
  - destruct (Code 8%nat _ s0) as (t & n & H2 & H3 & H4); [lia|assumption|]. exists t. eexists. repeat split; eauto. constructor; exact H4.
  - destruct (Code 8%nat _ s0) as (t & n & H2 & H3 & H4); [lia|assumption|]. exists t. eexists. repeat split; eauto. constructor; exact H4.
  - exists [0]. eexists. repeat split; [exact Zero|exact NZ|]. constructor.
  - destruct (Code 2%nat _ s0) as (t & n & H2 & H3 & H4); [lia|assumption|]. exists t. eexists. repeat split; eauto. constructor; exact H4.
  - destruct (Code 4%nat _ s0) as (t & n & H2 & H3 & H4); [lia|assumption|]. exists t. eexists. repeat split; eauto. constructor; exact H4.
  - destruct (Code 8%nat _ s0) as (t & n & H2 & H3 & H4); [lia|assumption|]. exists t. eexists. repeat split; eauto. constructor; exact H4.
  - destruct (Code 8%nat _ s0) as (t & n & H2 & H3 & H4); [lia|assumption|]. exists t. eexists. repeat split; eauto. constructor; exact H4.
  - destruct (Fix 4%nat s) as (t & H2 & H3 & H4); [assumption|]. exists t. eexists. repeat split; eauto. constructor; exact H4.
  - destruct (Fix 8%nat s) as (t & H2 & H3 & H4); [assumption|]. exists t. eexists. repeat split; eauto. constructor; exact H4.
  - destruct (text_fill s) as (q & bs & H2 & H3 & H4 & H5 & H6); [assumption|assumption|]. destruct (wellformed_first bs H5 H6) as (ch & r & X1 & X2 & ->).
    exists q. eexists. repeat split; eauto. eapply ac_char; eauto.
  - destruct (text_fill s) as (q & bs & H2 & H3 & H4 & H5 & H6); [assumption|assumption|]. exists q. eexists. repeat split; eauto. constructor; eauto.
  - destruct (block_fill s) as (t & bs & H2 & H3 & H4 & H5); [assumption|assumption|]. exists t. eexists. repeat split; eauto. constructor; eauto.
  - exists [0], SNone. repeat split; [exact Zero|exact NZ|]. constructor.
  - inversion H1; subst. destruct H as (t & v & H2 & H3 & H6); [assumption|assumption|]. exists t. eexists. repeat split; eauto. cbn [app]. constructor. eauto.
  - destruct H as (t & v & H2 & H3 & H4); [assumption|assumption|]. exists t. eexists. repeat split; eauto. constructor. eauto.
  - destruct n as (Hs & t & n & Ht & Hn & Hp). destruct (copies c d (N.to_nat n)) as (u & vs & H2 & H3 & H4); [destruct Hp as [->|Hp]; auto|].
    exists (t ++ u), (SSeq (Some (lenN vs)) vs). split; [apply Forall_app; auto|]. split; [apply app_nonempty_l; eapply short_code_more; eauto|].
    rewrite app_assoc. constructor; [|exact H4]. unfold lenN. rewrite H3, N2Nat.id. exact Hn.
  - apply Forall_app in H1 as [B1 B2]. apply Forall_app in B2 as [B2 B3]. destruct H as (t & v & H2 & H3 & H4); [assumption|assumption|].
    destruct (copies c d (N.to_nat (n - lenN vs - 1))) as (w & ws & H5 & H6 & H7); [right; exists (s ++ t), v; split; [apply Forall_app; auto|exact H4]|].
    exists (t ++ w), (SSeq (Some (lenN (vs ++ v :: ws))) (vs ++ v :: ws)). split; [apply Forall_app; auto|]. split; [apply app_nonempty_l; exact H3|].
    replace ((l ++ u ++ s) ++ t ++ w) with (l ++ u ++ (s ++ t) ++ w) by (rewrite <- !app_assoc; reflexivity). constructor.
    + replace (lenN (vs ++ v :: ws)) with n; [assumption|]. rewrite lenN_app, lenN_cons. unfold lenN at 2. rewrite H6. lia.
    + rewrite map_app. cbn [map]. apply accepts_all_app; [assumption|]. constructor; assumption.
  - destruct H as (t & vs & H2 & H3 & H4); [assumption|assumption|]. exists t. eexists. repeat split; eauto. constructor. eauto.
  - destruct H as (t & vs & H2 & H3 & H4); [assumption|assumption|]. exists t. eexists. repeat split; eauto. constructor. eauto.
  - destruct n as (Hs & t & n & Ht & Hn & Hp). destruct (entry_copies c d (N.to_nat n)) as (u & es & H2 & H3 & H4); [destruct Hp as [->|Hp]; auto|].
    destruct (map_made es) as (m & M1 & M2).
    exists (t ++ u), (SMap (Some (lenN m)) (entries m)). split; [apply Forall_app; auto|]. split; [apply app_nonempty_l; eapply short_code_more; eauto|].
    rewrite app_assoc. eapply ac_map; [|exact H4|exact M1|exact M2]. unfold lenN. rewrite H3, N2Nat.id. exact Hn.
  - apply Forall_app in H0 as [B1 B2]. apply Forall_app in B2 as [B2 B3]. destruct (text_fill s) as (q & bs & H2 & H3 & H4 & H5 & _); [assumption|assumption|].
    destruct (entry_copies c d (N.to_nat (n - lenN es - 1))) as (w & ws & H6 & H7 & H8); [right; assumption|]. destruct p as (x & v & Hx & Hv).
    destruct (map_made (es ++ (bs, v) :: ws)) as (m & M1 & M2).
    exists (q ++ x ++ w), (SMap (Some (lenN m)) (entries m)). split; [apply Forall_app; split; [exact H2|apply Forall_app; auto]|]. split; [apply app_nonempty_l; exact H3|].
    replace ((l ++ u ++ s) ++ q ++ x ++ w) with (l ++ u ++ (s ++ q) ++ x ++ w) by (rewrite <- !app_assoc; reflexivity).
    eapply ac_map; [| |exact M1|exact M2].
    + replace (lenN (es ++ (bs, v) :: ws)) with n; [assumption|]. rewrite lenN_app, lenN_cons. unfold lenN at 2. rewrite H7. lia.
    + apply accepts_entries_app; [assumption|]. constructor; assumption.
  - apply Forall_app in H1 as [B1 B2]. apply Forall_app in B2 as [B2 B3]. apply Forall_app in B3 as [B3 B4]. destruct H as (t & v & H2 & H3 & H4); [assumption|assumption|].
    destruct (entry_copies c d (N.to_nat (n - lenN es - 1))) as (y & ws & H6 & H7 & H8); [right; exists (s ++ t), v; split; [apply Forall_app; auto|exact H4]|].
    destruct (map_made (es ++ (bs, v) :: ws)) as (m & M1 & M2).
    exists (t ++ y), (SMap (Some (lenN m)) (entries m)). split; [apply Forall_app; auto|]. split; [apply app_nonempty_l; exact H3|].
    replace ((l ++ u ++ k ++ s) ++ t ++ y) with (l ++ u ++ k ++ (s ++ t) ++ y) by (rewrite <- !app_assoc; reflexivity).
    eapply ac_map; [| |exact M1|exact M2].
    + replace (lenN (es ++ (bs, v) :: ws)) with n; [assumption|]. rewrite lenN_app, lenN_cons. unfold lenN at 2. rewrite H7. lia.
    + apply accepts_entries_app; [assumption|]. constructor; assumption.
  - cbn [shaped] in H0. apply andb_prop in H0 as [H0 Hsh]. destruct H as (t & vs & H2 & H3 & H4); [|assumption|].
    { rewrite forallb_forall in *. intros d Hd. clear - f Hd Hsh. induction f as [|k d' ks ds Hk _ IH]; [contradiction|]. destruct Hd as [->|Hd]; [exact (Hsh _ Hk)|auto]. }
    destruct (fields_made keys vs fields) as [ws Hws]; [|assumption|].
    { rewrite (Forall2_len _ _ _ f). eapply accepts_all_length, H4. }
    exists t. eexists. repeat split; eauto. eapply ac_struct; eauto.
  - destruct n as (Hs & t & i & Ht & Hi & k & d & Hp & x & v & Hx & Hv). pose proof (short_code_more _ _ _ _ Hs Hi) as Hn.
    destruct (variant_made c vs (s ++ t) i k d x v) as [w Hw]; [exact (proj1 (shaped_variant _ _ _ _ H Hp))|assumption|assumption|assumption|].
    exists (t ++ x), w. split; [apply Forall_app; auto|]. split; [apply app_nonempty_l; exact Hn|]. rewrite app_assoc. exact Hw.
  - apply Forall_app in H1 as [B1 B2]. destruct (shaped_variant _ _ _ _ H0 e) as [S1 S2]. destruct H as (t & v & H2 & H3 & H4); [assumption|assumption|].
    destruct (variant_made c vs l i k d (s ++ t) v) as [w Hw]; [assumption..|]. exists t, w. rewrite <- app_assoc. auto.
  - destruct (block_fill s) as (t & bs & H2 & H3 & H4 & H5); [assumption|assumption|]. exists t. eexists. repeat split; eauto. constructor; eauto.
  - destruct (block_fill s) as (t & bs & H2 & H3 & H4 & H5); [assumption|assumption|]. exists t. eexists. repeat split; eauto. constructor; eauto.
  - destruct (decimal_fill s) as (t & u & bs & l & k & H2 & H3 & H4 & H5 & H6 & H7); [assumption|assumption|]. exists t. eexists. repeat split; eauto. rewrite H4. eapply ac_decimal; eauto.
  - destruct (date_fill c s) as (t & l & k & y & o & H2 & H3 & H4 & H5 & H6 & H7); [assumption|assumption|]. exists t. eexists. repeat split; eauto. rewrite H4. eapply ac_date; eauto.
  - destruct (date_time_fill s) as (t & l & k & y & o & H2 & H3 & H4 & H5 & H6); [assumption|assumption|]. exists t. eexists. repeat split; eauto. rewrite H4. eapply ac_date_time; eauto.
  - cbn [forallb] in H0. apply andb_prop in H0 as [S1 S2]. destruct H as (t & v & H2 & H3 & H4); [assumption|assumption|]. destruct p as (u & vs & Hu & Hv).
    exists (t ++ u), (v :: vs). split; [apply Forall_app; auto|]. split; [apply app_nonempty_l; exact H3|]. rewrite app_assoc. constructor; assumption.
  - cbn [forallb] in H0. apply andb_prop in H0 as [S1 S2]. apply Forall_app in H1 as [B1 B2]. destruct H as (t & vs & H2 & H3 & H4); [assumption|assumption|].
    exists t, (v :: vs). split; [exact H2|]. split; [exact H3|]. rewrite <- app_assoc. constructor; assumption.
Qed.

(** ** Bodies *)
Lemma bodies_cut_same c h n s : bodies_cut c (repeat h n) s ->
  exists u bs s', s = u ++ s' /\ bodies_accept c (map (fun _ => h) bs) u bs /\ lenN bs < N.of_nat n /\ body_cut c h s'.
Proof.
  revert s. induction n as [|n IH]; intros s H; inversion H as [d' ds s' Hc Hp|d' ds u v s' Ha Hc]; subst.
  - exists [], [], s. split; [reflexivity|]. split; [constructor|]. split; [cbn [lenN length]; unfold lenN; cbn; lia|exact Hc].
  - destruct (IH _ Hc) as (w & vs & r & -> & H1 & H2 & H3). exists (u ++ w), (v :: vs), r. split; [apply app_assoc|]. split; [cbn [map]; constructor; assumption|].
    split; [rewrite lenN_cons; lia|exact H3].
Qed.
Definition body_entries_cut (c : cfg) (h : header) (n : N) (s : list N) : Prop :=
  exists u es s', s = u ++ s' /\ body_entries_accept c h u es /\ lenN es < n /\
    ((text_cut s' /\ body_possible c h) \/ exists k bs r, s' = k ++ r /\ wellformed bs /\ block k bs /\ body_cut c h r).
Lemma body_cut_of c :
  (forall h w b, body_accepts c h w b -> forall s t, w = s ++ t -> t <> [] -> bytes_ok w -> body_cut c h s) /\
  (forall hs w bs, bodies_accept c hs w bs -> forall s t, w = s ++ t -> t <> [] -> bytes_ok w -> bodies_cut c hs s) /\
  (forall h w es, body_entries_accept c h w es -> forall s t, w = s ++ t -> t <> [] -> bytes_ok w -> body_entries_cut c h (lenN es) s).
Proof.
  assert (One : forall (b : N) s t, [b] = s ++ t -> t <> [] -> s = []).
  { intros b [|x s] t E Ht; [reflexivity|]. cbn [app] in E. injection E as _ E. symmetry in E. apply app_eq_nil in E as [_ ->]. contradiction. }
  assert (Code : forall m w n s t, code m w n -> w = s ++ t -> t <> [] -> short m s) by (intros m w n s t H -> Ht; exact (code_cut _ _ _ _ H Ht)).
  assert (Block : forall w bs s t, block w bs -> w = s ++ t -> t <> [] -> no_block s) by (intros w bs s t H -> Ht; exact (block_cut _ _ _ H Ht)).
  assert (Len : forall k (w s t : list N), length w = k -> w = s ++ t -> t <> [] -> (length s < k)%nat).
  { intros k w s t <- -> Ht. rewrite app_length. apply nonempty_length in Ht. lia. }
  assert (Num : forall m (P : N -> Prop) l n s t, code m l n -> P n -> l = s ++ t -> t <> [] -> bytes_ok l -> number_cut m P s).
  { intros m P l n s t Hl Hn -> Ht Hb. split; [exact (code_cut _ _ _ _ Hl Ht)|]. exists t, n. apply Forall_app in Hb as [_ Hb]. auto. }
  apply body_accepts_mut; intros; subst.
  - symmetry in H. apply app_eq_nil in H as [_ ->]. contradiction.
  - rewrite (One _ _ _ H H0). constructor.
  - destruct s as [|x s]; [constructor|]. cbn [app] in H0. injection H0 as <- ->. constructor. inversion H2; eauto.
  - rewrite (One _ _ _ H H0). constructor.
  - rewrite (One _ _ _ H H0). constructor.
  - constructor; eauto.
  - constructor; eauto.
  - constructor; eauto.
  - rewrite (One _ _ _ H H0). constructor.
  - constructor; eauto.
  - constructor; eauto.
  - constructor; eauto.
  - constructor; eauto.
  - constructor; eauto.
  - constructor; eauto.
  - constructor; eauto.
  - constructor. left. left. eauto.
  - constructor. eapply decimal_cut; eauto.
  - constructor. eapply text_cut_of; eauto.
  - constructor; eauto.
  - apply Forall_app in H2 as [B1 B2]. destruct (app_cut _ _ _ _ H0 H1) as [(t' & Ht' & E & _)|(s' & -> & ->)].
    + apply bc_array_count. eapply Num; eauto. split; [assumption|]. destruct bs as [|v vs]; [left; reflexivity|right].
      match goal with A : bodies_accept _ _ _ _ |- _ => inversion A; subst end. apply Forall_app in B2 as [B2 _]. eexists; eexists; split; eauto.
    + specialize (H s' t eq_refl H1 B2). rewrite map_const_repeat in H. apply bodies_cut_same in H as (w & us & r & -> & X1 & X2 & X3).
      eapply bc_array; eauto.
  - constructor; [assumption|]. eapply H; eauto.
  - apply Forall_app in H2 as [B1 B2]. destruct (app_cut _ _ _ _ H0 H1) as [(t' & Ht' & E & _)|(s' & -> & ->)].
    + apply bc_map_count. eapply Num; eauto. destruct es as [|kv es]; [left; reflexivity|right].
      match goal with A : body_entries_accept _ _ _ _ |- _ => inversion A; subst end. apply Forall_app in B2 as [_ B2]. apply Forall_app in B2 as [B2 _]. eexists; eexists; split; eauto.
    + destruct (H s' t eq_refl H1 B2) as (w & us & r & -> & X1 & X2 & [[X3 X4]|(k & bs & q & -> & X3 & X4 & X5)]).
      * eapply bc_map_key; eauto.
      * eapply bc_map_value; eauto.
  - apply Forall_app in H2 as [B1 B2]. destruct (app_cut _ _ _ _ H0 H1) as [(t' & Ht' & E & _)|(s' & -> & ->)].
    + apply bc_index. eapply Num; eauto. exists h. split; [assumption|]. exists u, b. auto.
    + eapply bc_enum; eauto.
  - constructor. eapply date_cut; eauto.
  - constructor. eapply date_time_cut; eauto.
  - symmetry in H. apply app_eq_nil in H as [_ ->]. contradiction.
  - apply Forall_app in H3 as [B1 B2]. destruct (app_cut _ _ _ _ H1 H2) as [(t' & Ht' & E & _)|(s' & -> & ->)].
    + apply bcs_here; [eapply H; eauto|]. exists w, bs. auto.
    + eapply bcs_later; eauto.
  - symmetry in H. apply app_eq_nil in H as [_ ->]. contradiction.
  - apply Forall_app in H3 as [B1 B2]. apply Forall_app in B2 as [B2 B3]. destruct (app_cut _ _ _ _ H1 H2) as [(t' & Ht' & E & _)|(s' & -> & E)].
    + exists [], [], s. split; [reflexivity|]. split; [constructor|]. split; [rewrite lenN_cons; change (lenN (@nil (list N * body))) with 0; lia|]. left. split; [subst; eapply text_cut_of; eauto|]. exists u, b. auto.
    + destruct (app_cut _ _ _ _ E H2) as [(t' & Ht' & E' & _)|(s2 & -> & ->)].
      * exists [], [], (x ++ s'). split; [reflexivity|]. split; [constructor|]. split; [rewrite lenN_cons; change (lenN (@nil (list N * body))) with 0; lia|].
        right. exists x, k, s'. split; [reflexivity|]. split; [assumption|]. split; [assumption|]. eapply H; eauto.
      * destruct (H0 s2 t eq_refl H2 B3) as (y & us & r & -> & X1 & X2 & X3). exists (x ++ u ++ y), ((k, b) :: us), r.
        split; [rewrite <- !app_assoc; reflexivity|]. split; [constructor; assumption|]. split; [rewrite !lenN_cons; lia|exact X3].
Qed.
Lemma bodies_accept_app c hs u bs hs' u' bs' : bodies_accept c hs u bs -> bodies_accept c hs' u' bs' -> bodies_accept c (hs ++ hs') (u ++ u') (bs ++ bs').
Proof. intros H. revert hs' u' bs'. induction H; intros hs' u' bs' H'; [exact H'|]. cbn [app]. rewrite <- app_assoc. constructor; auto. Qed.
Lemma body_entries_app c h u es u' es' : body_entries_accept c h u es -> body_entries_accept c h u' es' -> body_entries_accept c h (u ++ u') (es ++ es').
Proof. intros H. revert u' es'. induction H; intros u' es' H'; [exact H'|]. cbn [app]. rewrite <- !app_assoc. constructor; auto. Qed.
Lemma body_copies c h k : k = O \/ body_possible c h -> exists u bs, bytes_ok u /\ length bs = k /\ bodies_accept c (map (fun _ => h) bs) u bs.
Proof.
  intros [->|(w & v & Hw & Hv)]; [exists [], []; repeat split; constructor|]. induction k as [|k (u & vs & H1 & H2 & H3)]; [exists [], []; repeat split; constructor|].
  exists (w ++ u), (v :: vs). split; [apply Forall_app; auto|]. split; [cbn; lia|]. cbn [map]. constructor; assumption.
Qed.
Lemma body_entry_copies c h k : k = O \/ body_possible c h -> exists u es, bytes_ok u /\ length es = k /\ body_entries_accept c h u es.
Proof.
  intros [->|(w & v & Hw & Hv)]; [exists [], []; repeat split; constructor|]. induction k as [|k (u & es & H1 & H2 & H3)]; [exists [], []; repeat split; constructor|].
  exists ([0] ++ w ++ u), (([], v) :: es). split; [constructor; [reflexivity|]; apply Forall_app; auto|]. split; [cbn; lia|]. constructor; [exists []; auto| |assumption|assumption].
  exists [0]. split; [reflexivity|apply code_zero].
Qed.
Lemma body_cut_fill c :
  (forall h s, body_cut c h s -> bytes_ok s -> exists t b, bytes_ok t /\ t <> [] /\ body_accepts c h (s ++ t) b) /\
  (forall hs s, bodies_cut c hs s -> bytes_ok s -> exists t bs, bytes_ok t /\ t <> [] /\ bodies_accept c hs (s ++ t) bs).
Proof.
  assert (Code : forall m s, short m s -> (0 < m)%nat -> bytes_ok s -> exists t n, bytes_ok t /\ t <> [] /\ code m (s ++ t) n).
  { intros m s H Hm Hs. destruct (code_fill m s H Hm Hs) as [(k & n & Hk & Hc & _) _]. exists (repeat 0 k), n. split; [apply zeros_ok|]. split; [apply zeros_nonempty, Hk|exact Hc]. }
  assert (Fix : forall k s, (length s < k)%nat -> exists t, bytes_ok t /\ t <> [] /\ length (s ++ t) = k).
  { intros k s H. exists (repeat 0 (k - length s)). split; [apply zeros_ok|]. split; [apply zeros_nonempty; lia|]. rewrite app_length, repeat_length. lia. }
  assert (Zero : bytes_ok [0]) by apply (zeros_ok 1). assert (NZ : [0] <> []) by discriminate.
  apply body_cut_mut; intros;
    try (match goal with X : short ?m ?s |- _ => destruct (Code m s X) as (q & j & H2 & H3 & H4); [lia|assumption|] end; exists q; eexists; (split; [exact H2|split; [exact H3|]]); constructor; exact H4);
    try (match goal with X : (length ?s < ?m)%nat |- _ => destruct (Fix m s X) as (q & H2 & H3 & H4) end; exists q; eexists; (split; [exact H2|split; [exact H3|]]); constructor; exact H4);
    try (match goal with X : no_block ?s |- _ => destruct (block_fill s) as (q & bs & H2 & H3 & H4 & H5); [assumption|exact X|] end; exists q; eexists; (split; [exact H2|split; [exact H3|]]); constructor; exact H4).
  - exists [0]. eexists. split; [exact Zero|]. split; [exact NZ|]. constructor.
  - inversion H0; subst. destruct H as (t & v & X2 & X3 & X6); [assumption|]. exists t. eexists. split; [exact X2|]. split; [exact X3|]. cbn [app]. constructor. eauto.
  - exists [0]. eexists. split; [exact Zero|]. split; [exact NZ|]. apply (ba_bool c false).
  - exists [0]. eexists. split; [exact Zero|]. split; [exact NZ|]. constructor.
  - exists [0]. eexists. split; [exact Zero|]. split; [exact NZ|]. constructor.
  - destruct (decimal_fill s) as (t & u & bs & l & k & H2 & H3 & H4 & H5 & H6 & H7); [assumption|assumption|]. exists t. eexists. repeat split; eauto. rewrite H4. eapply ba_decimal; eauto.
  - destruct (text_fill s) as (q & bs & H2 & H3 & H4 & H5 & H6); [assumption|assumption|]. exists q. eexists. repeat split; eauto. constructor; eauto.
  - destruct n as (Hs & t & n & Ht & Hn & Hr & Hp). destruct (body_copies c h (N.to_nat n)) as (u & vs & H2 & H3 & H4); [destruct Hp as [->|Hp]; auto|].
    assert (L : lenN vs = n) by (unfold lenN; rewrite H3; apply N2Nat.id).
    exists (t ++ u), (BArray vs). split; [apply Forall_app; auto|]. split; [apply app_nonempty_l; eapply short_code_more; eauto|].
    rewrite app_assoc. constructor; [|rewrite L; exact Hr|exact H4]. rewrite L. exact Hn.
  - apply Forall_app in H0 as [B1 B2]. apply Forall_app in B2 as [B2 B3]. destruct H as (t & v & H2 & H3 & H4); [assumption|].
    destruct (body_copies c h (N.to_nat (n - lenN bs - 1))) as (w & ws & H5 & H6 & H7); [right; exists (s ++ t), v; split; [apply Forall_app; auto|exact H4]|].
    assert (L : lenN (bs ++ v :: ws) = n) by (rewrite lenN_app, lenN_cons; unfold lenN at 2; rewrite H6; lia).
    exists (t ++ w), (BArray (bs ++ v :: ws)). split; [apply Forall_app; auto|]. split; [apply app_nonempty_l; exact H3|].
    replace ((l ++ u ++ s) ++ t ++ w) with (l ++ u ++ (s ++ t) ++ w) by (rewrite <- !app_assoc; reflexivity). constructor; [rewrite L; assumption..|].
    rewrite map_app. cbn [map]. apply bodies_accept_app; [assumption|]. constructor; assumption.
  - destruct H as (t & vs & H2 & H3 & H4); [assumption|]. exists t. eexists. repeat split; eauto. constructor; eauto.
  - destruct n as (Hs & t & n & Ht & Hn & Hp). destruct (body_entry_copies c h (N.to_nat n)) as (u & es & H2 & H3 & H4); [destruct Hp as [->|Hp]; auto|].
    destruct (map_made es) as (m & M1 & M2).
    exists (t ++ u), (BMap m). split; [apply Forall_app; auto|]. split; [apply app_nonempty_l; eapply short_code_more; eauto|].
    rewrite app_assoc. eapply ba_map; [|exact H4|exact M1|exact M2]. unfold lenN. rewrite H3, N2Nat.id. exact Hn.
  - apply Forall_app in H as [B1 B2]. apply Forall_app in B2 as [B2 B3]. destruct (text_fill s) as (q & bs & H2 & H3 & H4 & H5 & _); [assumption|assumption|].
    destruct (body_entry_copies c h (N.to_nat (n - lenN es - 1))) as (w & ws & H6 & H7 & H8); [right; assumption|].
    match goal with P : body_possible c h |- _ => destruct P as (x & v & Hx & Hv) end.
    destruct (map_made (es ++ (bs, v) :: ws)) as (m & M1 & M2).
    exists (q ++ x ++ w), (BMap m). split; [apply Forall_app; split; [exact H2|apply Forall_app; auto]|]. split; [apply app_nonempty_l; exact H3|].
    replace ((l ++ u ++ s) ++ q ++ x ++ w) with (l ++ u ++ (s ++ q) ++ x ++ w) by (rewrite <- !app_assoc; reflexivity).
    eapply ba_map; [| |exact M1|exact M2].
    + replace (lenN (es ++ (bs, v) :: ws)) with n; [assumption|]. rewrite lenN_app, lenN_cons. unfold lenN at 2. rewrite H7. lia.
    + apply body_entries_app; [assumption|]. constructor; assumption.
  - apply Forall_app in H0 as [B1 B2]. apply Forall_app in B2 as [B2 B3]. apply Forall_app in B3 as [B3 B4]. destruct H as (t & v & H2 & H3 & H4); [assumption|].
    destruct (body_entry_copies c h (N.to_nat (n - lenN es - 1))) as (y & ws & H6 & H7 & H8); [right; exists (s ++ t), v; split; [apply Forall_app; auto|exact H4]|].
    destruct (map_made (es ++ (bs, v) :: ws)) as (m & M1 & M2).
    exists (t ++ y), (BMap m). split; [apply Forall_app; auto|]. split; [apply app_nonempty_l; exact H3|].
    replace ((l ++ u ++ k ++ s) ++ t ++ y) with (l ++ u ++ k ++ (s ++ t) ++ y) by (rewrite <- !app_assoc; reflexivity).
    eapply ba_map; [| |exact M1|exact M2].
    + replace (lenN (es ++ (bs, v) :: ws)) with n; [assumption|]. rewrite lenN_app, lenN_cons. unfold lenN at 2. rewrite H7. lia.
    + apply body_entries_app; [assumption|]. constructor; assumption.
  - destruct n as (Hs & t & i & Ht & Hi & h & Hp & x & v & Hx & Hv). pose proof (short_code_more _ _ _ _ Hs Hi) as Hn.
    exists (t ++ x). eexists. split; [apply Forall_app; auto|]. split; [apply app_nonempty_l; exact Hn|]. rewrite app_assoc. eapply ba_enum; eauto.
  - apply Forall_app in H0 as [B1 B2]. destruct H as (t & v & H2 & H3 & H4); [assumption|].
    exists t. eexists. split; [exact H2|]. split; [exact H3|]. rewrite <- app_assoc. eapply ba_enum; eauto.
  - destruct (date_fill c s) as (t & l & k & y & o & H2 & H3 & H4 & H5 & H6 & H7); [assumption|assumption|]. exists t. eexists. repeat split; eauto. rewrite H4. eapply ba_date; eauto.
  - destruct (date_time_fill s) as (t & l & k & y & o & H2 & H3 & H4 & H5 & H6); [assumption|assumption|]. exists t. eexists. repeat split; eauto. rewrite H4. eapply ba_date_time; eauto.
  - destruct H as (t & v & H2 & H3 & H4); [assumption|]. match goal with P : bodies_possible _ _ |- _ => destruct P as (u & vs & Hu & Hv) end.
    exists (t ++ u), (v :: vs). split; [apply Forall_app; auto|]. split; [apply app_nonempty_l; exact H3|]. rewrite app_assoc. constructor; assumption.
  - apply Forall_app in H0 as [B1 B2]. destruct H as (t & vs & H2 & H3 & H4); [assumption|].
    exists t. eexists. split; [exact H2|]. split; [exact H3|]. rewrite <- app_assoc. econstructor; eassumption.
Qed.

(** ** Reading *)
(** An input that does not decode, and does with something appended, fails with Read and is a proper start of a code. *)
Lemma cut_read {A} c (p : prog A) R (C : list N -> Prop) :
  lang c p R -> (forall s x t, bytes_ok s -> bytes_ok t -> run c p s = stop x -> x <> inl ERead -> run c p (s ++ t) = stop x) ->
  (forall w v s t, R w v -> w = s ++ t -> t <> [] -> bytes_ok w -> C s) ->
  (forall s, C s -> bytes_ok s -> exists t v, bytes_ok t /\ t <> [] /\ R (s ++ t) v) ->
  forall s, bytes_ok s -> (C s <-> run c p s = OErr ERead /\ exists t v r, bytes_ok t /\ run c p (s ++ t) = OOk v r).
Proof.
  intros HL HF Hof Hfill s Hs. split.
  - intros HC. destruct (Hfill s HC Hs) as (t & v & Ht & Hn & Hv).
    assert (E : run c p (s ++ t) = OOk v []) by (apply HL; [apply Forall_app; auto|]; exists (s ++ t); split; [symmetry; apply app_nil_r|exact Hv]).
    split; [|exists t, v, []; auto]. destruct (run_cases c p s) as [(a & r & Ea)|(x & Ex)].
    + assert (E' : run c p (s ++ t) = OOk a (r ++ t)).
      { apply HL in Ea as (u & -> & Hu); [|exact Hs]. apply HL; [apply Forall_app; auto|]. exists u. split; [symmetry; apply app_assoc|exact Hu]. }
      rewrite E in E'. injection E' as _ E'. symmetry in E'. apply app_eq_nil in E' as [_ ->]. contradiction.
    + destruct x as [e|q]; [destruct e|]; try reflexivity; try exact Ex; rewrite (HF s _ t Hs Ht Ex) in E by discriminate; discriminate.
  - intros [He (t & v & r & Ht & E)]. apply HL in E as (u & Eu & Hu); [|apply Forall_app; auto].
    assert (Bu : bytes_ok u) by (assert (B : bytes_ok (s ++ t)) by (apply Forall_app; auto); rewrite Eu in B; apply Forall_app in B as [B _]; exact B).
    destruct (list_eq_dec N.eq_dec t []) as [->|Hn].
    + rewrite app_nil_r in Eu. subst s. assert (E : run c p (u ++ r) = OOk v r) by (apply HL; [exact Hs|]; exists u; auto). rewrite E in He. discriminate.
    + destruct (app_cut _ _ _ _ (eq_sym Eu) Hn) as [(t' & Ht' & -> & _)|(s' & -> & _)]; [eapply Hof; eauto|].
      assert (E : run c p (u ++ s') = OOk v s') by (apply HL; [exact Hs|]; exists u; auto). rewrite E in He. discriminate.
Qed.
Theorem cut_value c d s : wf_cfg c -> usize_bits c = 64 -> 4096 <= heap_limit c -> shaped d = true -> bytes_ok s ->
  (cut c d s <-> run c (de c d) s = OErr ERead /\ exists t v r, bytes_ok t /\ run c (de c d) (s ++ t) = OOk v r).
Proof.
  intros Hw H64 Hh Hd. apply (cut_read c (de c d) (accepts c d) (cut c d)).
  - apply lang_de; assumption.
  - intros s' x t Hs Ht E Hx. apply (fails_de c Hw H64 Hh d Hd); [apply Forall_app; auto|]. apply (proj1 (rejects_final c)); [|exact Hx]. apply (fails_de c Hw H64 Hh d Hd); assumption.
  - intros w v s' t H. exact (proj1 (cut_of c) d w v H s' t).
  - intros s' H Hs. exact (proj1 (cut_fill c) d s' H Hd Hs).
Qed.
Theorem cut_body c h s : wf_cfg c -> usize_bits c = 64 -> 4096 <= heap_limit c -> bytes_ok s ->
  (body_cut c h s <-> run c (bde c h) s = OErr ERead /\ exists t b r, bytes_ok t /\ run c (bde c h) (s ++ t) = OOk b r).
Proof.
  intros Hw H64 Hh. apply (cut_read c (bde c h) (body_accepts c h) (body_cut c h)).
  - apply lang_bde; assumption.
  - intros s' x t Hs Ht E Hx. apply (fails_bde c Hw H64 Hh h); [apply Forall_app; auto|]. apply (proj1 (body_rejects_final c)); [|exact Hx]. apply (fails_bde c Hw H64 Hh h); assumption.
  - intros w v s' t H. exact (proj1 (body_cut_of c) h w v H s' t).
  - intros s' H Hs. exact (proj1 (body_cut_fill c) h s' H Hs).
Qed.
