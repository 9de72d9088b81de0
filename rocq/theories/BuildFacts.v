(** * Proofs for PropBuild.v: builds with and without overflow checks. *)
From Coq Require Import String.
From Verif Require Import Base BaseFacts Varint VarintFacts ZigZagFacts Utf8 Serde SerdeFacts Header HeaderFacts Body BodyFacts Big Time Derive DeriveFacts DeriveDe Io.
Local Open Scope list_scope.
Local Open Scope N_scope.

(** ** Two programs that agree until the first panics with an overflow *)
Inductive gauged {A B} (R : A -> B -> Prop) : prog A -> prog B -> Prop :=
| until_ret a b : R a b -> gauged R (Ret a) (Ret b)
| until_fail e : gauged R (Fail e) (Fail e)
| until_crash q : gauged R (Crash q) (Crash q)
| until_panic p : gauged R (Crash POverflow) p
| until_exact n e k k' : (forall b, gauged R (k b) (k' b)) -> gauged R (ReadExact n e k) (ReadExact n e k')
| until_limit n e k k' : (forall b, gauged R (k b) (k' b)) -> gauged R (ReadLimit n e k) (ReadLimit n e k')
| until_alloc n k k' : gauged R k k' -> gauged R (Alloc n k) (Alloc n k').
Notation until := (gauged eq).

Lemma until_same {A} (p : prog A) : until p p.
Proof.
  induction p as [a|e|q|n e k IH|n e k IH|n k IH].
  - apply until_ret; reflexivity.
  - apply until_fail.
  - apply until_crash.
  - apply until_exact, IH.
  - apply until_limit, IH.
  - apply until_alloc, IH.
Qed.
Lemma gauged_bind {A A' B B'} (R : A -> A' -> Prop) (Q : B -> B' -> Prop) p p' f f' :
  gauged R p p' -> (forall a a', R a a' -> gauged Q (f a) (f' a')) -> gauged Q (bind p f) (bind p' f').
Proof.
  intros H Hf. induction H as [a b Hab|e|q|p|n e k k' _ IH|n e k k' _ IH|n k k' _ IH]; cbn [bind].
  - apply Hf, Hab.
  - apply until_fail.
  - apply until_crash.
  - apply until_panic.
  - apply until_exact, IH.
  - apply until_limit, IH.
  - apply until_alloc, IH.
Qed.
Lemma until_bind {A B} (p p' : prog A) (f f' : A -> prog B) :
  until p p' -> (forall a, until (f a) (f' a)) -> until (bind p f) (bind p' f').
Proof. intros H Hf. apply (gauged_bind eq); [exact H|]. intros a a' <-. apply Hf. Qed.
Lemma until_pmap {A B} (f : A -> B) (p p' : prog A) : until p p' -> until (pmap f p) (pmap f p').
Proof. intros H. apply until_bind; [exact H|]. intros a; apply until_same. Qed.
Lemma until_bind_same {A B} (p : prog A) (f f' : A -> prog B) :
  (forall a, until (f a) (f' a)) -> until (bind p f) (bind p f').
Proof. apply until_bind, until_same. Qed.
Lemma until_fold_pos {S} n (st st' : S -> prog S) : (forall s, until (st s) (st' s)) -> forall s, until (fold_pos n st s) (fold_pos n st' s).
Proof.
  intros H. induction n as [m IH|m IH|]; intros s; cbn [fold_pos].
  - apply until_bind; [apply H|]. intros s0. apply until_bind; [apply IH|]. intros s1; apply IH.
  - apply until_bind; [apply IH|]. intros s1; apply IH.
  - apply H.
Qed.
Lemma until_foldN {S} n (st st' : S -> prog S) s : (forall s, until (st s) (st' s)) -> until (foldN n st s) (foldN n st' s).
Proof. intros H. destruct n; cbn [foldN]; [apply until_same|]. apply until_fold_pos, H. Qed.
Lemma until_repeatN {A} n (p p' : prog A) : until p p' -> until (repeatN n p) (repeatN n p').
Proof.
  intros H. apply until_bind; [|intros l; apply until_same]. apply until_foldN. intros acc.
  apply until_bind; [exact H|]. intros a; apply until_same.
Qed.
Lemma until_sequence {A} (ps ps' : list (prog A)) : Forall2 until ps ps' -> until (sequence ps) (sequence ps').
Proof.
  induction 1 as [|p p' t t' H _ IH]; cbn [sequence]; [apply until_same|].
  apply until_bind; [exact H|]. intros a. apply until_bind; [exact IH|]. intros l; apply until_same.
Qed.
Lemma until_find {A} key (fs fs' : list (string * prog A)) :
  Forall2 (fun f f' => fst f = fst f' /\ until (snd f) (snd f')) fs fs' ->
  match find_field key fs, find_field key fs' with
  | Some (i, p), Some (i', p') => i = i' /\ until p p'
  | None, None => True
  | _, _ => False
  end.
Proof.
  induction 1 as [|[n p] [n' p'] t t' [Hn Hp] _ IH]; cbn [find_field]; [exact I|]. cbn [fst snd] in *; subst n'.
  destruct (String.eqb key n); [split; [reflexivity|exact Hp]|].
  destruct (find_field key t) as [[i q]|], (find_field key t') as [[i' q']|]; try contradiction; [|exact I].
  destruct IH as [-> IH]. split; [reflexivity|exact IH].
Qed.
Lemma until_loop {A} keys (fs fs' : list (string * prog A)) slots :
  Forall2 (fun f f' => fst f = fst f' /\ until (snd f) (snd f')) fs fs' ->
  until (struct_loop keys fs slots) (struct_loop keys fs' slots).
Proof.
  intros H. revert slots. induction keys as [|key t IH]; intros slots; cbn [struct_loop]; [apply until_same|].
  pose proof (until_find key fs fs' H) as Hf.
  destruct (find_field key fs) as [[i p]|], (find_field key fs') as [[i' p']|]; try contradiction; [|apply until_same].
  destruct Hf as [-> Hp]. destruct (nth_error slots i') as [[a|]|]; [apply until_same| |apply until_same].
  apply until_bind; [exact Hp|]. intros a; apply IH.
Qed.
Lemma until_pick {A} (l l' : list (prog A)) i : Forall2 until l l' ->
  match pickN l i, pickN l' i with Some p, Some p' => until p p' | None, None => True | _, _ => False end.
Proof.
  intros H. revert i. induction H as [|p p' t t' Hp _ IH]; intros i; cbn [pickN]; [exact I|].
  destruct (i =? 0); [exact Hp|]. apply IH.
Qed.

Lemma in_s_shift w z : w <> 0 -> in_s w z = true <-> Z.shiftr z (Z.of_N w - 1) = 0%Z \/ Z.shiftr z (Z.of_N w - 1) = (-1)%Z.
Proof.
  intros Hw. rewrite Z.shiftr_div_pow2 by lia. unfold in_s. assert (0 < 2 ^ (Z.of_N w - 1))%Z by (apply Z.pow_pos_nonneg; lia).
  generalize dependent (2 ^ (Z.of_N w - 1))%Z. intros m Hm. rewrite andb_true_iff, Z.leb_le, Z.ltb_lt.
  pose proof (Z.div_mod z m ltac:(lia)). pose proof (Z.mod_pos_bound z m Hm). split.
  - intros [H1 H2]. assert (-1 <= z / m)%Z by nia. assert (z / m < 1)%Z by nia. lia.
  - intros [E|E]; rewrite E in *; lia.
Qed.
Lemma lxor_in_s w a b : w <> 0 -> in_s w a = true -> in_s w b = true -> in_s w (Z.lxor a b) = true.
Proof.
  intros Hw Ha Hb. apply in_s_shift in Ha; [|exact Hw]. apply in_s_shift in Hb; [|exact Hw]. apply in_s_shift; [exact Hw|].
  rewrite Z.shiftr_lxor. destruct Ha as [->| ->], Hb as [->| ->]; cbn; auto.
Qed.

Section Builds.
  Variables (u sb sh hl : N).
  Notation K := (Cfg true u sb sh hl).
  Notation U := (Cfg false u sb sh hl).

  Lemma until_vec {A} (p p' : prog A) : until p p' -> until (de_vec K p) (de_vec U p').
  Proof. intros H. unfold de_vec. apply until_bind_same. intros n. apply until_repeatN, H. Qed.
  Lemma until_map_n {A} n (p p' : prog A) : until p p' -> until (de_map_n K n p) (de_map_n U n p').
  Proof.
    intros H. unfold de_map_n. apply until_foldN. intros m. apply (until_bind_same (de_string U)). intros k.
    apply until_bind; [exact H|]. intros v; apply until_same.
  Qed.
  Lemma until_map {A} (p p' : prog A) : until p p' -> until (de_map K p) (de_map U p').
  Proof. intros H. unfold de_map. apply until_bind_same. intros n. apply until_map_n, H. Qed.
  Lemma until_option {A} (p p' : prog A) : until p p' -> until (de_option p) (de_option p').
  Proof. intros H. unfold de_option. apply until_bind_same. intros [|]; [apply until_pmap, H|apply until_same]. Qed.

  Lemma arith_s_builds w z : arith_s K w z = None \/ arith_s K w z = arith_s U w z.
  Proof. unfold arith_s. destruct (in_s w z); [right; reflexivity|left; reflexivity]. Qed.
  Lemma arith_u_builds w z : arith_u K w z = None \/ arith_u K w z = arith_u U w z.
  Proof. unfold arith_u. destruct ((0 <=? z) && (z <? 2 ^ Z.of_N w))%Z; [right; reflexivity|left; reflexivity]. Qed.

  (** A date that was read: the same in both builds, and it can be written again. *)
  Definition good_date (d d' : Z * N) : Prop := d = d' /\ date_sval K (fst d) (snd d) = date_sval U (fst d) (snd d).
  Lemma de_i32_range : gauged (fun a b => a = b /\ in_s 32 a = true) de_i32 de_i32.
  Proof.
    apply (gauged_bind eq); [apply until_same|]. intros n n' <-. apply until_ret. split; [reflexivity|].
    unfold dec_zigzag, as_i. apply lxor_in_s; [discriminate| |]; apply wrap_s_in; discriminate.
  Qed.
  Lemma until_or {A} (o o' : option A) : o = None \/ o = o' -> gauged (fun a b => o = Some a /\ a = b) (or_overflow o) (or_overflow o').
  Proof.
    intros [->| <-]; [apply until_panic|]. destruct o as [a|]; cbn [or_overflow]; [apply until_ret; split; reflexivity|apply until_crash].
  Qed.
  Lemma de_date_builds : gauged good_date (de_date K) (de_date U).
  Proof.
    unfold de_date. apply (gauged_bind _ _ _ _ _ _ de_i32_range). intros y0 ? [<- Hy0].
    apply (gauged_bind _ _ _ _ _ _ (until_or _ _ (arith_s_builds 32 _))). intros y ? [Hy <-].
    apply (gauged_bind eq); [apply until_same|]. intros o0 ? <-.
    apply (gauged_bind _ _ _ _ _ _ (until_or _ _ (arith_u_builds 16 _))). intros o ? [Ho <-].
    apply until_ret. split; [reflexivity|]. cbn [fst snd]. unfold date_sval.
    assert (E : arith_s K 32 (y - YEAR_OFFSET) = arith_s U 32 (y - YEAR_OFFSET)).
    { assert (Ey : y = (y0 + YEAR_OFFSET)%Z).
      { revert Hy. unfold arith_s. destruct (in_s 32 (y0 + YEAR_OFFSET)); [congruence|discriminate]. }
      subst y. replace (y0 + YEAR_OFFSET - YEAR_OFFSET)%Z with y0 by lia. unfold arith_s. rewrite Hy0. reflexivity. }
    assert (E2 : arith_u K 16 (Z.of_N o - Z.of_N ORDINAL_OFFSET) = arith_u U 16 (Z.of_N o - Z.of_N ORDINAL_OFFSET)).
    { revert Ho. unfold arith_u. unfold ORDINAL_OFFSET. change (2 ^ Z.of_N 16)%Z with 65536%Z. cbn [overflow_checks].
      destruct ((0 <=? Z.of_N o0 + Z.of_N 1) && (Z.of_N o0 + Z.of_N 1 <? 65536))%Z eqn:B; [|discriminate]. intros H.
      assert (Eo : o = Z.to_N (Z.of_N o0 + Z.of_N 1)) by congruence. clear H.
      replace ((0 <=? Z.of_N o - Z.of_N 1) && (Z.of_N o - Z.of_N 1 <? 65536))%Z with true by lia. reflexivity. }
    rewrite E, E2. reflexivity.
  Qed.

  Theorem de_builds d : until (de K d) (de U d).
  Proof.
    induction d using dty_ind2; cbn [de];
      try (apply until_same); try (apply until_pmap; assumption); try (apply until_pmap, until_same).
    - apply until_pmap, until_option, IHd.
    - apply until_pmap, until_vec, IHd.
    - apply until_pmap, until_sequence. induction H; cbn [map]; constructor; assumption.
    - apply until_pmap, until_sequence. induction H; cbn [map]; constructor; assumption.
    - apply until_pmap, until_map, IHd.
    - apply until_pmap. unfold de_struct. apply until_bind; [|intros a; apply until_same].
      match goal with |- until (struct_loop _ _ ?a) (struct_loop _ _ ?b) => replace b with a by (rewrite !map_map; reflexivity) end.
      apply until_loop. induction H; cbn [map]; constructor; [split; [reflexivity|assumption]|assumption].
    - unfold de_enum. apply until_bind_same. intros i. generalize i at 2 4. intros j.
      assert (F : Forall2 (fun (a a' : N -> prog sval) => forall n, until (a n) (a' n))
                (map (fun v i => pmap (variant_sval (fst v) i) (de K (snd v))) vs) (map (fun v i => pmap (variant_sval (fst v) i) (de U (snd v))) vs)).
      { induction H; cbn [map]; constructor; [intros n; apply until_pmap; assumption|assumption]. }
      revert i. induction F as [|a a' t t' Ha _ IH]; intros i; cbn [pickN]; [apply until_same|].
      destruct (i =? 0); [apply Ha|apply IH].
    - apply (gauged_bind _ _ _ _ _ _ de_date_builds). intros [y o] ? [<- E]. apply until_ret. exact E.
  Qed.

  Lemma until_date_map {A} (f : Z * N -> A) : until (pmap f (de_date K)) (pmap f (de_date U)).
  Proof. apply (gauged_bind _ _ _ _ _ _ de_date_builds). intros a ? [<- _]. apply until_same. Qed.

  Theorem bde_builds h : until (bde K h) (bde U h).
  Proof.
    apply (header_ind2 (fun h => until (bde K h) (bde U h))); clear h.
    - intros []; try exact I; cbn [bde]; first [apply until_date_map | apply until_same].
    - intros h IHh. cbn [bde]. apply until_pmap, until_option, IHh.
    - intros h IHh. cbn [bde]. apply until_bind_same. intros n. apply until_alloc, until_pmap, until_repeatN, IHh.
    - intros h IHh. cbn [bde]. apply until_bind_same. intros n. apply until_pmap, until_map_n, IHh.
    - intros hs H. cbn [bde]. apply until_alloc, until_pmap, until_sequence. induction H; cbn [map]; constructor; assumption.
    - intros hs H. cbn [bde]. apply until_bind_same. intros i. change (as_usize K i) with (as_usize U i).
      pose proof (until_pick (map (bde K) hs) (map (bde U) hs) (as_usize U i)) as P.
      assert (F : Forall2 until (map (bde K) hs) (map (bde U) hs)) by (clear P; induction H; cbn [map]; constructor; assumption).
      specialize (P F). destruct (pickN (map (bde K) hs) (as_usize U i)), (pickN (map (bde U) hs) (as_usize U i)); try contradiction; [|apply until_same].
      apply until_pmap, P.
  Qed.

  Lemma until_fmt_date : until (fmt_de_date K) (fmt_de_date U).
  Proof.
    unfold fmt_de_date. apply until_bind_same. intros y0.
    apply (gauged_bind _ _ _ _ _ _ (until_or _ _ (arith_s_builds 32 _))). intros y ? [_ <-].
    apply until_bind_same. intros o0.
    apply (gauged_bind _ _ _ _ _ _ (until_or _ _ (arith_u_builds 16 _))). intros o ? [_ <-]. apply until_same.
  Qed.
  Lemma leaf_de_builds l : until (leaf_de K l) (leaf_de U l).
  Proof. destruct l; first [apply until_date_map | apply until_pmap, until_fmt_date | apply until_same]. Qed.

  Definition like (f f' : dfield) : Prop :=
    df_attrs f = df_attrs f' /\ df_name f = df_name f' /\ df_dflt f = df_dflt f' /\ df_miss f = df_miss f' /\ until (df_read f) (df_read f').
  Lemma until_seq_fields fs fs' : Forall2 like fs fs' -> until (seq_fields fs) (seq_fields fs').
  Proof.
    induction 1 as [|f f' t t' (E1 & _ & E2 & _ & Hr) _ IH]; cbn [seq_fields]; [apply until_same|]. rewrite <- E1, <- E2.
    destruct (serde_skips_de (df_attrs f)); [apply until_bind; [exact IH|intros l; apply until_same]|].
    apply until_bind; [exact Hr|]. intros v. apply until_bind; [exact IH|intros l; apply until_same].
  Qed.
  Lemma fill_like fs fs' slots : Forall2 like fs fs' -> until (fill_fields fs slots) (fill_fields fs' slots).
  Proof.
    intros H. revert slots. induction H as [|f f' t t' (E1 & _ & E2 & E3 & _) _ IH]; intros slots; cbn [fill_fields]; [apply until_same|].
    rewrite <- E1, <- E2, <- E3. destruct (serde_skips_de (df_attrs f)); [apply until_bind; [apply IH|intros l; apply until_same]|].
    destruct slots as [|[v|] s]; [apply until_same| |].
    - apply until_bind; [apply IH|intros l; apply until_same].
    - destruct (df_miss f); [|apply until_same]. apply until_bind; [apply IH|intros l; apply until_same].
  Qed.
  Lemma kept_like fs fs' : Forall2 like fs fs' -> Forall2 like (kept fs) (kept fs').
  Proof.
    unfold kept. induction 1 as [|f f' t t' Hf _ IH]; cbn [filter]; [constructor|].
    pose proof Hf as (E1 & _). rewrite <- E1. destruct (negb (serde_skips_de (df_attrs f))); [constructor; assumption|exact IH].
  Qed.
  Lemma until_map_fields fs fs' : Forall2 like fs fs' -> until (map_fields fs) (map_fields fs').
  Proof.
    intros H. unfold map_fields. apply kept_like in H as Hk. apply until_bind; [|intros l; apply fill_like, H].
    replace (map df_name (kept fs')) with (map df_name (kept fs)).
    2:{ induction Hk as [|f f' t t' (_ & E & _) _ IH]; cbn [map]; [reflexivity|]. rewrite E, IH. reflexivity. }
    replace (map (fun _ : dfield => @None rval) (kept fs')) with (map (fun _ : dfield => @None rval) (kept fs)).
    2:{ clear -Hk. induction Hk as [|f f' t t' _ _ IH]; cbn [map]; [reflexivity|]. rewrite IH. reflexivity. }
    apply until_loop. clear -Hk. induction Hk as [|f f' t t' (_ & E & _ & _ & Hr) _ IH]; cbn [map]; constructor; [|exact IH].
    split; [exact E|exact Hr].
  Qed.
  Lemma until_members k fs fs' : Forall2 like fs fs' -> until (members_de k fs) (members_de k fs').
  Proof. intros H. destruct k; cbn [members_de]; [apply until_map_fields, H|apply until_seq_fields, H|apply until_same]. Qed.

  Theorem rde_builds dflt t : until (rde K dflt t) (rde U dflt t).
  Proof.
    assert (L : forall fs : list (attrs * (string * rty)), Forall (fun f => until (rde K dflt (snd (snd f))) (rde U dflt (snd (snd f)))) fs ->
      Forall2 like (map (fun f => DField (fst f) (fst (snd f)) (dflt (snd (snd f))) (is_option (snd (snd f))) (rde K dflt (snd (snd f)))) fs)
        (map (fun f => DField (fst f) (fst (snd f)) (dflt (snd (snd f))) (is_option (snd (snd f))) (rde U dflt (snd (snd f)))) fs)).
    { induction 1 as [|f fs Hf _ IH]; cbn [map]; constructor; [|exact IH]. unfold like; cbn. repeat (split; [reflexivity|]). exact Hf. }
    induction t using rty_ind2; cbn [rde]; try (apply until_same).
    - apply leaf_de_builds.
    - apply until_pmap, until_option, IHt.
    - apply until_pmap, until_vec, IHt.
    - apply until_pmap, until_map, IHt.
    - apply until_pmap, until_map, IHt.
    - apply until_pmap, until_sequence. induction H; cbn [map]; constructor; assumption.
    - apply until_pmap, until_members, L, H.
    - apply until_bind_same. intros i.
      match goal with |- until (match pickN ?x ?i with _ => _ end) (match pickN ?y ?i with _ => _ end) =>
        pose proof (until_pick x y i) as P; assert (F : Forall2 until x y) end.
      { clear P i. generalize 0. induction H as [|v vs Hv _ IH]; intros n; cbn [map enum_alts]; [constructor|].
        destruct (serde_skips_de (fst v)); [apply IH|]. constructor; [|apply IH]. apply until_pmap, until_members, L, Hv. }
      specialize (P F). destruct (pickN _ i), (pickN _ i); try contradiction; [exact P|apply until_same].
  Qed.
End Builds.

(** ** What a run shows *)
Lemma until_run {A} (c c' : cfg) (p p' : prog A) : (forall n, alloc_result c n = alloc_result c' n) -> until p p' ->
  forall s, run c p s = OPanic POverflow \/ run c p s = run c' p' s.
Proof.
  intros Ha H. induction H as [a b <-|e|q|p|n e k k' _ IH|n e k k' _ IH|n k k' _ IH]; intros s; cbn [run]; auto.
  - destruct (lenN s <? n); [auto|]. apply IH.
  - rewrite <- Ha. destruct (alloc_result c n); [auto|]. apply IH.
Qed.
Lemma until_exec {A} (c c' : cfg) (p p' : prog A) : (forall n, alloc_result c n = alloc_result c' n) -> until p p' ->
  forall evs, exec c p evs = EPanic POverflow \/ exec c p evs = exec c' p' evs.
Proof.
  intros Ha H. induction H as [a b <-|e|q|p|n e k k' _ IH|n e k k' _ IH|n k k' _ IH]; intros s; cbn [exec]; auto.
  - destruct (ev_read_exact n s); auto.
  - destruct (ev_read_limit n s); auto.
  - rewrite <- Ha. destruct (alloc_result c n); [auto|]. apply IH.
Qed.

(** ** Writing *)
Inductive wuntil : wprog -> wprog -> Prop :=
| wuntil_same w : wuntil w w
| wuntil_panic w : wuntil (WPanic POverflow) w
| wuntil_write bs k k' : wuntil k k' -> wuntil (WWrite bs k) (WWrite bs k').
Lemma wuntil_seq a a' b b' : wuntil a a' -> wuntil b b' -> wuntil (wseq a b) (wseq a' b').
Proof.
  intros H Hb. induction H as [w|w|bs k k' _ IH]; cbn [wseq].
  - induction w as [|e|p|bs k IH]; cbn [wseq]; [exact Hb|apply wuntil_same|apply wuntil_same|apply wuntil_write, IH].
  - apply wuntil_panic.
  - apply wuntil_write, IH.
Qed.
Lemma wuntil_concat {A} (f : A -> wprog) l l' : Forall2 (fun a a' => wuntil (f a) (f a')) l l' -> wuntil (wconcat (map f l)) (wconcat (map f l')).
Proof.
  induction 1 as [|a a' t t' H _ IH]; [apply wuntil_same|].
  cbn [map]. change (wconcat (f a :: map f t)) with (wseq (f a) (wconcat (map f t))).
  change (wconcat (f a' :: map f t')) with (wseq (f a') (wconcat (map f t'))). apply wuntil_seq; assumption.
Qed.
Lemma wuntil_exec w w' : wuntil w w' -> forall evs,
  (snd (wexec w evs) = WePanic POverflow /\ exists more, fst (wexec w' evs) = fst (wexec w evs) ++ more) \/ wexec w evs = wexec w' evs.
Proof.
  induction 1 as [w|w|bs k k' _ IH]; intros evs; cbn [wexec]; [right; reflexivity|left; split; [reflexivity|eexists; reflexivity]|].
  destruct (ev_write_all bs evs) as [[out ok] t]. destruct ok; [|right; reflexivity].
  destruct (IH t) as [[H [more E]]|H].
  - left. destruct (wexec k t) as [o r], (wexec k' t) as [o' r']. cbn [fst snd] in *. subst. split; [reflexivity|].
    exists more. apply app_assoc.
  - right. rewrite H. reflexivity.
Qed.

Definition svu (v v' : sval) : Prop := wuntil (ser v) (ser v').
Lemma svu_seq l l' : Forall2 svu l l' -> wuntil (wconcat (map ser l)) (wconcat (map ser l')).
Proof. apply wuntil_concat. Qed.
Lemma svu_fields (l l' : list (string * sval)) : Forall2 (fun a a' => svu (snd a) (snd a')) l l' ->
  wuntil (wconcat (map (fun kv => ser (snd kv)) l)) (wconcat (map (fun kv => ser (snd kv)) l')).
Proof. apply wuntil_concat. Qed.
Lemma svu_map len (l l' : list (sval * sval)) : Forall2 (fun a a' => fst a = fst a' /\ svu (snd a) (snd a')) l l' -> svu (SMap len l) (SMap len l').
Proof.
  intros H. unfold svu; cbn [ser]. apply wuntil_seq; [apply wuntil_same|]. apply wuntil_concat.
  induction H as [|a a' t t' [E Ha] _ IH]; constructor; [|exact IH]. rewrite E. apply wuntil_seq; [apply wuntil_same|exact Ha].
Qed.

Section Writes.
  Variables (u sb sh hl : N).
  Notation K := (Cfg true u sb sh hl).
  Notation U := (Cfg false u sb sh hl).

  Lemma svu_date y o : svu (date_sval K y o) (date_sval U y o).
  Proof.
    unfold svu, date_sval. cbn [ser]. apply svu_seq. repeat constructor.
    - destruct (arith_s_builds u sb sh hl 32 (y - YEAR_OFFSET)) as [->| ->]; [apply wuntil_panic|apply wuntil_same].
    - destruct (arith_u_builds u sb sh hl 16 (Z.of_N o - Z.of_N ORDINAL_OFFSET)) as [->| ->]; [apply wuntil_panic|apply wuntil_same].
  Qed.
  Theorem bser_builds b : wuntil (bser K b) (bser U b).
  Proof.
    unfold bser. apply (body_ind2 (fun b => svu (body_sval K b) (body_sval U b))); clear b; cbn [body_sval].
    - intros b. destruct b; try exact I; cbn [body_sval]; try destruct o; try exact I; first [apply svu_date | apply wuntil_same].
    - intros b H. apply (wuntil_seq (wr [1])); [apply wuntil_same|exact H].
    - intros l H. apply (wuntil_seq (ser_len (Some (lenN l)))); [apply wuntil_same|]. apply svu_seq. induction H; cbn [map]; constructor; assumption.
    - intros l H. apply svu_seq. induction H; cbn [map]; constructor; assumption.
    - intros m H. apply svu_map. induction H; cbn [map]; constructor; [split; [reflexivity|]|]; assumption.
    - intros i b H. apply (wuntil_seq (ser_u32 i)); [apply wuntil_same|exact H].
  Qed.

  Definition both {A B} (R : A -> B -> Prop) (o : option A) (o' : option B) : Prop :=
    match o, o' with Some a, Some b => R a b | None, None => True | _, _ => False end.
  Lemma both_map {A B A' B'} (R : A -> A' -> Prop) (Q : B -> B' -> Prop) (f : A -> B) (f' : A' -> B') o o' :
    both R o o' -> (forall a a', R a a' -> Q (f a) (f' a')) -> both Q (option_map f o) (option_map f' o').
  Proof. destruct o, o'; cbn; auto. Qed.
  Lemma both_all {A} (R : A -> A -> Prop) (l l' : list (option A)) : Forall2 (both R) l l' -> both (Forall2 R) (all_some l) (all_some l').
  Proof.
    induction 1 as [|o o' t t' H _ IH]; cbn [all_some]; [constructor|]. destruct o as [a|], o' as [a'|]; try contradiction; [|exact I].
    apply (both_map (Forall2 R)); [exact IH|]. intros x x' Hx. constructor; assumption.
  Qed.
  Lemma both_map_some {A} (R : sval -> sval -> Prop) (f f' : A -> option sval) l : (forall a, both R (f a) (f' a)) -> both (Forall2 R) (map_some f l) (map_some f' l).
  Proof. intros H. apply both_all. induction l; cbn [map]; constructor; auto. Qed.

  Notation fld := (attrs * (string * (rval -> option sval)))%type.
  Definition twin (f f' : fld) : Prop := fst f = fst f' /\ fst (snd f) = fst (snd f') /\ forall v, both svu (snd (snd f) v) (snd (snd f') v).
  Definition pair_svu (a a' : string * sval) : Prop := svu (snd a) (snd a').
  Lemma ser_fields_twin omit (fs fs' : list fld) : Forall2 twin fs fs' ->
    forall vs, both (Forall2 pair_svu) (ser_fields omit fs vs) (ser_fields omit fs' vs).
  Proof.
    induction 1 as [|[a [n f]] [a' [n' f']] t t' (E1 & E2 & Hf) _ IH]; intros [|v vs]; cbn [ser_fields]; try exact I; [constructor|].
    cbn [fst snd] in *; subst a' n'. destruct (serde_skips a || serde_skips_if a && omit n v); [apply IH|].
    specialize (Hf v). specialize (IH vs).
    destruct (f v) as [s|], (f' v) as [s'|]; try contradiction; [|exact I].
    destruct (ser_fields omit t vs), (ser_fields omit t' vs); try contradiction; [|exact I]. constructor; [exact Hf|exact IH].
  Qed.
  Lemma pair_snd l l' : Forall2 pair_svu l l' -> Forall2 svu (map snd l) (map snd l').
  Proof. induction 1; cbn [map]; constructor; assumption. Qed.
  Lemma rser_struct_twin omit k (fs fs' : list fld) vs : Forall2 twin fs fs' -> both svu (rser_struct omit k fs vs) (rser_struct omit k fs' vs).
  Proof.
    intros H. pose proof (ser_fields_twin omit fs fs' H vs) as Hs. destruct k; cbn [rser_struct].
    - apply (both_map (Forall2 pair_svu)); [exact Hs|]. intros l l'. apply svu_fields.
    - assert (G : both svu (option_map (fun l => STupleStruct (map snd l)) (ser_fields omit fs vs)) (option_map (fun l => STupleStruct (map snd l)) (ser_fields omit fs' vs))).
      { apply (both_map (Forall2 pair_svu)); [exact Hs|]. intros l l' Hl. apply svu_seq, pair_snd, Hl. }
      destruct H as [|[a [n f]] [a' [n' f']] t t' (E1 & E2 & Hf) Ht]; [exact G|]. destruct Ht as [|x x' t t' Hx Ht]; [|exact G].
      cbn [fst snd] in *; subst a'. destruct (serde_skips a || serde_skips_if a); [exact I|]. destruct vs as [|v [|]]; try exact I.
      apply (both_map svu); [apply Hf|]. intros x x' Hx. exact Hx.
    - destruct H; [|exact I]. destruct vs; [apply wuntil_same|exact I].
  Qed.
  Lemma rser_variant_twin omit i k (fs fs' : list fld) vs : Forall2 twin fs fs' -> both svu (rser_variant omit i k fs vs) (rser_variant omit i k fs' vs).
  Proof.
    intros H. pose proof (ser_fields_twin omit fs fs' H vs) as Hs. destruct k; cbn [rser_variant].
    - apply (both_map (Forall2 pair_svu)); [exact Hs|]. intros l l' Hl. apply (wuntil_seq (ser_u32 i)); [apply wuntil_same|]. apply svu_fields, Hl.
    - assert (G : both svu (option_map (fun l => STupleVariant i (map snd l)) (ser_fields omit fs vs)) (option_map (fun l => STupleVariant i (map snd l)) (ser_fields omit fs' vs))).
      { apply (both_map (Forall2 pair_svu)); [exact Hs|]. intros l l' Hl. apply (wuntil_seq (ser_u32 i)); [apply wuntil_same|]. apply svu_seq, pair_snd, Hl. }
      destruct H as [|[a [n f]] [a' [n' f']] t t' (E1 & E2 & Hf) Ht]; [exact G|]. destruct Ht as [|x x' t t' Hx Ht]; [|exact G].
      cbn [fst snd] in *; subst a'. destruct vs as [|v [|]]; try exact I. destruct (serde_skips a); [apply wuntil_same|].
      apply (both_map svu); [apply Hf|]. intros x x' Hx. apply (wuntil_seq (ser_u32 i)); [apply wuntil_same|exact Hx].
    - destruct H; [|exact I]. destruct vs; [apply wuntil_same|exact I].
  Qed.

  Lemma svu_bigdecimal v : svu (fmt_bigdecimal_sval K v) (fmt_bigdecimal_sval U v).
  Proof.
    unfold fmt_bigdecimal_sval. destruct (fst v =? 0)%Z; [apply wuntil_same|]. unfold normalized. destruct v as [d s].
    destruct (d =? 0)%Z; [apply wuntil_same|]. destruct (strip_zeros _ d) as [d' k].
    destruct (arith_s_builds u sb sh hl 64 (s - k)) as [->| ->]; [apply wuntil_panic|apply wuntil_same].
  Qed.
  Lemma leaf_sval_builds l v : both svu (leaf_sval K l v) (leaf_sval U l v).
  Proof. destruct l, v; try exact I; cbn [leaf_sval both]; first [apply svu_date | apply svu_bigdecimal | apply wuntil_same]. Qed.
  Theorem rser_builds omit t v : both svu (rser K omit t v) (rser U omit t v).
  Proof.
    assert (T : forall fs : list (attrs * (string * rty)), Forall (fun f => forall v, both svu (rser K omit (snd (snd f)) v) (rser U omit (snd (snd f)) v)) fs ->
      Forall2 twin (map (fun f => (fst f, (fst (snd f), rser K omit (snd (snd f))))) fs) (map (fun f => (fst f, (fst (snd f), rser U omit (snd (snd f))))) fs)).
    { induction 1 as [|f fs Hf _ IH]; cbn [map]; constructor; [|exact IH]. split; [reflexivity|]. split; [reflexivity|]. exact Hf. }
    revert v. induction t using rty_ind2; intros v.
    - destruct v; apply leaf_sval_builds.
    - destruct v; try exact I; cbn [rser]; [apply wuntil_same|]. apply (both_map svu); [apply IHt|].
      intros x x' Hx. apply (wuntil_seq (wr [1])); [apply wuntil_same|exact Hx].
    - destruct v; try exact I; cbn [rser]. apply (both_map (Forall2 svu)); [apply both_map_some, IHt|].
      intros x x' Hx. apply (wuntil_seq (ser_len (Some (lenN l)))); [apply wuntil_same|]. apply svu_seq, Hx.
    - destruct v; try exact I; cbn [rser]. apply (both_map (Forall2 (fun a a' => fst a = fst a' /\ svu (snd a) (snd a')))).
      + apply both_all. induction m as [|[k v] m IH]; cbn [map]; constructor; [|exact IH]. apply (both_map svu); [apply IHt|]. intros x x' Hx. split; [reflexivity|exact Hx].
      + intros x x' Hx. apply svu_map, Hx.
    - destruct v; try exact I; cbn [rser]. apply (both_map (Forall2 (fun a a' => fst a = fst a' /\ svu (snd a) (snd a')))).
      + apply both_all. induction m as [|[k v] m IH]; cbn [map]; constructor; [|exact IH]. apply (both_map svu); [apply IHt|]. intros x x' Hx. split; [reflexivity|exact Hx].
      + intros x x' Hx. apply svu_map, Hx.
    - destruct v; try exact I; cbn [rser]. apply (both_map (Forall2 pair_svu)).
      + apply ser_fields_twin. induction H; cbn [map]; constructor; [|assumption]. split; [reflexivity|]. split; [reflexivity|]. assumption.
      + intros x x' Hx. apply svu_seq, pair_snd, Hx.
    - destruct v; try exact I; cbn [rser]. apply rser_struct_twin, T, H.
    - destruct v; try exact I; cbn [rser].
      generalize i at 1 3. intros j. revert j. induction H as [|v vs Hv _ IH]; intros j; cbn [map pickN]; [exact I|].
      destruct (j =? 0); [|apply IH]. destruct (serde_skips (fst v)); [apply wuntil_same|]. apply rser_variant_twin, T, Hv.
    - exact I.
    - exact I.
  Qed.
End Writes.

(** ** Headers: the checks play no part *)
Lemma derived_builds u sb sh hl omit t v :
  match rser (Cfg true u sb sh hl) omit t v, rser (Cfg false u sb sh hl) omit t v with
  | Some s, Some s' => forall evs,
      (snd (wexec (ser s) evs) = WePanic POverflow /\ exists more, fst (wexec (ser s') evs) = fst (wexec (ser s) evs) ++ more) \/
      wexec (ser s) evs = wexec (ser s') evs
  | None, None => True
  | _, _ => False
  end.
Proof.
  pose proof (rser_builds u sb sh hl omit t v) as H. unfold both in H.
  destruct (rser (Cfg true u sb sh hl) omit t v), (rser (Cfg false u sb sh hl) omit t v); try contradiction; [|exact I].
  apply wuntil_exec, H.
Qed.

Lemma hde_same u sb sh hl depth : hde (Cfg true u sb sh hl) depth = hde (Cfg false u sb sh hl) depth.
Proof. induction depth as [|d IH]; [reflexivity|]. cbn [hde]. rewrite IH. reflexivity. Qed.
Lemma exec_same {A} u sb sh hl (p : prog A) : forall evs, exec (Cfg true u sb sh hl) p evs = exec (Cfg false u sb sh hl) p evs.
Proof.
  induction p as [a|e|q|n e k IH|n e k IH|n k IH]; intros evs; cbn [exec]; try reflexivity.
  - destruct (ev_read_exact n evs); auto.
  - destruct (ev_read_limit n evs); auto.
  - change (alloc_result (Cfg true u sb sh hl) n) with (alloc_result (Cfg false u sb sh hl) n). destruct (alloc_result _ n); auto.
Qed.
Lemma header_builds u sb sh hl depth evs :
  exec (Cfg true u sb sh hl) (hde (Cfg true u sb sh hl) depth) evs = exec (Cfg false u sb sh hl) (hde (Cfg false u sb sh hl) depth) evs.
Proof. rewrite hde_same. apply exec_same. Qed.
