(** * Proofs about SpecPortableType.v. *)
From Coq Require Import String.
From Verif Require Import Base BaseFacts Varint VarintFacts Serde Typing SerdeFacts SerdeSafe Header Body Big Time Derive DeriveFacts DeriveDe SpecDerive SpecDeriveDe DeriveDeFacts
  SpecAccept SpecReads SpecDerived DerivedFacts SpecPortable PortableFacts SpecPortableType.
Local Open Scope list_scope.
Local Open Scope N_scope.

(** ** Decoders that take at least one byte *)
Definition strict {A} (c : cfg) (p : prog A) : Prop := forall s a r, run c p s = OOk a r -> lenN r < lenN s.
Lemma run_len {A} c (p : prog A) s a r : run c p s = OOk a r -> lenN r <= lenN s.
Proof. intros E. apply run_suffix in E as (u & ->). rewrite lenN_app. lia. Qed.
Lemma strict_bind_l {A B} c (p : prog A) (f : A -> prog B) : strict c p -> strict c (bind p f).
Proof. intros H s b r E. apply run_bind_ok in E as (a & r' & E1 & E2). apply H in E1. apply run_len in E2. lia. Qed.
Lemma strict_bind_r {A B} c (p : prog A) (f : A -> prog B) : (forall a, strict c (f a)) -> strict c (bind p f).
Proof. intros H s b r E. apply run_bind_ok in E as (a & r' & E1 & E2). apply H in E2. apply run_len in E1. lia. Qed.
Lemma strict_fail {A} c e : strict c (@Fail A e).
Proof. intros s a r E. discriminate E. Qed.
Lemma strict_crash {A} c q : strict c (@Crash A q).
Proof. intros s a r E. discriminate E. Qed.
Lemma strict_exact {A} c n e (k : list N -> prog A) : 1 <= n -> strict c (ReadExact n e k).
Proof.
  intros Hn s a r E. cbn [run] in E. destruct (lenN s <? n) eqn:L; [discriminate|]. apply run_len in E.
  pose proof (take_drop n s) as T. apply (f_equal lenN) in T. rewrite lenN_app in T. rewrite lenN_takeN in T by lia. lia.
Qed.
Lemma strict_prefix {B} c e (f : N -> prog B) : strict c (bind (dec_prefix e) f).
Proof. apply strict_bind_l, strict_exact. lia. Qed.
Ltac strict_leaf := first [apply strict_exact; lia | apply strict_crash | apply strict_fail | apply strict_prefix | apply strict_bind_l; strict_leaf].

Lemma strict_leaf_de c l : l <> LUnit -> strict c (leaf_de c l).
Proof. intros H. destruct l; try (exfalso; apply H; reflexivity); cbn [leaf_de]; try strict_leaf. Qed.

Lemma members_run c dflt k fs : declared_fields k fs -> forall s,
  run c (members_de k (map (dfl c dflt) fs)) s = run c (sequence (map (fun f => field_de (dfl c dflt f)) fs)) s.
Proof.
  intros H s. destruct H as [k0 fs0 Hu Hn _]. rewrite <- (map_map (dfl c dflt) field_de), <- run_seq_fields. destruct k0; cbn [members_de].
  - destruct Hn as [Hn|Hn]; [|discriminate]. apply run_map_fields.
    clear -Hn. induction fs0 as [|f fs IH]; cbn [map DeriveDe.kept filter]; [constructor|]. cbn [map] in Hn. apply NoDup_cons_iff in Hn as [H1 H2]. unfold DeriveDe.kept in *. cbn [filter].
    destruct (negb (serde_skips_de (df_attrs (dfl c dflt f)))); cbn [map]; [|apply IH, H2]. constructor; [|apply IH, H2]. intros X. apply H1. cbn [dfl df_name] in X.
    apply in_map_iff in X as (g & E & Hg). apply filter_In in Hg as [Hg _]. apply in_map_iff in Hg as (h & <- & Hh). cbn [dfl df_name] in E. apply in_map_iff. exists h. auto.
  - reflexivity.
  - rewrite (Hu eq_refl). reflexivity.
Qed.
Lemma strict_sequence {A} c (ps : list (prog A)) p : In p ps -> strict c p -> strict c (sequence ps).
Proof.
  induction ps as [|q ps IH]; intros Hi Hp; [contradiction|]. cbn [sequence]. destruct Hi as [->|Hi]; [apply strict_bind_l, Hp|].
  apply strict_bind_r. intros a. apply strict_bind_l, IH; assumption.
Qed.
Lemma strict_pmap {A B} c (f : A -> B) p : strict c p -> strict c (pmap f p).
Proof. apply strict_bind_l. Qed.
Lemma strict_run {A} c (p q : prog A) : (forall s, run c p s = run c q s) -> strict c q -> strict c p.
Proof. intros H Hq s a r E. rewrite H in E. exact (Hq s a r E). Qed.
Lemma takes_strict c dflt t : declared t -> takes_bytes t -> strict c (rde c dflt t).
Proof.
  induction t using rty_ind2; intros Hd Ht; inversion Ht; subst; cbn [rde]; try (apply strict_pmap; first [apply strict_prefix | unfold de_vec; apply strict_bind_l; strict_leaf | unfold de_map; apply strict_bind_l; strict_leaf]).
  - apply strict_leaf_de. assumption.
  - inversion Hd; subst. apply strict_pmap. apply (strict_sequence c _ (rde c dflt t)); [apply in_map; assumption|].
    rewrite Forall_forall in *. auto.
  - match goal with X : In (a, (n, t)) fs |- _ => rename X into Hin end.
    inversion Hd as [| | | | | |k' fs' Hf|]; subst. apply strict_pmap. eapply strict_run; [intros s; apply (members_run c dflt k fs Hf s)|].
    eapply strict_sequence; [apply in_map; eassumption|]. unfold field_de; cbn [dfl df_attrs df_dflt df_read fst snd].
    destruct (serde_skips_de a) eqn:Es; [apply skip_de_iff in Es; contradiction|]. rewrite Forall_forall in H. specialize (H _ Hin). cbn [snd] in H.
    apply H; [|assumption]. destruct Hf as [k0 fs0 _ _ Hf]. rewrite Forall_forall in Hf. specialize (Hf _ Hin). cbn [fst snd] in Hf. tauto.
  - apply strict_bind_l, strict_prefix.
Qed.

(** ** What one build reads, the other reads *)
Definition carries {A} (c c' : cfg) (p p' : prog A) : Prop :=
  forall s a r, bytes_ok s -> lenN s < 2 ^ 32 -> run c p s = OOk a r -> run c' p' s = OOk a r.
Section Carry.
  Variables c c' : cfg.
  Hypothesis Hw : wf_cfg c.
  Hypothesis Hw' : wf_cfg c'.
  Hypothesis H64 : usize_bits c = 64.
  Hypothesis Ho : overflow_checks c = overflow_checks c'.
  Hypothesis Hh : 4096 <= heap_limit c.
  Hypothesis Hh' : 4096 <= heap_limit c'.
  Notation carry := (carries c c').

  Lemma carry_ret {A} (a : A) : carry (Ret a) (Ret a).
  Proof. intros s b r _ _ E. exact E. Qed.
  Lemma carry_fail {A} e (p' : prog A) : carry (Fail e) p'.
  Proof. intros s b r _ _ E. discriminate E. Qed.
  Lemma carry_crash {A} q (p' : prog A) : carry (Crash q) p'.
  Proof. intros s b r _ _ E. discriminate E. Qed.
  Lemma carry_bind {A B} (p p' : prog A) (f f' : A -> prog B) : carry p p' -> (forall a, carry (f a) (f' a)) -> carry (bind p f) (bind p' f').
  Proof.
    intros H Hf s b r Hs Hn E. apply run_bind_ok in E as (a & r' & E1 & E2). rewrite run_bind, (H s a r' Hs Hn E1). cbn [obind].
    apply Hf; [exact (run_rest _ _ _ _ _ Hs E1)| |exact E2]. apply run_len in E1. lia.
  Qed.
  Lemma carry_pmap {A B} (f : A -> B) (p p' : prog A) : carry p p' -> carry (pmap f p) (pmap f p').
  Proof. intros H. apply carry_bind; [exact H|]. intros a; apply carry_ret. Qed.
  (** Programs without requests for memory. *)
  Inductive frugal {A} : prog A -> Prop :=
  | fr_ret a : frugal (Ret a)
  | fr_fail e : frugal (Fail e)
  | fr_crash q : frugal (Crash q)
  | fr_exact n e k : (forall b, frugal (k b)) -> frugal (ReadExact n e k)
  | fr_limit n e k : (forall b, frugal (k b)) -> frugal (ReadLimit n e k).
  Lemma frugal_run {A} (p : prog A) : frugal p -> forall s, run c p s = run c' p s.
  Proof. induction 1 as [| | |n e k _ IH|n e k _ IH]; intros s; cbn [run]; try reflexivity; [|apply IH]. destruct (lenN s <? n); [reflexivity|apply IH]. Qed.
  Lemma frugal_bind {A B} (p : prog A) (f : A -> prog B) : frugal p -> (forall a, frugal (f a)) -> frugal (bind p f).
  Proof. induction 1; intros Hf; cbn [bind]; [apply Hf| | |apply fr_exact; auto|apply fr_limit; auto]; constructor. Qed.
  Lemma carry_frugal {A} (p : prog A) : frugal p -> carry p p.
  Proof. intros H s a r _ _ E. rewrite <- (frugal_run p H). exact E. Qed.
  Lemma frugal_u16 e : frugal (dec_u16 e).
  Proof.
    apply frugal_bind; [apply fr_exact; intros; constructor|]. intros p. cbv zeta.
    repeat match goal with |- frugal (if ?b then _ else _) => destruct b end; try (apply fr_exact; intros; constructor); constructor.
  Qed.
  Lemma frugal_u32 e : frugal (dec_u32 e).
  Proof.
    apply frugal_bind; [apply fr_exact; intros; constructor|]. intros p. cbv zeta.
    repeat match goal with |- frugal (if ?b then _ else _) => destruct b end; try (apply fr_exact; intros; constructor); constructor.
  Qed.
  Lemma frugal_u64 e : frugal (dec_u64 e).
  Proof.
    apply frugal_bind; [apply fr_exact; intros; constructor|]. intros p. cbv zeta.
    repeat match goal with |- frugal (if ?b then _ else _) => destruct b end; try (apply fr_exact; intros; constructor); constructor.
  Qed.
  Lemma frugal_pmap {A B} (f : A -> B) p : frugal p -> frugal (pmap f p).
  Proof. intros H. apply frugal_bind; [exact H|]. intros a; constructor. Qed.

  Lemma carry_string : carry (de_string c) (de_string c').
  Proof.
    intros s a r Hs Hn E. pose proof (portable_de c c' DString s (SStr a) r Hw Hw' H64 Ho Hh Hh' eq_refl eq_refl Hs Hn) as P.
    cbn [de] in P. rewrite run_pmap, E in P. cbn [obind] in P. specialize (P eq_refl). apply run_pmap_ok in P as (x & P & Ex). congruence.
  Qed.
  Lemma carry_buf : carry (de_byte_buf c) (de_byte_buf c').
  Proof.
    intros s a r Hs Hn E. pose proof (portable_de c c' DByteBuf s (SBytes a) r Hw Hw' H64 Ho Hh Hh' eq_refl eq_refl Hs Hn) as P.
    cbn [de] in P. rewrite run_pmap, E in P. cbn [obind] in P. specialize (P eq_refl). apply run_pmap_ok in P as (x & P & Ex). congruence.
  Qed.
  Lemma carry_sequence {A} (ps ps' : list (prog A)) : Forall2 carry ps ps' -> carry (sequence ps) (sequence ps').
  Proof.
    induction 1 as [|p p' t t' H _ IH]; cbn [sequence]; [apply carry_ret|].
    apply carry_bind; [exact H|]. intros a. apply carry_bind; [exact IH|]. intros l; apply carry_ret.
  Qed.
  Lemma iter_count {S} n (step : S -> prog S) : (forall x, strict c (step x)) -> forall x s y r, run c (iter n step x) s = OOk y r -> N.of_nat n + lenN r <= lenN s.
  Proof.
    intros H. induction n as [|n IH]; intros x s y r E; [cbn [iter run] in E; injection E as _ <-; lia|].
    rewrite run_iter_S in E. apply obind_ok in E as (x1 & r1 & E1 & E2). apply H in E1. apply IH in E2. lia.
  Qed.
  Lemma carry_iter {S} n (step step' : S -> prog S) : (forall x, carry (step x) (step' x)) -> forall x, carry (iter n step x) (iter n step' x).
  Proof.
    intros H. induction n as [|n IH]; intros x; [apply carry_ret|]. intros s a r Hs Hn E. rewrite run_iter_S in *.
    apply obind_ok in E as (x1 & r1 & E1 & E2). rewrite (H x s x1 r1 Hs Hn E1). cbn [obind].
    apply IH; [exact (run_rest _ _ _ _ _ Hs E1)| |exact E2]. apply run_len in E1. lia.
  Qed.
  Lemma wide_usize n : n < 2 ^ 64 -> as_usize c n = n.
  Proof. intros H. unfold as_usize. rewrite H64. apply N.mod_small, H. Qed.
  Lemma small_usize n : n < 2 ^ 32 -> as_usize c' n = n.
  Proof. intros H. unfold as_usize. apply N.mod_small. destruct Hw' as [[-> | ->] _]; [exact H|]. cbn in *. lia. Qed.
  Lemma carry_counted {S} (step step' : S -> prog S) x : (forall x, strict c (step x)) -> (forall x, carry (step x) (step' x)) ->
    carry (n <- dec_u64 ERead ;; foldN (as_usize c n) step x) (n <- dec_u64 ERead ;; foldN (as_usize c' n) step' x).
  Proof.
    intros Hst H s a r Hs Hn E. apply run_bind_ok in E as (n & r1 & E1 & E2). rewrite run_bind.
    rewrite <- (frugal_run _ (frugal_u64 ERead)), E1. cbn [obind]. rewrite run_foldN in *.
    assert (Hr : lenN r1 < 2 ^ 32) by (apply run_len in E1; lia).
    pose proof (iter_count _ step Hst _ _ _ _ E2) as C. rewrite N2Nat.id in C.
    assert (Hb : n < 2 ^ 64) by (exact (yields_u64 c ERead s n r1 Hs E1)).
    rewrite (wide_usize n Hb) in *. rewrite small_usize by lia. apply (carry_iter _ step step' H); [exact (run_rest _ _ _ _ _ Hs E1)|exact Hr|exact E2].
  Qed.
  Lemma carry_vec {A} (p p' : prog A) : strict c p -> carry p p' -> carry (de_vec c p) (de_vec c' p').
  Proof.
    intros Hst H s a r Hs Hn E. unfold de_vec, repeatN in *.
    assert (G : carry (acc <- (n <- dec_u64 ERead ;; foldN (as_usize c n) (fun acc => a <- p ;; Ret (a :: acc)) []) ;; Ret (rev acc))
                      (acc <- (n <- dec_u64 ERead ;; foldN (as_usize c' n) (fun acc => a <- p' ;; Ret (a :: acc)) []) ;; Ret (rev acc))).
    { apply carry_bind; [|intros l; apply carry_ret]. apply carry_counted.
      - intros l. apply strict_bind_l, Hst.
      - intros l. apply carry_bind; [exact H|]. intros x; apply carry_ret. }
    specialize (G s a r Hs Hn). rewrite !run_bind, !obind_obind in *.
    destruct (run c (dec_u64 ERead) s) as [n r1| |]; cbn [obind] in *; try discriminate E. rewrite run_bind in E. specialize (G E).
    destruct (run c' (dec_u64 ERead) s) as [n' r1'| |]; cbn [obind] in *; try discriminate G. rewrite run_bind. exact G.
  Qed.
  Lemma strict_string c0 : strict c0 (de_string c0).
  Proof. apply strict_bind_l. strict_leaf. Qed.
  Lemma carry_map {A} (p p' : prog A) : carry p p' -> carry (de_map c p) (de_map c' p').
  Proof.
    intros H. apply carry_counted.
    - intros m. apply strict_bind_l, strict_string.
    - intros m. apply carry_bind; [apply carry_string|]. intros k. apply carry_bind; [exact H|]. intros v; apply carry_ret.
  Qed.
  Lemma frugal_bool : frugal de_bool.
  Proof. apply fr_exact. intros b. repeat match goal with |- frugal (if ?b then _ else _) => destruct b end; constructor. Qed.
  Lemma carry_option {A} (p p' : prog A) : carry p p' -> carry (de_option p) (de_option p').
  Proof. intros H. apply carry_bind; [apply carry_frugal, frugal_bool|]. intros [|]; [apply carry_pmap, H|apply carry_ret]. Qed.
  Lemma carry_big : carry (de_vec c de_u8) (de_vec c' de_u8).
  Proof. apply carry_vec; [apply strict_exact; lia|]. apply carry_frugal, fr_exact. intros b; constructor. Qed.
  Lemma carry_date : carry (de_date c) (de_date c').
  Proof.
    unfold de_date, arith_s, arith_u. rewrite Ho. apply carry_frugal. apply frugal_bind; [apply frugal_pmap, frugal_u32|]. intros y0.
    apply frugal_bind; [destruct (in_s _ _); [constructor|destruct (overflow_checks c'); constructor]|]. intros y.
    apply frugal_bind; [apply frugal_u16|]. intros o0.
    apply frugal_bind; [destruct (_ && _)%bool; [constructor|destruct (overflow_checks c'); constructor]|]. intros o. constructor.
  Qed.
  Lemma carry_fmt_date : carry (fmt_de_date c) (fmt_de_date c').
  Proof.
    unfold fmt_de_date, arith_s, arith_u. rewrite Ho. apply carry_frugal. apply frugal_bind; [apply frugal_pmap, frugal_u32|]. intros y0.
    apply frugal_bind; [destruct (in_s _ _); [constructor|destruct (overflow_checks c'); constructor]|]. intros y.
    apply frugal_bind; [apply frugal_u16|]. intros o0.
    apply frugal_bind; [destruct (_ && _)%bool; [constructor|destruct (overflow_checks c'); constructor]|]. intros o.
    destruct (from_ordinal_date y o); constructor.
  Qed.
  Lemma carry_scale {B} (f : Z -> B) : carry (s <- de_i64 ;; Ret (f s)) (s <- de_i64 ;; Ret (f s)).
  Proof. apply carry_frugal, frugal_bind; [apply frugal_pmap, frugal_u64|]. intros z; constructor. Qed.
  Lemma carry_leaf l : carry (leaf_de c l) (leaf_de c' l).
  Proof.
    destruct l; cbn [leaf_de];
      first [ apply carry_ret | apply carry_crash
        | apply carry_pmap, carry_big | apply carry_pmap, carry_string | apply carry_pmap, carry_buf | apply carry_pmap, carry_date | apply carry_pmap, carry_fmt_date
        | apply carry_pmap, carry_pmap, carry_big
        | apply carry_frugal, frugal_pmap; first [apply frugal_bool | apply frugal_u16 | apply frugal_u32 | apply frugal_u64
            | apply frugal_pmap; first [apply frugal_u16 | apply frugal_u32 | apply frugal_u64] | apply fr_exact; intros b; constructor
            | apply frugal_pmap, fr_exact; intros b; constructor]
        | idtac ].
    - apply carry_pmap, carry_bind; [apply carry_big|]. intros [|b bs]; [apply carry_ret|apply carry_scale].
    - apply carry_pmap, carry_bind; [apply carry_big|]. intros bs. cbv zeta. destruct (_ =? 0)%Z; [apply carry_ret|apply carry_scale].
    - apply carry_frugal, frugal_pmap. apply frugal_bind; [apply frugal_pmap, frugal_u64|]. intros t. apply frugal_bind; [apply frugal_u32|]. intros n. constructor.
    - apply carry_frugal, frugal_pmap. unfold fmt_de_datetime. apply frugal_bind; [apply frugal_pmap, frugal_u64|]. intros t. apply frugal_bind; [apply frugal_u32|]. intros n.
      destruct (from_unix_timestamp t); [|constructor]. destruct (odt_add_ns o n); constructor.
  Qed.

  Theorem carry_rde dflt t : declared t -> portable_type t -> carry (rde c dflt t) (rde c' dflt t).
  Proof.
    assert (M : forall k fs, Forall (fun f => declared (snd (snd f)) -> portable_type (snd (snd f)) -> carry (rde c dflt (snd (snd f))) (rde c' dflt (snd (snd f)))) fs ->
      declared_fields k fs -> Forall (fun f => skipped_de (fst f) \/ portable_type (snd (snd f))) fs ->
      carry (members_de k (map (dfl c dflt) fs)) (members_de k (map (dfl c' dflt) fs))).
    { intros k fs H Hd Hp s a r Hs Hn E. rewrite (members_run c' dflt k fs Hd). rewrite (members_run c dflt k fs Hd) in E. refine (carry_sequence _ _ _ s a r Hs Hn E). clear E.
      destruct Hd as [k0 fs0 _ _ Hd]. induction fs0 as [|f fs IH]; cbn [map]; constructor.
      - apply Forall_inv in H, Hd, Hp. unfold field_de; cbn [dfl df_attrs df_dflt df_read]. destruct (serde_skips_de (fst f)) eqn:Es; [apply carry_ret|].
        apply skip_de_false in Es. destruct Hd, Hp; try contradiction. auto.
      - apply Forall_inv_tail in H, Hd, Hp. auto. }
    induction t using rty_ind2; intros Hd Hp; inversion Hp; subst; inversion Hd; subst; cbn [rde].
    - apply carry_leaf.
    - apply carry_pmap, carry_option. auto.
    - apply carry_pmap, carry_vec; [apply takes_strict; assumption|auto].
    - apply carry_pmap, carry_map. auto.
    - apply carry_pmap, carry_map. auto.
    - apply carry_pmap, carry_sequence.
      match goal with X : Forall portable_type ts, Y : Forall declared ts |- _ => revert H X Y end. clear.
      induction ts as [|t ts IH]; intros H X Y; cbn [map]; constructor.
      + apply Forall_inv in H, X, Y. auto.
      + apply Forall_inv_tail in H, X, Y. auto.
    - apply carry_pmap, M; assumption.
    - apply carry_bind; [apply carry_frugal, frugal_u16|]. intros i.
      change (carry (match pickN (enum_alts 0 (map (fun v => (fst v, members_de (fst (snd v)) (map (dfl c dflt) (snd (snd v))))) vs)) i with Some p => p | None => Fail EMsg end)
                    (match pickN (enum_alts 0 (map (fun v => (fst v, members_de (fst (snd v)) (map (dfl c' dflt) (snd (snd v))))) vs)) i with Some p => p | None => Fail EMsg end)).
      revert i. generalize 0. clear Hd Hp. induction vs as [|v vs IH]; intros j i; [apply carry_fail|].
      apply Forall_inv_tail in H as H', H1 as H1', H2 as H2'. apply Forall_inv in H, H1, H2. cbn [map enum_alts].
      destruct (serde_skips_de (fst v)) eqn:Es; [apply IH; assumption|]. apply skip_de_false in Es.
      destruct H1 as [X|H1]; [contradiction|]. destruct H2 as [X|H2]; [contradiction|]. cbn [pickN].
      destruct (i =? 0); [|apply IH; assumption]. apply carry_pmap, M; assumption.
  Qed.
End Carry.

(** ** Writing does not depend on the platform *)
Section Written.
  Variables c c' : cfg.
  Hypothesis Ho : overflow_checks c = overflow_checks c'.
  Lemma leaf_sval_ext l v : leaf_sval c l v = leaf_sval c' l v.
  Proof.
    destruct l, v; try reflexivity; cbn [leaf_sval]; unfold fmt_bigdecimal_sval, normalized, date_sval, fmt_date_sval, arith_s, arith_u; rewrite Ho; reflexivity.
  Qed.
  Notation fld := (attrs * (string * (rval -> option sval)))%type.
  Definition same_field (f f' : fld) : Prop := fst f = fst f' /\ fst (snd f) = fst (snd f') /\ forall v, snd (snd f) v = snd (snd f') v.
  Lemma ser_fields_ext omit (fs fs' : list fld) : Forall2 same_field fs fs' -> forall vs, ser_fields omit fs vs = ser_fields omit fs' vs.
  Proof.
    induction 1 as [|[a [n f]] [a' [n' f']] t t' (E1 & E2 & Hf) _ IH]; intros [|v vs]; cbn [ser_fields]; try reflexivity.
    cbn [fst snd] in *; subst a' n'. rewrite Hf, IH. reflexivity.
  Qed.
  Lemma rser_struct_ext omit k (fs fs' : list fld) vs : Forall2 same_field fs fs' -> rser_struct omit k fs vs = rser_struct omit k fs' vs.
  Proof.
    intros H. pose proof (ser_fields_ext omit fs fs' H vs) as Hs. destruct k; cbn [rser_struct]; [rewrite Hs; reflexivity| |destruct H; reflexivity].
    destruct H as [|[a [n f]] [a' [n' f']] t t' (E1 & E2 & Hf) Ht]; [reflexivity|]. destruct Ht as [|x x' t t' Hx Ht]; [|rewrite Hs; destruct x, x'; reflexivity].
    cbn [fst snd] in *; subst a'. destruct vs as [|v [|]]; try reflexivity. rewrite Hf. reflexivity.
  Qed.
  Lemma rser_variant_ext omit i k (fs fs' : list fld) vs : Forall2 same_field fs fs' -> rser_variant omit i k fs vs = rser_variant omit i k fs' vs.
  Proof.
    intros H. pose proof (ser_fields_ext omit fs fs' H vs) as Hs. destruct k; cbn [rser_variant]; [rewrite Hs; reflexivity| |destruct H; reflexivity].
    destruct H as [|[a [n f]] [a' [n' f']] t t' (E1 & E2 & Hf) Ht]; [reflexivity|]. destruct Ht as [|x x' t t' Hx Ht]; [|rewrite Hs; destruct x, x'; reflexivity].
    cbn [fst snd] in *; subst a'. destruct vs as [|v [|]]; try reflexivity. rewrite Hf. reflexivity.
  Qed.
  Theorem rser_platform omit t v : rser c omit t v = rser c' omit t v.
  Proof.
    assert (T : forall fs : list (attrs * (string * rty)), Forall (fun f => forall v, rser c omit (snd (snd f)) v = rser c' omit (snd (snd f)) v) fs ->
      Forall2 same_field (map (fun f => (fst f, (fst (snd f), rser c omit (snd (snd f))))) fs) (map (fun f => (fst f, (fst (snd f), rser c' omit (snd (snd f))))) fs)).
    { induction 1 as [|f fs Hf _ IH]; cbn [map]; constructor; [|exact IH]. split; [reflexivity|]. split; [reflexivity|]. exact Hf. }
    revert v. induction t using rty_ind2; intros v.
    - destruct v; apply leaf_sval_ext.
    - destruct v; try reflexivity; cbn [rser]. rewrite IHt. reflexivity.
    - destruct v; try reflexivity; cbn [rser]. unfold map_some. rewrite (map_ext _ _ IHt). reflexivity.
    - destruct v; try reflexivity; cbn [rser]. unfold map_some. do 2 f_equal. apply map_ext. intros kv. rewrite IHt. reflexivity.
    - destruct v; try reflexivity; cbn [rser]. unfold map_some. do 2 f_equal. apply map_ext. intros kv. rewrite IHt. reflexivity.
    - destruct v; try reflexivity; cbn [rser]. f_equal. apply ser_fields_ext. induction H; cbn [map]; constructor; [|assumption]. split; [reflexivity|]. split; [reflexivity|]. assumption.
    - destruct v; try reflexivity; cbn [rser]. apply rser_struct_ext, T, H.
    - destruct v; try reflexivity; cbn [rser].
      generalize i at 1 3. intros j. revert j. induction H as [|v vs Hv _ IH]; intros j; cbn [map pickN]; [reflexivity|].
      destruct (j =? 0); [|apply IH]. destruct (serde_skips (fst v)); [reflexivity|]. apply rser_variant_ext, T, Hv.
    - reflexivity.
    - reflexivity.
  Qed.
End Written.

(** ** A vector of 2^32 units *)
Lemma run_rep_ret {A} c (a : A) n s : run c (rep n (Ret a)) s = OOk (repeat a n) s.
Proof. induction n as [|n IH]; [reflexivity|]. cbn [rep bind]. rewrite run_bind, IH. reflexivity. Qed.
Lemma units_read c dflt s n : run c (dec_u64 ERead) s = OOk n [] -> run c (rde c dflt (RVec (RLeaf LUnit))) s = OOk (VSeq (repeat VUnit (N.to_nat (as_usize c n)))) [].
Proof.
  intros E. cbn [rde leaf_de]. rewrite run_pmap. unfold de_vec. rewrite run_bind, E. cbn [obind]. rewrite run_repeatN, run_rep_ret. reflexivity.
Qed.
Lemma units_differ : exists c c' dflt t s v r w r', wf_cfg c /\ wf_cfg c' /\ usize_bits c = 64 /\ usize_bits c' = 32 /\
  overflow_checks c = overflow_checks c' /\ 4096 <= heap_limit c /\ 4096 <= heap_limit c' /\ declared t /\ bytes_ok s /\ lenN s < 2 ^ 32 /\
  run c (rde c dflt t) s = OOk v r /\ run c' (rde c' dflt t) s = OOk w r' /\ v <> w.
Proof.
  set (s := [255; 0; 0; 0; 0; 1; 0; 0; 0]).
  assert (E : forall c, run c (dec_u64 ERead) s = OOk 4294967296 []) by (intros c; vm_compute; reflexivity).
  exists (Cfg false 64 1 1 4096), (Cfg false 32 1 1 4096), (fun _ => VUnit), (RVec (RLeaf LUnit)), s.
  eexists _, _, _, _.
  split; [split; [right; reflexivity|split; discriminate]|]. split; [split; [left; reflexivity|split; discriminate]|].
  do 3 (split; [reflexivity|]). do 2 (split; [discriminate|]). split; [repeat constructor|]. split; [repeat constructor|]. split; [reflexivity|].
  split; [apply units_read, E|]. split; [apply units_read, E|].
  set (m := as_usize (Cfg false 64 1 1 4096) 4294967296). assert (Em : m = 4294967296) by reflexivity. clearbody m.
  set (k := as_usize (Cfg false 32 1 1 4096) 4294967296). assert (Ek : k = 0) by reflexivity. clearbody k. subst k.
  change (N.to_nat 0) with O. cbn [repeat]. intros X. injection X as Y. apply (f_equal (@length rval)) in Y. rewrite repeat_length in Y. cbn [length] in Y. lia.
Qed.
