(** * Proofs for PropAlike.v: what the readers of all kinds of types have in common. *)
From Coq Require Import String.
From Verif Require Import Base BaseFacts Varint VarintFacts Utf8 Serde SerdeFacts PrimFacts SerdeMore SerdeSafe SpecRequest Big Time Derive DeriveFacts DeriveDe Rec RecFacts Std StdFacts Io SpecIo IoFacts.
Local Open Scope list_scope.
Local Open Scope N_scope.

(** Properties of programs which the primitive readers have and which sequencing and loops keep. *)
Record kept_by_all (c : cfg) (plain : bool) (P : forall A : Type, prog A -> Prop) : Prop := {
  k_ret : forall A (a : A), P A (Ret a);
  k_fail : forall A e, e = ERead \/ e = EMsg -> P A (Fail e);
  k_crash : forall A q, P A (Crash q);
  k_bind : forall A B (p : prog A) (f : A -> prog B), P A p -> (forall a, P B (f a)) -> P B (bind p f);
  k_fold : forall S n (step : S -> prog S) s, (forall s, P S (step s)) -> P S (foldN n step s);
  k_byte : P _ de_byte;
  k_u16 : P _ de_u16;
  k_u32 : P _ de_u32;
  k_u64 : P _ de_u64;
  k_f32 : P _ de_f32;
  k_f64 : P _ de_f64;
  k_string : P _ (de_string c);
  k_buf : P _ (de_byte_buf c);
  k_de : plain = true -> forall d, P _ (de c d) }.

Section Closed.
  Context (c : cfg) (plain : bool) (P : forall A : Type, prog A -> Prop) (K : kept_by_all c plain P).
  Arguments P {A}.

  Lemma c_ret {A} (a : A) : P (Ret a). Proof. apply (k_ret c plain _ K). Qed.
  Lemma c_fail {A} e : e = ERead \/ e = EMsg -> P (@Fail A e). Proof. apply (k_fail c plain _ K). Qed.
  Hint Extern 1 (_ = ERead \/ _ = EMsg) => first [left; reflexivity | right; reflexivity] : core.
  Lemma c_crash {A} e : P (@Crash A e). Proof. apply (k_crash c plain _ K). Qed.
  Lemma c_bind {A B} (p : prog A) (f : A -> prog B) : P p -> (forall a, P (f a)) -> P (bind p f).
  Proof. apply (k_bind c plain _ K). Qed.
  Lemma c_pmap {A B} (f : A -> B) (p : prog A) : P p -> P (pmap f p).
  Proof. intros H. apply c_bind; [exact H|intros a; apply c_ret]. Qed.
  Lemma c_fold {S} n (st : S -> prog S) s : (forall s, P (st s)) -> P (foldN n st s).
  Proof. apply (k_fold c plain _ K). Qed.
  Lemma c_repeatN {A} n (p : prog A) : P p -> P (repeatN n p).
  Proof.
    intros H. apply c_bind; [|intros; apply c_ret]. apply c_fold. intros acc. apply c_bind; [exact H|intros; apply c_ret].
  Qed.
  Lemma c_sequence {A} (ps : list (prog A)) : Forall (fun p => P p) ps -> P (sequence ps).
  Proof.
    induction 1 as [|p t H _ IH]; cbn [sequence]; [apply c_ret|]. apply c_bind; [exact H|]. intros a.
    apply c_bind; [exact IH|]. intros l; apply c_ret.
  Qed.
  Lemma c_bool : P de_bool.
  Proof.
    apply c_bind; [apply (k_byte c plain _ K)|]. intros b. destruct (b =? 0); [apply c_ret|]. destruct (b =? 1); [apply c_ret|apply c_fail; auto].
  Qed.
  Lemma c_option {A} (p : prog A) : P p -> P (de_option p).
  Proof. intros H. apply c_bind; [apply c_bool|]. intros [|]; [apply c_pmap, H|apply c_ret]. Qed.
  Lemma c_vec {A} (p : prog A) : P p -> P (de_vec c p).
  Proof. intros H. apply c_bind; [apply (k_u64 c plain _ K)|]. intros n. apply c_repeatN, H. Qed.
  Lemma c_map {A} (p : prog A) : P p -> P (de_map c p).
  Proof.
    intros H. apply c_bind; [apply (k_u64 c plain _ K)|]. intros n. apply c_fold. intros m. apply c_bind; [apply (k_string c plain _ K)|]. intros k.
    apply c_bind; [exact H|]. intros v; apply c_ret.
  Qed.
  Lemma c_loop {A} keys (fs : list (string * prog A)) slots : Forall (fun f => P (snd f)) fs -> P (struct_loop keys fs slots).
  Proof.
    intros H. revert slots. induction keys as [|key t IH]; intros slots; cbn [struct_loop]; [apply c_ret|].
    destruct (find_field key fs) as [[i p]|] eqn:E; [|apply c_crash]. apply find_field_in, nth_error_In in E as Hin.
    destruct (nth_error slots i) as [[a|]|]; [apply c_fail; auto| |apply c_fail; auto].
    apply c_bind; [|intros a; apply IH]. rewrite Forall_forall in H. apply (H _ Hin).
  Qed.
  Lemma c_missing {A} (miss slots : list (option A)) : P (fill_missing miss slots).
  Proof.
    revert slots. induction miss as [|m ms IH]; intros [|s ss]; cbn [fill_missing]; try apply c_ret.
    destruct s, m; try apply c_fail; auto; (apply c_bind; [apply IH|intros l; apply c_ret]).
  Qed.
  Lemma c_struct {A} keys (fs : list (string * prog A)) miss : Forall (fun f => P (snd f)) fs -> P (de_struct keys fs miss).
  Proof. intros H. apply c_bind; [apply c_loop, H|]. intros l; apply c_missing. Qed.
  Lemma c_pick {A} (l : list (prog A)) i p : Forall (fun p => P p) l -> pickN l i = Some p -> P p.
  Proof. intros H E. apply pickN_some in E as [Hin _]. rewrite Forall_forall in H. apply H, Hin. Qed.
  Lemma c_i32 : P de_i32. Proof. apply c_pmap, (k_u32 c plain _ K). Qed.
  Lemma c_i64 : P de_i64. Proof. apply c_pmap, (k_u64 c plain _ K). Qed.
  Lemma c_big : P (de_big c). Proof. apply c_vec, (k_byte c plain _ K). Qed.
  Lemma c_or {A} (o : option A) : P (or_overflow o). Proof. destruct o; [apply c_ret|apply c_crash]. Qed.

  Lemma c_leaf l : P (leaf_de c l).
  Proof.
    destruct l; cbn [leaf_de]; try apply c_ret; try apply c_crash;
      try (apply c_pmap; first [apply c_bool | apply (k_byte c plain _ K) | apply (k_u16 c plain _ K) | apply (k_u32 c plain _ K) | apply (k_u64 c plain _ K)
        | apply (k_f32 c plain _ K) | apply (k_f64 c plain _ K) | apply c_big | apply (k_string c plain _ K) | apply (k_buf c plain _ K)
        | apply c_pmap; first [apply (k_byte c plain _ K) | apply (k_u16 c plain _ K) | apply (k_u32 c plain _ K) | apply (k_u64 c plain _ K) | apply c_big]]).
    - apply c_pmap, c_bind; [apply c_big|]. intros [|b bs]; [apply c_ret|]. apply c_bind; [apply c_i64|intros; apply c_ret].
    - apply c_pmap, c_bind; [apply c_big|]. intros bs. cbv zeta.
      destruct (from_signed_bytes_le bs =? 0)%Z; [apply c_ret|]. apply c_bind; [apply c_i64|intros; apply c_ret].
    - apply c_pmap, c_bind; [apply c_i32|intros y0]. apply c_bind; [apply c_or|intros y].
      apply c_bind; [apply (k_u16 c plain _ K)|intros o0]. apply c_bind; [apply c_or|intros o]. apply c_ret.
    - apply c_pmap, c_bind; [apply c_i32|intros y0]. apply c_bind; [apply c_or|intros y].
      apply c_bind; [apply (k_u16 c plain _ K)|intros o0]. apply c_bind; [apply c_or|intros o].
      destruct (from_ordinal_date y o); [apply c_ret|apply c_fail; auto].
    - apply c_pmap, c_bind; [apply c_i64|intros ts]. apply c_bind; [apply (k_u32 c plain _ K)|intros ns]. apply c_ret.
    - apply c_pmap, c_bind; [apply c_i64|intros ts]. apply c_bind; [apply (k_u32 c plain _ K)|intros ns].
      destruct (from_unix_timestamp ts) as [t|]; [|apply c_fail; auto]. destruct (odt_add_ns t ns); [apply c_ret|apply c_crash].
  Qed.
  Lemma c_seq_fields fs : Forall (fun f => P (df_read f)) fs -> P (seq_fields fs).
  Proof.
    induction 1 as [|f t Hf _ IH]; cbn [seq_fields]; [apply c_ret|].
    destruct (serde_skips_de (df_attrs f)); [apply c_bind; [exact IH|intros l; apply c_ret]|].
    apply c_bind; [exact Hf|]. intros v. apply c_bind; [exact IH|intros l; apply c_ret].
  Qed.
  Lemma c_fill fs slots : P (fill_fields fs slots).
  Proof.
    revert slots. induction fs as [|f t IH]; intros slots; cbn [fill_fields]; [apply c_ret|].
    destruct (serde_skips_de (df_attrs f)); [apply c_bind; [apply IH|intros l; apply c_ret]|].
    destruct slots as [|[v|] s]; [apply c_fail; auto| |].
    - apply c_bind; [apply IH|intros l; apply c_ret].
    - destruct (df_miss f); [|apply c_fail; auto]. apply c_bind; [apply IH|intros l; apply c_ret].
  Qed.
  Lemma c_members k fs : Forall (fun f => P (df_read f)) fs -> P (members_de k fs).
  Proof.
    intros H. destruct k; cbn [members_de]; [|apply c_seq_fields, H|apply c_ret].
    apply c_bind; [|intros l; apply c_fill]. apply c_loop.
    unfold kept. induction H as [|f t Hf _ IH]; cbn [filter map]; [constructor|].
    destruct (negb (serde_skips_de (df_attrs f))); [cbn [map]; constructor; assumption|exact IH].
  Qed.
  Theorem all_derived dflt t : P (rde c dflt t).
  Proof.
    assert (L : forall fs : list (attrs * (string * rty)), Forall (fun f => P (rde c dflt (snd (snd f)))) fs ->
      Forall (fun f => P (df_read f))
        (map (fun f => DField (fst f) (fst (snd f)) (dflt (snd (snd f))) (is_option (snd (snd f))) (rde c dflt (snd (snd f)))) fs)).
    { induction 1 as [|f fs Hf _ IH]; cbn [map]; constructor; [exact Hf|exact IH]. }
    induction t using rty_ind2; cbn [rde]; try (apply c_fail; auto).
    - apply c_leaf.
    - apply c_pmap, c_option, IHt.
    - apply c_pmap, c_vec, IHt.
    - apply c_pmap, c_map, IHt.
    - apply c_pmap, c_map, IHt.
    - apply c_pmap, c_sequence. induction H; cbn [map]; constructor; assumption.
    - apply c_pmap, c_members, L, H.
    - apply c_bind; [apply (k_u16 c plain _ K)|]. intros i.
      match goal with |- P (match pickN (enum_alts _ ?x) ?i with _ => _ end) => assert (F : forall n, Forall (fun p => P p) (enum_alts n x)) end.
      { induction H as [|v vs Hv _ IH]; intros n; cbn [map enum_alts]; [constructor|].
        destruct (serde_skips_de (fst v)); [apply IH|]. constructor; [|apply IH]. apply c_pmap, c_members, L, Hv. }
      match goal with |- P (match ?x with _ => _ end) => destruct x eqn:E end; [|apply c_fail; auto]. exact (c_pick _ _ _ (F 0) E).
  Qed.

  Theorem all_items items depth i : plain = true -> P (item_de c items depth i).
  Proof.
    intros Hp. revert i. induction depth as [|d IH]; intros i; cbn [item_de]; [apply c_crash|].
    destruct (nth_error items i) as [t|]; [|apply c_crash]. clear i.
    induction t using xty_ind2; cbn [xde].
    - apply (k_de c plain _ K Hp).
    - apply c_pmap, c_option, IHt.
    - apply c_pmap, IHt.
    - apply c_pmap, c_vec, IHt.
    - apply c_pmap, c_map, IHt.
    - apply c_pmap, c_sequence. induction H; cbn [map]; constructor; assumption.
    - apply c_pmap, c_sequence. induction H; cbn [map]; constructor; assumption.
    - apply c_pmap, c_struct. induction H; cbn [map]; constructor; assumption.
    - apply c_bind; [apply (k_u16 c plain _ K)|]. intros i. rewrite pickN_map. destruct (pickN vs i) as [a|] eqn:E; cbn [option_map]; [|apply c_fail; auto].
      apply pickN_some in E as [Hin _]. rewrite Forall_forall in H. apply c_pmap, (H a Hin).
    - apply IH.
  Qed.

  Lemma c_octets n : P (octets_de n).
  Proof. apply c_sequence, Forall_forall. intros p Hr. apply repeat_spec in Hr. subst p. apply (k_byte c plain _ K). Qed.
  Lemma c_std_enum alts : Forall (fun p => P p) alts -> P (std_enum alts).
  Proof.
    intros H. apply c_bind; [apply (k_u16 c plain _ K)|]. intros i. destruct (pickN alts i) eqn:E; [|apply c_fail; auto]. exact (c_pick _ _ _ H E).
  Qed.
  Lemma c_duration a b : P (duration_de a b).
  Proof.
    apply c_bind; [apply c_struct; repeat constructor; [apply (k_u64 c plain _ K)|apply (k_u32 c plain _ K)]|].
    intros [|x [|y [|z l]]]; try apply c_fail; auto. destruct (_ <? _); [apply c_ret|apply c_fail; auto].
  Qed.
  Lemma c_range p miss mk : P p -> P (range_de p miss mk).
  Proof.
    intros H. apply c_bind; [apply c_struct; repeat constructor; exact H|].
    intros [|x [|y [|z l]]]; first [apply c_ret | apply c_fail; auto].
  Qed.
  Lemma c_sock n (mk : list N -> N -> stdval) : P (l <- octets_de n ;; port <- de_u16 ;; Ret (mk l port)).
  Proof. apply c_bind; [apply c_octets|intros l]. apply c_bind; [apply (k_u16 c plain _ K)|intros q; apply c_ret]. Qed.
  Lemma c_user_enum (alts : list (N -> prog stdval)) : Forall (fun a => forall i, P (a i)) alts -> P (user_enum alts).
  Proof.
    intros H. unfold user_enum. apply c_bind; [apply (k_u16 c plain _ K)|]. intros i. generalize i at 2. intros j. revert i.
    induction H as [|a t Ha _ IH]; intros i; cbn [pickN]; [apply c_fail; auto|]. destruct (i =? 0); [apply Ha|apply IH].
  Qed.
  Theorem all_std t : plain = true -> P (std_de c t).
  Proof.
    intros Hp.
    induction t using stdty_ind2; cbn [std_de].
    - apply c_pmap, (k_de c plain _ K Hp).
    - apply c_bind; [apply (k_de c plain _ K Hp)|]. intros v. destruct (is_zero v); [apply c_fail; auto|apply c_ret].
    - apply c_pmap, c_option, IHt.
    - apply c_pmap, c_vec, IHt.
    - apply c_pmap, c_vec, IHt.
    - apply c_pmap, c_sequence, Forall_forall. intros p Hr. apply repeat_spec in Hr. subst p. exact IHt.
    - apply c_pmap, c_sequence. induction H; cbn [map]; constructor; assumption.
    - apply c_range, IHt.
    - apply c_range, IHt.
    - apply c_std_enum. repeat constructor; first [apply c_ret | apply c_pmap, IHt].
    - apply c_std_enum. repeat constructor; apply c_pmap; assumption.
    - apply c_pmap, c_duration.
    - apply c_bind; [apply c_duration|]. intros p. destruct (fst p <? 2 ^ 63); [apply c_ret|apply c_fail; auto].
    - apply c_bind; [apply (k_buf c plain _ K)|]. intros bs. destruct (existsb (N.eqb 0) bs); [apply c_fail; auto|apply c_ret].
    - apply c_std_enum. constructor; [apply c_pmap, c_big|constructor; [apply c_fail; auto|constructor]].
    - apply c_pmap, (k_string c plain _ K).
    - apply c_pmap, c_octets.
    - apply c_pmap, c_octets.
    - apply c_std_enum. constructor; [|constructor; [|constructor]]; apply c_pmap, c_pmap, c_octets.
    - apply (c_sock 4).
    - apply (c_sock 16 (fun l q => XSock6 l q 0 0)).
    - apply c_std_enum. constructor; [|constructor; [|constructor]];
        [apply (c_sock 4 (fun l q => XV4 (XSock4 l q)))|apply (c_sock 16 (fun l q => XV6 (XSock6 l q 0 0)))].
    - apply c_pmap, c_map, IHt.
    - apply c_pmap, c_struct. induction H; cbn [map]; constructor; assumption.
    - apply c_user_enum. induction H as [|v vs Hv _ IH]; cbn [map]; constructor; [intros i; apply c_pmap, Hv|exact IH].
  Qed.
End Closed.

(** ** Instances *)
Lemma kept_small c : kept_by_all c true (fun A => @small A 4096).
Proof.
  constructor; try (intros; exact I).
  - intros A B p f. apply small_bind.
  - intros S n st s. apply small_foldN.
  - apply small_byte.
  - apply small_u16.
  - apply small_u32.
  - apply small_u64.
  - split; [lia|intros; exact I].
  - split; [lia|intros; exact I].
  - apply small_string.
  - apply small_byte_buf.
  - intros _ d. apply small_de.
Qed.
Lemma kept_steady c : usize_bits c = 64 -> kept_by_all c true (fun A => @steady A c).
Proof.
  intros Hc. constructor.
  - intros; apply steady_Ret.
  - intros; apply steady_Fail.
  - intros; apply steady_Crash.
  - intros A B p f. apply steady_bind.
  - intros S n st s. apply steady_foldN.
  - apply steady_byte.
  - apply steady_u16.
  - apply steady_u32.
  - apply steady_u64.
  - apply steady_f32.
  - apply steady_f64.
  - apply steady_string, Hc.
  - apply steady_byte_buf.
  - intros _ d. apply steady_de, Hc.
Qed.
Lemma kept_local c : usize_bits c = 64 -> kept_by_all c true (fun A => @local A c ERead).
Proof.
  intros Hc. constructor.
  - intros; apply local_Ret.
  - intros; apply local_Fail.
  - intros; apply local_Crash.
  - intros A B p f. apply local_bind.
  - intros S n st s. apply local_foldN.
  - apply local_byte.
  - apply local_dec_u16.
  - apply local_dec_u32.
  - apply local_dec_u64.
  - apply local_float.
  - apply local_float.
  - apply local_string, Hc.
  - apply local_byte_buf.
  - intros _ d. apply local_de, Hc.
Qed.
Lemma local_known {A} c (p : prog A) s v r : local c ERead p -> bytes_ok s -> run c p s = OOk v r ->
  exists u, s = u ++ r /\ (forall t, run c p (u ++ t) = OOk v t) /\ (forall u1 x t1, u = u1 ++ x :: t1 -> run c p u1 = OErr ERead).
Proof.
  intros Hl Hs H. destruct (Hl s v r Hs H) as (u & -> & Hp & Hq).
  exists u. split; [reflexivity|]. split; [exact Hp|]. intros u1 x t1 E. eapply Hq; exact E.
Qed.

(** ** Errors *)
(** Every error the program can name is in [E]. *)
Fixpoint names {A} (E : derr -> Prop) (p : prog A) : Prop :=
  match p with
  | Ret _ | Crash _ => True
  | Fail e => E e
  | ReadExact _ e k => E e /\ forall bs, names E (k bs)
  | ReadLimit _ e k => E e /\ forall bs, names E (k bs)
  | Alloc _ k => names E k
  end.
Lemma names_run {A} E c (p : prog A) s e : names E p -> run c p s = OErr e -> E e.
Proof.
  revert s; induction p as [a|e0|q|n e0 k IH|n e0 k IH|n k IH]; intros s; cbn [names run]; try discriminate.
  - intros H X; injection X as <-; exact H.
  - intros [H Hk]. destruct (lenN s <? n); [intros X; injection X as <-; exact H|apply IH, Hk].
  - intros [H Hk]. apply IH, Hk.
  - intros H. destruct (alloc_result c n); [discriminate|apply IH, H].
Qed.
Lemma names_bind {A B} E (p : prog A) (f : A -> prog B) : names E p -> (forall a, names E (f a)) -> names E (bind p f).
Proof.
  induction p as [| | |n e k IH|n e k IH|n k IH]; cbn [names bind]; intros Hp Hf; auto.
  - destruct Hp; auto.
  - destruct Hp; auto.
Qed.
Lemma names_fold {S} E n (st : S -> prog S) s : (forall s, names E (st s)) -> names E (foldN n st s).
Proof.
  intros H. destruct n as [|n]; cbn [foldN]; [exact I|]. revert s.
  induction n as [n IH|n IH|]; intros s; cbn [fold_pos]; auto using names_bind.
Qed.
Ltac names_varint E := unfold dec_u16, dec_u32, dec_u64; apply names_bind; [split; [exact E|intros; exact I]|]; intros p; cbv zeta;
  repeat match goal with |- names _ (if ?b then _ else _) => destruct b end; first [exact I | split; [exact E|intros; exact I]].
Section Names.
  Context (E : derr -> Prop) (Er : E ERead) (Em : E EMsg) (c : cfg).
  Lemma names_u64 : names E de_u64. Proof. names_varint Er. Qed.
  Lemma names_string : names E (de_string c).
  Proof.
    apply names_bind; [apply names_u64|]. intros n. destruct (n <? STR_MAX).
    - split; [exact Er|]. intros bs. destruct (utf8_valid bs); [exact I|exact Er].
    - split; [exact Er|]. intros bs. destruct (utf8_valid bs); [|exact Er]. destruct (_ =? _); [exact I|exact Er].
  Qed.
  Lemma names_buf : names E (de_byte_buf c).
  Proof.
    apply names_bind; [apply names_u64|]. intros n. destruct (BUF_MAX <? n).
    - cbn [names]. apply names_bind; [|intros [r|r]; exact I]. apply names_fold.
      intros [[[acc rl] pos]|r]; cbn [buf_step]; [|exact I]. destruct (rl <? _); [|exact I]. split; [exact Er|intros; exact I].
    - cbn [names]. split; [exact Er|intros; exact I].
  Qed.
  Lemma kept_names_0 : kept_by_all c false (fun A => @names A E).
  Proof.
    constructor.
    - intros; exact I.
    - intros A e [-> | ->]; assumption.
    - intros; exact I.
    - intros A B. apply names_bind.
    - intros S. apply names_fold.
    - split; [exact Er|intros; exact I].
    - names_varint Er.
    - names_varint Er.
    - names_varint Er.
    - split; [exact Er|intros; exact I].
    - split; [exact Er|intros; exact I].
    - apply names_string.
    - apply names_buf.
    - discriminate.
  Qed.
End Names.
Lemma names_de c d : names (fun e => e = ERead \/ e = EMsg \/ e = ECharSize) (de c d).
Proof.
  set (E := fun e => e = ERead \/ e = EMsg \/ e = ECharSize).
  assert (Er : E ERead) by (left; reflexivity). assert (Em : E EMsg) by (right; left; reflexivity).
  pose proof (kept_names_0 E Er Em c) as K.
  assert (Bo := c_bool c false _ K). assert (By := k_byte c false _ K). assert (W16 := k_u16 c false _ K). assert (W32 := k_u32 c false _ K).
  assert (W64 := k_u64 c false _ K). assert (Big := c_big c false _ K).
  assert (M : forall A B (f : A -> B) (p : prog A), names E p -> names E (pmap f p)) by (intros A B; apply (c_pmap c false _ K)).
  induction d using dty_ind2; cbn [de]; try exact I; try exact Em;
    try (apply M; first [exact Bo | exact By | exact W16 | exact W32 | exact W64 | apply names_string; assumption | apply names_buf; assumption
      | exact Big | apply M; first [exact By | exact W16 | exact W32 | exact W64] | split; [exact Er|intros; exact I]]).
  all: try (apply M, (c_sequence c false _ K); induction H; cbn [map]; constructor; assumption).
  - apply M, names_bind; [apply M, W64|]. intros z. destruct (in_s _ z); [exact I|exact Em].
  - apply M, names_bind; [exact W64|]. intros z. destruct (z <? _); [exact I|exact Em].
  - apply M, names_bind; [apply names_string; assumption|]. intros s. destruct (next_char s); [exact I|right; right; reflexivity].
  - apply M, (c_option c false _ K), IHd.
  - apply M, IHd.
  - apply M, (c_vec c false _ K), IHd.
  - apply M, (c_map c false _ K), IHd.
  - apply M, (c_struct c false _ K). induction H; cbn [map]; constructor; assumption.
  - unfold de_enum. apply names_bind; [exact W16|]. intros i. rewrite pickN_map. destruct (pickN vs i) as [a|] eqn:X; cbn [option_map]; [|exact Em].
    apply pickN_some in X as [Hin _]. rewrite Forall_forall in H. apply M, (H a Hin).
  - apply M, names_bind; [exact Big|]. intros [|b bs]; [exact I|]. apply names_bind; [apply M, W64|intros; exact I].
  - apply M, names_bind; [apply M, W32|]. intros y0. apply names_bind; [apply (c_or c false _ K)|]. intros y.
    apply names_bind; [exact W16|]. intros o0. apply names_bind; [apply (c_or c false _ K)|]. intros o. exact I.
  - apply M, names_bind; [apply M, W64|]. intros t. apply names_bind; [exact W32|]. intros; exact I.
Qed.
Lemma kept_names c : kept_by_all c true (fun A => @names A (fun e => e = ERead \/ e = EMsg \/ e = ECharSize)).
Proof.
  destruct (kept_names_0 (fun e => e = ERead \/ e = EMsg \/ e = ECharSize) (or_introl eq_refl) (or_intror (or_introl eq_refl)) c).
  constructor; try assumption. intros _ d. apply names_de.
Qed.
