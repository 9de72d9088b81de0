(** * Proofs: values read on a 32-bit target are values of the type too, byte buffers of 2^32 bytes excepted. *)
From Coq Require Import String.
From Verif Require Import Base BaseFacts Varint VarintFacts Utf8 SpecDty Serde Typing PrimFacts SerdeFacts SerdeMore Consume SerdeSize.
Local Open Scope list_scope.
Local Open Scope N_scope.

(** On [c], fewer than [2 ^ usize_bits c] bytes lie between [s] and its tail [r] (64-bit: always). *)
Definition narrow (c : cfg) (s r : list N) : Prop := usize_bits c = 64 \/ lenN s < 2 ^ usize_bits c + lenN r.
(** [yields] for runs that consume that little. *)
Definition short {A} (c : cfg) (p : prog A) (P : A -> Prop) : Prop :=
  forall s a r, bytes_ok s -> narrow c s r -> run c p s = OOk a r -> P a.
Lemma run_shrinks {A} c (p : prog A) : forall s a r, run c p s = OOk a r -> lenN r <= lenN s.
Proof.
  induction p as [a|e|q|n e k IH|n e k IH|n k IH]; intros s b r H; cbn [run] in H; try discriminate.
  - injection H as _ <-. apply N.le_refl.
  - destruct (lenN s <? n); [discriminate|]. apply IH in H. rewrite lenN_dropN in H. lia.
  - apply IH in H. rewrite lenN_dropN in H. lia.
  - destruct (alloc_result c n); try discriminate. exact (IH _ _ _ H).
Qed.
Lemma short_of {A} c (p : prog A) P : yields c p P -> short c p P.
Proof. intros H s a r Hs _ E. exact (H s a r Hs E). Qed.
Lemma short_Ret {A} c (a : A) (P : A -> Prop) : P a -> short c (Ret a) P.
Proof. intros H. apply short_of, yields_Ret, H. Qed.
Lemma short_Fail {A} c e (P : A -> Prop) : short c (Fail e) P.
Proof. apply short_of, yields_Fail. Qed.
Lemma short_bind {A B} c (p : prog A) (f : A -> prog B) (P : A -> Prop) (Q : B -> Prop) :
  short c p P -> (forall a, P a -> short c (f a) Q) -> short c (bind p f) Q.
Proof.
  intros Hp Hf s b r Hs Hn H. apply run_bind_ok in H as (a & r' & H1 & H2).
  pose proof (run_shrinks _ _ _ _ _ H1). pose proof (run_shrinks _ _ _ _ _ H2).
  assert (N1 : narrow c s r') by (destruct Hn as [?|?]; [left; assumption|right; lia]).
  assert (N2 : narrow c r' r) by (destruct Hn as [?|?]; [left; assumption|right; lia]).
  refine (Hf a (Hp s a r' Hs N1 H1) r' b r _ N2 H2). eapply run_rest; eassumption.
Qed.
Lemma short_pmap {A B} c (p : prog A) (f : A -> B) (P : A -> Prop) (Q : B -> Prop) :
  short c p P -> (forall a, P a -> Q (f a)) -> short c (pmap f p) Q.
Proof. intros Hp Hf; eapply short_bind; [exact Hp|]; intros; apply short_Ret; auto. Qed.
Lemma short_weaken {A} c (p : prog A) (P Q : A -> Prop) : short c p P -> (forall a, P a -> Q a) -> short c p Q.
Proof. intros H HPQ s a r Hs Hn Hr; eauto. Qed.
Lemma short_ext {A} c (p q : prog A) P : (forall s, run c p s = run c q s) -> short c q P -> short c p P.
Proof. intros H Hq s a r Hs Hn E; rewrite H in E; eauto. Qed.
Lemma short_iter {S} c n (step : S -> prog S) s (P : nat -> S -> Prop) :
  P O s -> (forall i s, P i s -> short c (step s) (P (Datatypes.S i))) -> short c (iter n step s) (P n).
Proof.
  intros H0 Hs.
  assert (G : forall n i s, P i s -> short c (iter n step s) (P (n + i)%nat)).
  { clear n s H0; induction n as [|n IH]; intros i s Hi; cbn [iter]; [apply short_Ret; exact Hi|].
    eapply short_bind; [apply Hs, Hi|]; intros s' Hs'.
    eapply short_weaken; [apply IH, Hs'|]. intros a Ha; replace (Datatypes.S n + i)%nat with (n + Datatypes.S i)%nat by lia.
    exact Ha. }
  specialize (G n O s H0). rewrite Nat.add_0_r in G; exact G.
Qed.
Lemma short_rep {A} c n (p : prog A) (P : A -> Prop) : short c p P -> short c (rep n p) (fun l => length l = n /\ Forall P l).
Proof.
  intros H. induction n as [|n IH]; cbn [rep]; [apply short_Ret; split; [reflexivity|constructor]|].
  eapply short_bind; [exact H|]. intros a Ha. eapply short_bind; [exact IH|]. intros l [Hl HF]. apply short_Ret.
  split; [cbn; lia|constructor; assumption].
Qed.
Lemma short_sequence {A} c (ps : list (prog A)) (Ps : list (A -> Prop)) :
  Forall2 (short c) ps Ps -> short c (sequence ps) (Forall2 (fun (P : A -> Prop) a => P a) Ps).
Proof.
  induction 1 as [|p P ps Ps Hp Hps IH]; cbn [sequence]; [apply short_Ret; constructor|].
  eapply short_bind; [exact Hp|]; intros a Ha. eapply short_bind; [exact IH|].
  intros l Hl; apply short_Ret; constructor; assumption.
Qed.
Lemma short_seq {X A} c (f : X -> prog A) (R : X -> A -> Prop) (l : list X) :
  Forall (fun x => short c (f x) (R x)) l -> short c (sequence (map f l)) (Forall2 R l).
Proof.
  intros H. eapply short_weaken; [apply (short_sequence c _ (map R l))|].
  - induction H; cbn [map]; constructor; assumption.
  - intros a Ha. clear H. revert a Ha. induction l as [|x l IH]; cbn [map]; intros a Ha; inversion Ha; subst; constructor; auto.
Qed.
Lemma short_vec {A} c (p : prog A) P : short c p P ->
  short c (de_vec c p) (fun l => lenN l < 2 ^ usize_bits c /\ Forall P l).
Proof.
  intros H. eapply short_bind with (P := fun _ => True); [intros s a r _ _ _; exact I|].
  intros n _. eapply short_ext; [intros; apply run_repeatN|]. eapply short_weaken; [apply short_rep, H|]. cbv beta.
  intros l [Hl HF]. split; [|exact HF]. assert (E : lenN l = as_usize c n) by (unfold lenN; lia). rewrite E.
  apply N.mod_lt, N.pow_nonzero; lia.
Qed.
Lemma short_map {A} c (p : prog A) (Q : A -> Prop) : wf_cfg c -> short c p Q ->
  short c (de_map c p) (fun m => lenN m < 2 ^ usize_bits c /\ sorted_keys m = true /\
     Forall (fun kv => str_ok c (fst kv) = true /\ Q (snd kv)) m).
Proof.
  intros Hc Hp. unfold de_map, de_map_n. eapply short_bind with (P := fun _ => True); [intros s a r _ _ _; exact I|].
  intros count _. set (n := as_usize c count).
  assert (Hn : n < 2 ^ usize_bits c) by (apply N.mod_lt, N.pow_nonzero; lia).
  eapply short_ext; [intros; apply run_foldN|].
  eapply short_weaken; [apply (short_iter c (N.to_nat n) _ [] (fun i (m : list (list N * A)) => (length m <= i)%nat /\ sorted_keys m = true /\
     Forall (fun kv => str_ok c (fst kv) = true /\ Q (snd kv)) m))|].
  - split; [cbn; lia|]. split; [reflexivity|constructor].
  - intros i m (Hl & Hso & HF). eapply short_bind; [apply short_of, yields_string, Hc|]. intros k [Hk1 Hk2].
    eapply short_bind; [exact Hp|]. intros v Hv; apply short_Ret.
    split; [|split].
    + pose proof (map_insert_length k v m); lia.
    + apply map_insert_sorted, Hso.
    + apply (map_insert_keys (fun k => str_ok c k = true) Q); [|exact Hv|exact HF].
      unfold str_ok, usize_ok. rewrite Hk1. cbn [andb]. apply N.ltb_lt, Hk2.
  - cbv beta. intros m (G1 & G2 & G3). split; [unfold lenN; lia|]. split; assumption.
Qed.
Lemma wf_cfg_64 c : wf_cfg c -> 2 ^ usize_bits c <= 2 ^ 64.
Proof. intros [[E|E] _]; rewrite E; discriminate. Qed.
Lemma short_byte_buf c : wf_cfg c -> 4096 <= heap_limit c -> short c (de_byte_buf c) (fun bs => lenN bs < 2 ^ usize_bits c).
Proof.
  intros Hw Hh s bs r Hs Hn H. destruct Hn as [Hn|Hn]; [eapply (yields_byte_buf_len c); eassumption|].
  destruct (consumes_byte_buf c Hw Hh s bs r Hs H) as (n & E & Hb). change ser_bytes with ser_str in Hb. rewrite wsize_str in Hb. lia.
Qed.
(** What a run consuming fewer than [2 ^ usize_bits c] bytes returns is a value of the type. *)
Lemma typed_short c d : wf_cfg c -> 4096 <= heap_limit c -> wf_dty d = true -> short c (de c d) (fun v => has_ty c d v = true).
Proof.
  intros Hw Hh. induction d using dty_ind2; intros Hwf;
    try (apply short_of, typed_de_any; [exact Hw|exact Hh|exact Hwf|right; reflexivity]); cbn [wf_dty de] in *.
  - intros s v r Hs Hn H. assert (H' := H). apply run_pmap_ok in H as (bs & H & ->).
    cbn [has_ty]. unfold buf_ok, usize_ok. apply andb_true_intro; split.
    + apply bytes_okb_ok. eapply yields_byte_buf; eassumption.
    + apply N.ltb_lt. exact (short_byte_buf c Hw Hh s bs r Hs Hn H).
  - eapply short_pmap with (P := fun o => match o with Some v => has_ty c d v = true | None => True end).
    + eapply short_bind with (P := fun _ => True); [intros s a r _ _ _; exact I|].
      intros [|] _; [eapply short_pmap; [apply IHd; assumption|auto]|apply short_Ret; exact I].
    + intros [v|]; auto.
  - eapply short_pmap; [apply IHd; assumption|auto].
  - eapply short_pmap; [apply short_vec, IHd; assumption|]. intros l [Hl HF]. cbn [has_ty].
    rewrite N.eqb_refl. unfold usize_ok. apply N.ltb_lt in Hl; rewrite Hl. cbn [andb].
    apply forallb_forall. rewrite Forall_forall in HF. exact HF.
  - rewrite forallb_forall in Hwf. eapply short_pmap with (P := Forall2 (fun d v => has_ty c d v = true) ds).
    + apply short_seq. rewrite Forall_forall in H |- *. intros d Hd. exact (H d Hd (Hwf d Hd)).
    + intros l Hl; cbn [has_ty]. apply forall2b_Forall2, Hl.
  - rewrite forallb_forall in Hwf. eapply short_pmap with (P := Forall2 (fun d v => has_ty c d v = true) ds).
    + apply short_seq. rewrite Forall_forall in H |- *. intros d Hd. exact (H d Hd (Hwf d Hd)).
    + intros l Hl; cbn [has_ty]. apply forall2b_Forall2, Hl.
  - eapply short_pmap; [apply short_map; [exact Hw|apply IHd; assumption]|].
    intros m (Hl & Hs & HF). cbn [has_ty]. rewrite strkeys_map, lenN_map, N.eqb_refl. unfold usize_ok at 1.
    apply N.ltb_lt in Hl; rewrite Hl, Hs. cbn [andb]. apply forallb_forall; intros kv Hkv.
    rewrite Forall_forall in HF. specialize (HF kv Hkv) as [H1 H2]. rewrite H1, H2; reflexivity.
  - apply andb_prop in Hwf as [Hwf Hfs]. apply andb_prop in Hwf as [Hk Hnd].
    destruct (list_eq_dec string_dec keys (map fst fs)) as [->|]; [|discriminate].
    apply nodupb_NoDup in Hnd. rewrite forallb_forall in Hfs. rewrite Forall_forall in H.
    fold (de c (DStruct (map fst fs) fs)). eapply short_ext; [intros; apply run_de_struct, Hnd|].
    eapply short_pmap with (P := Forall2 (fun (nf : string * dty) v => has_ty c (snd nf) v = true) fs).
    + apply short_seq, Forall_forall. intros nf Hin. exact (H nf Hin (Hfs nf Hin)).
    + intros l Hl. cbn [has_ty]. apply forall2b_Forall2.
      clear - Hl. induction Hl as [|nf v fs l Hv Hl IH]; cbn [map combine]; constructor; [|exact IH].
      cbn [fst snd]. rewrite String.eqb_refl. exact Hv.
  - apply andb_prop in Hwf as [Hn Hvs]. rewrite forallb_forall in Hvs. rewrite Forall_forall in H.
    eapply short_bind with (P := fun _ => True); [intros s a r _ _ _; exact I|]. intros i _.
    rewrite pickN_map. destruct (pickN vs i) as [[k dp]|] eqn:E; [|apply short_Fail]. cbn [option_map fst snd].
    apply pickN_some in E as Hin. destruct Hin as [Hin _].
    specialize (Hvs _ Hin). cbn [fst snd] in Hvs. apply andb_prop in Hvs as [Hv1 Hv2].
    eapply short_pmap; [apply (H _ Hin); exact Hv2|]. cbn [snd]. intros v Hv.
    destruct k; cbn [payload_shape] in Hv1.
    + destruct dp; try discriminate. destruct v; try discriminate. cbn [variant_sval has_ty]. cbv zeta. rewrite pickN_map, E. reflexivity.
    + assert (Ev : variant_sval KNewtype i v = SNewtypeVariant i v) by (destruct v; reflexivity).
      rewrite Ev. cbn [has_ty]. cbv zeta. rewrite pickN_map, E. exact Hv.
    + destruct dp; try discriminate. destruct v; try discriminate. cbn [variant_sval].
      change (has_ty c (DEnum vs) (STupleVariant i l)) with
        (match pickN (map (fun kd => match match fst kd with KTuple => Some (STuple l) | _ => None end with Some x => has_ty c (snd kd) x | None => false end) vs) i
         with Some b => b | None => false end).
      rewrite pickN_map, E. exact Hv.
    + destruct dp; try discriminate. destruct v; try discriminate. cbn [variant_sval].
      change (has_ty c (DEnum vs) (SStructVariant i l)) with
        (match pickN (map (fun kd => match match fst kd with KStruct => Some (SStruct l) | _ => None end with Some x => has_ty c (snd kd) x | None => false end) vs) i
         with Some b => b | None => false end).
      rewrite pickN_map, E. exact Hv.
Qed.
Lemma typed_wide c d s v r : wf_cfg c -> 4096 <= heap_limit c -> wf_dty d = true ->
  usize_bits c = 64 \/ occurs is_buf d = false \/ lenN s < 2 ^ usize_bits c + lenN r ->
  bytes_ok s -> run c (de c d) s = OOk v r -> has_ty c d v = true.
Proof.
  intros Hw Hh Hd [H|[H|H]] Hs Hr.
  - exact (typed_short c d Hw Hh Hd s v r Hs (or_introl H) Hr).
  - exact (typed_de_any c d Hw Hh Hd (or_intror H) s v r Hs Hr).
  - exact (typed_short c d Hw Hh Hd s v r Hs (or_intror H) Hr).
Qed.
