(** * Lemmas about types with conversions (Conv.v). *)
From Coq Require Import String ZifyBool ZifyNat ZifyN.
From Verif Require Import Base BaseFacts Varint VarintFacts Utf8 Serde Typing PrimFacts SerdeFacts SerdeProps SerdeSize Std SpecStd StdFacts Conv SpecConv.
Local Open Scope list_scope.
Local Open Scope N_scope.

Section CtyInd.
  Variable U : Type.
  Variable P : cty U -> Prop.
  Hypothesis Hstd : forall t, P (CStd t).
  Hypothesis Hfrom : forall into from t, P t -> P (CFrom into from t).
  Hypothesis Htry : forall into from t, P t -> P (CTry into from t).
  Hypothesis Hoption : forall t, P t -> P (COption t).
  Hypothesis Hvec : forall t, P t -> P (CVec t).
  Hypothesis Htuple : forall ts, Forall P ts -> P (CTuple ts).
  Hypothesis Hmap : forall t, P t -> P (CMap t).
  Hypothesis Hstruct : forall fs, Forall (fun nf => P (snd nf)) fs -> P (CStruct fs).
  Hypothesis Henum : forall vs, Forall (fun v => P (snd v)) vs -> P (CEnum vs).
  Fixpoint cty_ind2 (t : cty U) : P t :=
    match t with
    | CStd t => Hstd t
    | CFrom into from t => Hfrom into from t (cty_ind2 t)
    | CTry into from t => Htry into from t (cty_ind2 t)
    | COption t => Hoption t (cty_ind2 t)
    | CVec t => Hvec t (cty_ind2 t)
    | CTuple ts => Htuple ts
        ((fix go l : Forall P l := match l with
          | [] => Forall_nil _ | t :: r => Forall_cons _ (cty_ind2 t) (go r) end) ts)
    | CMap t => Hmap t (cty_ind2 t)
    | CStruct fs => Hstruct fs
        ((fix go l : Forall (fun nf => P (snd nf)) l := match l with
          | [] => Forall_nil _ | nf :: r => Forall_cons _ (cty_ind2 (snd nf)) (go r) end) fs)
    | CEnum vs => Henum vs
        ((fix go l : Forall (fun v => P (snd v)) l := match l with
          | [] => Forall_nil _ | v :: r => Forall_cons _ (cty_ind2 (snd v)) (go r) end) vs)
    end.
End CtyInd.

Section Conv.
  Context {U : Type}.
  Implicit Types t : cty U.

  (** ** Reading *)
  Lemma related_turned (ts : list (cty U)) ws vs : related (map turned ts) ws vs <-> all_turned ts ws vs.
  Proof.
    revert ws vs; induction ts as [|t ts IH]; intros ws vs; (split; [|intros H; inversion H; subst]).
    - destruct ws, vs; try contradiction. constructor.
    - exact I.
    - destruct ws, vs; try contradiction. cbn [map related]. intros [H1 H2]. constructor; [exact H1|apply IH, H2].
    - split; [assumption|apply IH; assumption].
  Qed.
  Lemma all_turned_length (ts : list (cty U)) ws vs : all_turned ts ws vs -> length ws = length ts /\ length vs = length ts.
  Proof. revert ws vs; induction ts as [|t ts IH]; intros ws vs H; inversion H as [|? w v ? ws' vs' _ H']; subst; [auto|]. destruct (IH _ _ H'). cbn [length]. auto. Qed.
  Lemma run_conv_struct c (fs : list (string * cty U)) s : NoDup (map fst fs) ->
    run c (cde c (CStruct fs)) s = run c (pmap (fun l => VRecord (combine (map fst fs) l)) (sequence (map (fun nf => cde c (snd nf)) fs))) s.
  Proof.
    intros Hnd; cbn [cde]. rewrite !run_pmap.
    pose proof (run_struct c (map (fun nf => (fst nf, cde c (snd nf))) fs) (map (fun nf => cmissing (snd nf)) fs) s) as H.
    rewrite map_map_fst, !map_map, !map_length in H. cbn [snd] in H. rewrite H; [reflexivity|exact Hnd|reflexivity].
  Qed.
  Lemma variant_turned (vs : list (vkind * cty U)) k i t w v : pickN vs i = Some (k, t) -> cpayload k t -> (k = KUnit -> w = SUnit) -> turned t w v ->
    turned (CEnum vs) (variant_sval k i w) (VVariant k i v).
  Proof.
    intros E Hp Hu H. rewrite pickN_nth in E. destruct k; cbn [cpayload] in Hp; cbn [variant_sval].
    - rewrite (Hu eq_refl) in H. eapply tu_variant_unit; eassumption.
    - eapply tu_variant_newtype; eassumption.
    - destruct Hp as [ts ->]. inversion H; subst. eapply tu_variant_tuple; eassumption.
    - destruct Hp as [fs ->]. inversion H; subst. eapply tu_variant_struct; eassumption.
  Qed.
  Lemma turned_variant (vs : list (vkind * cty U)) k i t w v' : pickN vs i = Some (k, t) -> (k = KUnit -> w = SUnit) -> turned (CEnum vs) (variant_sval k i w) v' ->
    exists v, v' = VVariant k i v /\ turned t w v.
  Proof.
    intros E Hu H. rewrite pickN_nth in E.
    destruct k; cbn [variant_sval] in H; try destruct w; cbn [variant_sval] in H; inversion H; subst;
      try (rewrite E in *; discriminate);
      match goal with Hn : nth_error _ _ = Some _ |- _ => rewrite E in Hn; injection Hn as <- end; try (eexists; split; [reflexivity|]; eassumption);
      specialize (Hu eq_refl); try discriminate; subst; eauto.
  Qed.
  Lemma cproper_variant (vs : list (vkind * cty U)) i k t : fold_right (fun v P => (cpayload (fst v) (snd v) /\ cproper (snd v)) /\ P) True vs -> pickN vs i = Some (k, t) -> cpayload k t /\ cproper t.
  Proof.
    revert i; induction vs as [|x vs IH]; intros i; cbn [pickN fold_right]; [discriminate|]. intros [P1 P2]. destruct (i =? 0); [intros [= ->]; exact P1|apply IH, P2].
  Qed.
  (** A reader, then a conversion that may refuse. *)
  Lemma follows_try {W V V'} c m (R : W -> V -> Prop) (S : W -> V' -> Prop) q p (g : V -> option V') :
    follows c true m R q p -> (forall w v v', R w v -> g v = Some v' -> S w v') ->
    (forall w v', S w v' -> exists v, R w v /\ g v = Some v') -> (forall w v v', R w v -> R w v' -> v = v') ->
    follows c true m S q (v <- p ;; match g v with Some x => Ret x | None => Fail EMsg end).
  Proof.
    intros F H1 H2 Hf s. rewrite run_bind. specialize (F s). destruct F as [w v r Hw|e|x|w r Hb Hw|e Hb|x Hb]; cbn [obind].
    - destruct (g v) as [v'|] eqn:E; cbn [run]; [constructor; eauto|]. apply ra_refused; [reflexivity|right].
      intros v' Hv. destruct (H2 w v' Hv) as (v1 & Hv1 & E1). rewrite (Hf w v1 v Hv1 Hw) in E1. congruence.
    - constructor.
    - constructor.
    - apply ra_refused; [reflexivity|]. destruct Hw as [Hw|Hw]; [left; exact Hw|right]. intros v' Hv. destruct (H2 w v' Hv) as (v & Hr & _). exact (Hw v Hr).
    - apply ra_err_early; reflexivity.
    - apply ra_panic_early; reflexivity.
  Qed.

  (** A wire value is read as one value at most. *)
  Lemma all_turned_fun (ts : list (cty U)) : Forall (fun t => forall w v v', turned t w v -> turned t w v' -> v = v') ts ->
    forall ws vs vs', all_turned ts ws vs -> all_turned ts ws vs' -> vs = vs'.
  Proof.
    induction 1 as [|t ts Ht _ IH]; intros ws vs vs' A A'; inversion A; subst; inversion A'; subst; [reflexivity|]. f_equal; eauto.
  Qed.
  Lemma turned_fun t : cproper t -> forall w v v', turned t w v -> turned t w v' -> v = v'.
  Proof.
    induction t as [t|into from t IH|into from t IH|t IH|t IH|ts IH|t IH|fs IH|vs IH] using cty_ind2; cbn [cproper]; intros P w v v' H H'.
    - inversion H as [? ? x Hx| | | | | | | | | | | |]; subst. inversion H' as [? ? x' Hx'| | | | | | | | | | | |]; subst. f_equal. exact (stands_fun t P w x x' Hx Hx').
    - inversion H as [|? ? ? ? x Hx| | | | | | | | | | |]; subst. inversion H' as [|? ? ? ? x' Hx'| | | | | | | | | | |]; subst. f_equal. eapply (IH P); eassumption.
    - inversion H as [| |? ? ? ? x ? Hx E| | | | | | | | | |]; subst. inversion H' as [| |? ? ? ? x' ? Hx' E'| | | | | | | | | |]; subst.
      rewrite (IH P w x x' Hx Hx') in E. congruence.
    - inversion H; subst; inversion H'; subst; [reflexivity|]. f_equal. eapply (IH P); eassumption.
    - inversion H as [| | | | |? ? ws l F| | | | | | |]; subst. inversion H' as [| | | | |? ? ? l' F'| | | | | | |]; subst. f_equal. exact (Forall2_fun _ _ _ _ (IH P) F F').
    - inversion H as [| | | | | |? ws l A| | | | | |]; subst. inversion H' as [| | | | | |? ? l' A'| | | | | |]; subst. f_equal.
      refine (all_turned_fun ts _ _ _ _ A A').
      clear -IH P. induction IH as [|t ts Ht IH IH2]; [constructor|]. cbn [fold_right] in P. destruct P as [P1 P2]. constructor; [exact (Ht P1)|exact (IH2 P2)].
    - inversion H as [| | | | | | |? ? ws l Hk F| | | | |]; subst. inversion H' as [| | | | | | |? ? ? l' Hk' F'| | | | |]; subst. f_equal.
      apply pairs_inj; [|exact (Forall2_fun _ _ _ _ (IH P) F F')]. rewrite Hk in Hk'. rewrite !key_names in Hk'. apply SStr_inj, Hk'.
    - destruct P as [_ P]. inversion H as [| | | | | | | |? ws l _ Hk A| | | |]; subst. inversion H' as [| | | | | | | |? ? l' _ Hk' A'| | | |]; subst. f_equal.
      apply pairs_inj; [congruence|]. refine (all_turned_fun _ _ _ _ _ A A').
      clear -IH P. induction IH as [|nf fs Ht IH IH2]; [constructor|]. cbn [fold_right map] in *. destruct P as [P1 P2]. constructor; [exact (Ht P1)|exact (IH2 P2)].
    - rewrite Forall_forall in IH.
      assert (G : forall i k t, nth_error vs (N.to_nat i) = Some (k, t) -> forall w v v', turned t w v -> turned t w v' -> v = v').
      { intros i k t E. pose proof (nth_error_In _ _ E) as Hin. rewrite <- pickN_nth in E. exact (IH (k, t) Hin (proj2 (cproper_variant _ _ _ _ P E))). }
      inversion H as [| | | | | | | | |? i t v0 E S0|? i t w0 v0 E S0|? i t ws v0 E S0|? i t ws v0 E S0]; subst;
      inversion H' as [| | | | | | | | |? i' t' v0' E' S0'|? i' t' w0' v0' E' S0'|? i' t' ws' v0' E' S0'|? i' t' ws' v0' E' S0']; subst;
      rewrite E in E'; injection E' as <-; f_equal; eapply G; eassumption.
  Qed.

  Lemma conv_follows c t : cproper t -> follows c (crefusing t) (cshadowing t) (turned t) (de c (cwire t)) (cde c t).
  Proof.
    induction t as [t|into from t IH|into from t IH|t IH|t IH|ts IH|t IH|fs IH|vs IH] using cty_ind2;
      cbn [cproper cwire crefusing cshadowing]; intros P; cbn [cde].
    - apply (follows_id c _ _ (stands t)); [apply std_follows, P|intros w v H; constructor; exact H|].
      intros w v' H. inversion H; subst. eauto.
    - apply (follows_id c _ _ (turned t)); [apply (IH P)|intros w v H; constructor; exact H|].
      intros w v' H. inversion H; subst. eauto.
    - apply (follows_try c _ (turned t)); [eapply follows_weaken; [| |apply (IH P)]; auto| | |].
      + intros w v v' H E. econstructor; eassumption.
      + intros w v' H. inversion H; subst. eauto.
      + apply turned_fun, P.
    - cbn [de]. eapply follows_view; [apply follows_option, (IH P)| |].
      + intros [w|] [v|] H; try contradiction; constructor; exact H.
      + intros [w|] v' H; [inversion H; subst; exists (Some v); assumption|exists None; exact I].
    - cbn [de]. eapply follows_view; [apply follows_vec, (IH P)| |].
      + intros ws vs H. constructor. exact H.
      + intros ws v' H. inversion H; subst. eauto.
    - cbn [de]. rewrite map_map. apply (follows_view c _ _ (related (map turned ts))).
      + apply follows_sequence; [rewrite !map_length; reflexivity..|].
        intros i R q p HR Hq Hp. rewrite nth_error_map in HR, Hq, Hp. destruct (nth_error ts i) as [t|] eqn:Et; [|discriminate].
        cbn [option_map] in HR, Hq, Hp. injection HR as <-. injection Hq as <-. injection Hp as <-.
        apply nth_error_In in Et. rewrite Forall_forall in IH. eapply follows_weaken; [| |apply (IH t Et)].
        * intros Hr. apply existsb_exists. eauto.
        * intros Hr. apply existsb_exists. eauto.
        * clear -P Et. induction ts as [|x ts IH]; [destruct Et|]. cbn [fold_right] in P. destruct P as [P1 P2]. destruct Et as [<-|Et]; auto.
      + intros ws vs H. constructor. apply related_turned, H.
      + intros ws v' H. inversion H; subst. eexists. apply related_turned. eassumption.
    - cbn [de]. apply (follows_view c _ _ (same_entries (turned t))).
      + apply follows_map; [intros ->; reflexivity|]. eapply follows_weaken; [| |apply (IH P)]; [auto|intros ->; apply Bool.orb_true_r].
      + intros ws vs [H1 H2]. constructor.
        * rewrite !map_map. cbn [fst]. rewrite <- (map_map fst SStr ws), <- (map_map fst SStr vs), H1. reflexivity.
        * rewrite map_map. exact H2.
      + intros ws v H. inversion H as [| | | | | | |? ? ? vs Hk Hv| | | | |]; subst. exists vs.
        rewrite !map_map in Hk. rewrite map_map in Hv. split; [|exact Hv]. cbn [fst] in Hk.
        clear -Hk. revert vs Hk. induction ws as [|x ws IH]; intros [|y vs] Hk; try discriminate; [reflexivity|].
        cbn [map] in *. injection Hk as Hk1 Hk2. f_equal; [exact Hk1|apply IH, Hk2].
    - destruct P as [Hnd P].
      eapply follows_ext; [intros s; symmetry; rewrite <- (map_map_fst cwire fs); apply run_de_struct; rewrite map_map_fst; exact Hnd
        |intros s; symmetry; apply run_conv_struct; exact Hnd|].
      rewrite map_map_fst, map_map. cbn [snd]. apply (follows_view_on c _ _ (fun ws => length ws = length fs) (related (map (fun nf => turned (snd nf)) fs))).
      + apply follows_sequence; [rewrite !map_length; reflexivity..|].
        intros i R q p HR Hq Hp. rewrite nth_error_map in HR, Hq, Hp. destruct (nth_error fs i) as [[n t]|] eqn:Et; [|discriminate].
        cbn [option_map snd] in HR, Hq, Hp. injection HR as <-. injection Hq as <-. injection Hp as <-.
        apply nth_error_In in Et. rewrite Forall_forall in IH. eapply follows_weaken; [| |apply (IH (n, t) Et)].
        * intros Hr. apply existsb_exists. eauto.
        * intros Hr. apply existsb_exists. eauto.
        * clear -P Et. induction fs as [|x fs IH]; [destruct Et|]. cbn [fold_right] in P. destruct P as [P1 P2]. destruct Et as [->|Et]; [exact P1|auto].
      + intros s ws r H. apply run_sequence_length in H. rewrite map_length in H. exact H.
      + intros ws vs H. rewrite <- (map_map snd turned) in H. apply related_turned in H.
        assert (L : length ws = length fs /\ length vs = length fs).
        { destruct (all_turned_length _ _ _ H) as [L1 L2]. rewrite map_length in *. auto. }
        constructor; [apply map_fst_combine|apply map_fst_combine|rewrite !map_snd_combine; [exact H|..]]; rewrite map_length; symmetry; apply L.
      + intros ws v' L H. inversion H as [| | | | | | | |? ? vs _ _ A| | | |]; subst.
        exists (map snd vs). rewrite <- (map_map snd turned). apply related_turned. rewrite map_snd_combine in A by (rewrite map_length; auto). exact A.
    - cbn [de]. unfold de_enum, conv_enum. rewrite map_map. cbn [fst snd].
      apply (follows_bind c _ _ eq); [apply follows_same| |intros _ w Hw; destruct (Hw w eq_refl)].
      intros i ? <-. rewrite !pickN_map. destruct (pickN vs i) as [[k t]|] eqn:E; cbn [option_map fst snd]; [|intros s; constructor].
      destruct (cproper_variant _ _ _ _ P E) as [Hp Pt]. pose proof (pickN_some _ _ _ E) as [Hin _].
      apply (follows_view_on c _ _ (fun w => k = KUnit -> w = SUnit) (fun w v => (k = KUnit -> w = SUnit) /\ turned t w v)).
      + rewrite Forall_forall in IH. assert (F : follows c (crefusing (CEnum vs)) (cshadowing (CEnum vs)) (turned t) (de c (cwire t)) (cde c t)).
        { eapply follows_weaken; [| |apply (IH (k, t) Hin Pt)]; intros Hr; cbn [crefusing cshadowing]; apply existsb_exists; eauto. }
        intros s. specialize (F s). assert (HU : k = KUnit -> de c (cwire t) = Ret SUnit) by (intros ->; rewrite Hp; reflexivity).
        destruct (run c (de c (cwire t)) s) as [w r|e|x] eqn:Ew; inversion F as [? ? ? Hr|?|?|? ? Hb Hw|? Hb|? Hb]; subst; constructor; auto.
        * split; [|exact Hr]. intros Hk. rewrite (HU Hk) in Ew. cbn [run] in Ew. congruence.
        * destruct Hw as [Hw|Hw]; [auto|]. right. intros v [_ Hv]. exact (Hw v Hv).
      + intros s w r Hr Hk. subst k. rewrite Hp in Hr. cbn [cwire wire de run] in Hr. congruence.
      + intros w v [Hk H]. apply (variant_turned vs k i t); assumption.
      + intros w v' Hk H. destruct (turned_variant _ _ _ _ _ _ E Hk H) as (v & _ & Hv). exists v. auto.
  Qed.

  (** ** What is written is read back, and no proper prefix of it *)
  Definition kept (c : cfg) (t : cty U) (v v' : cval U) : Prop :=
    wresult (ser (csval t v)) = WeOk /\ parses c ERead (cde c t) (wbytes (ser (csval t v))) v'.
  Lemma kept_all c (ts : list (cty U)) l l' : Forall (fun t => forall v v', returns c t v v' -> kept c t v v') ts -> all_return c ts l l' ->
    wresult (wconcat (map ser (apply_all (map csval ts) l))) = WeOk /\
    parses c ERead (sequence (map (cde c) ts)) (wbytes (wconcat (map ser (apply_all (map csval ts) l)))) l' /\
    length (apply_all (map csval ts) l) = length ts /\ length l' = length ts.
  Proof.
    intros Each A. assert (H : Forall (fun w => wresult (ser w) = WeOk) (apply_all (map csval ts) l) /\
      parses c ERead (sequence (map (cde c) ts)) (concat (map (fun w => wbytes (ser w)) (apply_all (map csval ts) l))) l' /\
      length (apply_all (map csval ts) l) = length ts /\ length l' = length ts).
    { revert l l' A. induction Each as [|t ts Ht Each IH]; intros l l' A; inversion A as [|? v v' ? k k' Hv A']; subst; cbn [map apply_all sequence concat length].
      - split; [constructor|]. split; [apply parses_ret|auto].
      - destruct (Ht v v' Hv) as [H1 H2]. destruct (IH k k' A') as (I1 & I2 & I3 & I4). split; [constructor; assumption|]. split; [|lia].
        eapply parses_bind; [exact H2|]. eapply parses_bind_ret; [exact I2|reflexivity]. }
    destruct H as (H1 & H2 & H3 & H4). destruct (wconcat_ok ser _ H1) as [Hw Hb]. rewrite Hw, Hb. auto.
  Qed.
  Lemma kept_same c t l l' : (forall v v', returns c t v v' -> kept c t v v') -> Forall2 (returns c t) l l' ->
    Forall (fun v => wresult (ser (csval t v)) = WeOk) l /\ Forall2 (parses c ERead (cde c t)) (map (fun v => wbytes (ser (csval t v))) l) l'.
  Proof. intros H F. induction F as [|v v' l l' Hv F [IH1 IH2]]; [split; constructor|]. destruct (H _ _ Hv). split; constructor; assumption. Qed.
  Lemma conv_kept c t : wf_cfg c -> 4096 <= heap_limit c -> cproper t -> wf_dty (cwire t) = true ->
    forall v v', returns c t v v' -> kept c t v v'.
  Proof.
    intros Hc Hh. induction t as [t|into from t IH|into from t IH|t IH|t IH|ts IH|t IH|fs IH|vs IH] using cty_ind2;
      cbn [cproper cwire]; intros P Hw v v' H; unfold kept.
    - inversion H as [? x x' Hx| | | | | | | | |]; subst. cbn [csval cde]. destruct (std_written c t P x x' Hx) as (w & E & Ht & Hs). rewrite E.
      destruct (std_read_back c Hc Hh t P Hw w x' Ht Hs) as [R Q]. split; [exact R|apply parses_pmap, Q].
    - inversion H as [|? ? ? ? x' Hx| | | | | | | |]; subst. cbn [csval cde]. destruct (IH P Hw _ _ Hx) as [H1 H2]. split; [exact H1|apply parses_pmap, H2].
    - inversion H as [| |? ? ? ? x x' ? E Hx E'| | | | | | |]; subst. cbn [csval cde]. rewrite E. destruct (IH P Hw _ _ Hx) as [H1 H2]. split; [exact H1|].
      eapply parses_bind_ret; [exact H2|]. cbv beta. rewrite E'. reflexivity.
    - inversion H as [| | | |? x x' Hx| | | | |]; subst; cbn [csval cde].
      + split; [reflexivity|]. apply (parses_pmap _ _ (de_option (cde c t)) (fun o => match o with Some v => VSome v | None => VNone end) [0] None).
        apply (parses_bind_ret c ERead _ _ [0] false); [apply (parses_bool c false)|reflexivity].
      + destruct (IH P Hw _ _ Hx) as [H1 H2]. cbn [ser]. split; [exact H1|]. rewrite wbytes_seq_wr.
        apply (parses_pmap _ _ (de_option (cde c t)) (fun o => match o with Some v => VSome v | None => VNone end) _ (Some x')).
        eapply parses_bind; [apply (parses_bool c true)|]. apply parses_pmap, H2.
    - inversion H as [| | | | |? l l' Hl F| | | |]; subst. cbn [csval cde].
      destruct (kept_same c t l l' (IH P Hw) F) as [G1 G2]. pose proof (two_len F) as L.
      cbn [ser ser_len]. rewrite map_map. destruct (wconcat_ok (fun v => ser (csval t v)) l G1) as [Hr Hb]. split; [exact Hr|].
      unfold ser_u64. rewrite wbytes_seq_wr, Hb. replace (lenN l) with (lenN l') in * by (unfold lenN; congruence).
      apply (parses_pmap _ _ (de_vec c (cde c t)) VSeq), parses_vec; [exact Hc|exact G2|exact Hl].
    - inversion H as [| | | | | |? l l' A| | |]; subst. cbn [csval cde ser].
      destruct (kept_all c ts l l') as (G1 & G2 & _); [|exact A|].
      + cbn [wf_dty] in Hw. clear -IH P Hw. induction IH as [|t ts IHt IH IH2]; [constructor|]. cbn [fold_right map forallb] in *.
        apply andb_prop in Hw as [H1 H2]. destruct P as [P1 P2]. constructor; auto.
      + split; [exact G1|apply (parses_pmap _ _ _ VTuple), G2].
    - inversion H as [| | | | | | |? m m' Hl Hs Hk Hn F| |]; subst. cbn [csval cde].
      destruct (kept_same c t (map snd m) (map snd m') (IH P Hw) F) as [G1 G2].
      assert (Lm : lenN m = lenN m') by (unfold lenN; rewrite <- (map_length fst m), <- Hn, map_length; reflexivity).
      cbn [ser ser_len]. rewrite map_map. cbn [fst snd ser_key].
      destruct (wconcat_ok (fun kv => wseq (ser_str (fst kv)) (ser (csval t (snd kv)))) m) as [Hr Hb].
      { rewrite Forall_forall in *. intros kv Hin. exact (G1 (snd kv) (in_map snd _ _ Hin)). }
      split; [exact Hr|]. unfold ser_u64. rewrite wbytes_seq_wr, Hb. apply (parses_pmap _ _ (de_map c (cde c t)) VDict).
      set (enc := map (fun kv => (fst kv, wbytes (ser (csval t (snd kv))))) m).
      assert (Ee : concat (map (fun kv => wbytes (wseq (ser_str (fst kv)) (ser (csval t (snd kv))))) m) = concat (map (fun kv => enc_str (fst kv) ++ snd kv) enc)).
      { unfold enc. rewrite map_map. f_equal. apply map_ext. intros kv. unfold ser_str, ser_u64, enc_str. cbn [wseq wr wbytes fst snd]. rewrite <- app_assoc. reflexivity. }
      rewrite Ee, Lm. pose proof (parses_map_with c (cde c t) enc m' Hc) as Q.
      rewrite insert_all_sorted in Q; [|rewrite (sorted_same m' m Hn); exact Hs|apply Forall_forall; intros; constructor]. rewrite app_nil_l in Q. apply Q.
      + rewrite <- Lm. exact Hl.
      + unfold enc. rewrite map_map. cbn [fst]. symmetry. exact Hn.
      + rewrite Forall_forall in *. intros kv Hin. apply (in_map fst) in Hin. rewrite Hn in Hin. apply in_map_iff in Hin as (kw & <- & Hin). exact (Hk kw Hin).
      + unfold enc. rewrite map_map. cbn [snd]. rewrite <- (map_map snd (fun v => wbytes (ser (csval t v))) m). exact G2.
    - destruct P as [Hnd P]. inversion H as [| | | | | | | |? l l' Hn Hn' A|]; subst. cbn [csval ser].
      destruct (kept_all c (map snd fs) (map snd l) (map snd l')) as (G1 & G2 & G3 & G4); [|exact A|].
      + cbn [wf_dty] in Hw. apply andb_prop in Hw as [_ Hw]. clear -IH P Hw.
        induction IH as [|[n t] fs Ht IH IH2]; [constructor|]. cbn [fold_right snd map forallb] in *. apply andb_prop in Hw as [H1 H2]. destruct P as [P1 P2].
        constructor; [exact (Ht P1 H1)|exact (IH2 P2 H2)].
      + rewrite <- (map_map snd csval fs). rewrite <- (map_map snd ser (combine _ _)), map_snd_combine by (rewrite G3, !map_length; reflexivity).
        split; [exact G1|]. eapply parses_ext; [intros; apply run_conv_struct, Hnd|].
        assert (Ev : l' = combine (map fst fs) (map snd l')) by (rewrite <- Hn'; clear; induction l' as [|[k v] l' IH]; [reflexivity|cbn [map fst snd combine]; f_equal; exact IH]).
        rewrite Ev. apply (parses_pmap _ _ _ (fun l => VRecord (combine (map fst fs) l))).
        rewrite <- (map_map snd (cde c) fs). rewrite Ev, map_snd_combine in G2 by (rewrite G4, !map_length; reflexivity). exact G2.
    - inversion H as [| | | | | | | | |? k i t x x' E Hx]; subst. rewrite <- pickN_nth in E.
      destruct (cproper_variant _ _ _ _ P E) as [Hp Pt]. pose proof (pickN_some _ _ _ E) as [Hin Hi].
      cbn [wf_dty] in Hw. apply andb_prop in Hw as [Hn Hvs]. rewrite lenN_map in Hn. assert (Hi' : i < 16384) by (apply N.leb_le in Hn; lia).
      rewrite forallb_forall in Hvs. specialize (Hvs (k, cwire t) (in_map (fun v => (fst v, cwire (snd v))) _ _ Hin)). cbn [fst snd] in Hvs. apply andb_prop in Hvs as [_ Hvs].
      rewrite Forall_forall in IH. destruct (IH (k, t) Hin Pt Hvs x x' Hx) as [H1 H2]. cbn [snd] in H1, H2.
      assert (G : parses c ERead (cde c (CEnum vs)) (enc_u32 i ++ wbytes (ser (csval t x))) (VVariant k i x')).
      { cbn [cde]. unfold conv_enum. rewrite idx_agree by exact Hi'.
        eapply parses_bind; [apply parses_u16; eapply N.lt_trans; [exact Hi'|reflexivity]|].
        rewrite pickN_map, E. cbn [option_map fst snd]. apply parses_pmap, H2. }
      cbn [csval]. rewrite pickN_map, E. cbn [option_map fst snd].
      destruct k; cbn [cpayload] in Hp.
      + subst t. inversion Hx as [? y y' Hy| | | | | | | | |]; subst. inversion Hy as [? w Ht| | | | | | | | | | | | | | | | | | | | | | | | | | | | | |]; subst.
        destruct w; try discriminate. split; [reflexivity|exact G].
      + cbn [variant_sval ser]. unfold ser_u32. rewrite wbytes_seq_wr. split; [exact H1|exact G].
      + destruct Hp as [ts ->]. inversion Hx; subst. cbn [csval variant_sval ser] in *. unfold ser_u32. rewrite wbytes_seq_wr. split; [exact H1|exact G].
      + destruct Hp as [fs ->]. inversion Hx; subst. cbn [csval variant_sval ser] in *. unfold ser_u32. rewrite wbytes_seq_wr. split; [exact H1|exact G].
  Qed.

  Lemma conv_roundtrip c t v v' rest : wf_cfg c -> 4096 <= heap_limit c -> cproper t -> wf_dty (cwire t) = true -> returns c t v v' ->
    wresult (ser (csval t v)) = WeOk /\ run c (cde c t) (wbytes (ser (csval t v)) ++ rest) = OOk v' rest.
  Proof. intros Hc Hh P Hw H. destruct (conv_kept c t Hc Hh P Hw v v' H) as [R [Q _]]. split; [exact R|apply Q]. Qed.
  Lemma conv_truncated c t v v' u x u' : wf_cfg c -> 4096 <= heap_limit c -> cproper t -> wf_dty (cwire t) = true -> returns c t v v' ->
    wbytes (ser (csval t v)) = u ++ x :: u' -> run c (cde c t) u = OErr ERead.
  Proof. intros Hc Hh P Hw H Hu. destruct (conv_kept c t Hc Hh P Hw v v' H) as [_ [_ Q]]. exact (Q u x u' Hu). Qed.
  (** Whoever knows only the wire type reads it too. *)
  Lemma conv_wire c t v v' rest : wf_cfg c -> 4096 <= heap_limit c -> cproper t -> wf_dty (cwire t) = true -> returns c t v v' ->
    exists w, run c (de c (cwire t)) (wbytes (ser (csval t v)) ++ rest) = OOk w rest /\ turned t w v'.
  Proof.
    intros Hc Hh P Hw H. destruct (conv_roundtrip c t v v' rest Hc Hh P Hw H) as [_ E].
    pose proof (conv_follows c t P (wbytes (ser (csval t v)) ++ rest)) as F. rewrite E in F.
    inversion F as [w ? ? Hr E1 E2| | | | |]; subst. exists w. auto.
  Qed.
End Conv.
