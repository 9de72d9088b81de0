(** * Lemmas about types that can be written but not read (Tagged.v). *)
From Coq Require Import String ZifyBool ZifyNat ZifyN.
From Verif Require Import Base BaseFacts Varint VarintFacts Utf8 Serde Typing PrimFacts SerdeFacts SerdeProps SerdeSize Flatten SpecStd StdFacts Tagged SpecTagged.
Local Open Scope list_scope.
Local Open Scope N_scope.

Section GtyInd.
  Variable P : gty -> Prop.
  Hypothesis Hplain : forall d, P (YPlain d).
  Hypothesis Hoption : forall t, P t -> P (YOption t).
  Hypothesis Hvec : forall t, P t -> P (YVec t).
  Hypothesis Htuple : forall ts, Forall P ts -> P (YTuple ts).
  Hypothesis Hmap : forall t, P t -> P (YMap t).
  Hypothesis Hstruct : forall fs, Forall (fun nf => P (snd nf)) fs -> P (YStruct fs).
  Hypothesis Henum : forall vs, Forall (fun v => P (snd v)) vs -> P (YEnum vs).
  Hypothesis Huntagged : P YUntagged.
  Hypothesis Htagged : P YTagged.
  Hypothesis Hborrowed : P YBorrowed.
  Fixpoint gty_ind2 (t : gty) : P t :=
    match t with
    | YPlain d => Hplain d
    | YOption t => Hoption t (gty_ind2 t)
    | YVec t => Hvec t (gty_ind2 t)
    | YTuple ts => Htuple ts
        ((fix go l : Forall P l := match l with
          | [] => Forall_nil _ | t :: r => Forall_cons _ (gty_ind2 t) (go r) end) ts)
    | YMap t => Hmap t (gty_ind2 t)
    | YStruct fs => Hstruct fs
        ((fix go l : Forall (fun nf => P (snd nf)) l := match l with
          | [] => Forall_nil _ | nf :: r => Forall_cons _ (gty_ind2 (snd nf)) (go r) end) fs)
    | YEnum vs => Henum vs
        ((fix go l : Forall (fun v => P (snd v)) l := match l with
          | [] => Forall_nil _ | v :: r => Forall_cons _ (gty_ind2 (snd v)) (go r) end) vs)
    | YUntagged => Huntagged | YTagged => Htagged | YBorrowed => Hborrowed
    end.
End GtyInd.

Lemma run_tag_struct c (fs : list (string * gty)) s : NoDup (map fst fs) ->
  run c (gtde c (YStruct fs)) s = run c (pmap (fun l => GRecord (combine (map fst fs) l)) (sequence (map (fun nf => gtde c (snd nf)) fs))) s.
Proof.
  intros Hnd; cbn [gtde]. rewrite !run_pmap.
  pose proof (run_struct c (map (fun nf => (fst nf, gtde c (snd nf))) fs) (map (fun nf => gmissing (snd nf)) fs) s) as H.
  rewrite map_map_fst, !map_map, !map_length in H. cbn [snd] in H. rewrite H; [reflexivity|exact Hnd|reflexivity].
Qed.
Lemma gproper_variant vs i k t : fold_right (fun v P => (gpayload (fst v) (snd v) /\ gproper (snd v)) /\ P) True vs -> pickN vs i = Some (k, t) -> gpayload k t /\ gproper t.
Proof.
  revert i; induction vs as [|x vs IH]; intros i; cbn [pickN fold_right]; [discriminate|]. intros [P1 P2]. destruct (i =? 0); [intros [= ->]; exact P1|apply IH, P2].
Qed.

(** ** Every input: as the wire type with a dynamic value in place of what cannot be read *)
Definition read_plain (w : sval) (v : gval) : Prop := w = gsval v /\ unreadable v = false.
Lemma plain_list ws vs : Forall2 read_plain ws vs -> ws = map gsval vs /\ existsb unreadable vs = false.
Proof. induction 1 as [|w v ws vs [-> H] F [-> IH]]; [auto|]. cbn [map existsb]. rewrite H. auto. Qed.
Lemma related_same {W V} (R : W -> V -> Prop) {A} (ts : list A) ws vs : related (map (fun _ => R) ts) ws vs -> Forall2 R ws vs.
Proof. revert ws vs; induction ts as [|t ts IH]; intros [|w ws] [|v vs] H; try contradiction; constructor; [apply H|apply IH, H]. Qed.
Lemma follows_false {W V W' V'} c (R : W -> V -> Prop) (S : W' -> V' -> Prop) q p (f : W -> W') (g : V -> V') :
  follows c false false R q p -> (forall w v, R w v -> S (f w) (g v)) -> follows c false false S (pmap f q) (pmap g p).
Proof. intros F H. apply (follows_pmap c _ _ R); [exact F|exact H|discriminate]. Qed.
Lemma tagged_follows c t : gproper t -> follows c false false read_plain (de c (gwire t)) (gtde c t).
Proof.
  induction t as [d|t IH|t IH|ts IH|t IH|fs IH|vs IH| | |] using gty_ind2; cbn [gproper gwire]; intros P; cbn [gtde].
  - intros s. rewrite run_pmap. destruct (run c (de c d) s); cbn [obind]; constructor. split; reflexivity.
  - cbn [de]. eapply follows_false; [apply follows_option, (IH P)|].
    intros [w|] [v|] H; try contradiction; [destruct H as [-> H]|]; split; auto.
  - cbn [de]. eapply follows_false; [apply follows_vec, (IH P)|]. intros ws vs H. apply plain_list in H as [-> H].
    split; [cbn [gsval]; rewrite lenN_map; reflexivity|exact H].
  - cbn [de]. rewrite map_map. eapply follows_false.
    + apply (follows_sequence c _ _ (map (fun _ => read_plain) ts)); [rewrite !map_length; reflexivity..|].
      intros i R q p HR Hq Hp. rewrite nth_error_map in HR, Hq, Hp. destruct (nth_error ts i) as [t|] eqn:Et; [|discriminate].
      cbn [option_map] in HR, Hq, Hp. injection HR as <-. injection Hq as <-. injection Hp as <-.
      apply nth_error_In in Et. rewrite Forall_forall in IH. apply (IH t Et).
      clear -P Et. induction ts as [|x ts IH]; [destruct Et|]. cbn [fold_right] in P. destruct P as [P1 P2]. destruct Et as [<-|Et]; auto.
    + intros ws vs H. apply related_same, plain_list in H as [-> H]. split; [reflexivity|exact H].
  - cbn [de]. eapply follows_false; [apply follows_map; [discriminate|apply (IH P)]|].
    intros ws vs [Hk Hv]. apply plain_list in Hv as [Hv Hu]. split.
    + cbn [gsval]. assert (E : ws = map (fun kv => (fst kv, gsval (snd kv))) vs).
      { clear -Hk Hv. revert vs Hk Hv. induction ws as [|[k w] ws IH]; intros [|[k' v] vs] Hk Hv; try discriminate; [reflexivity|].
        cbn [map fst snd] in *. injection Hk as -> Hk. injection Hv as -> Hv. f_equal. apply IH; assumption. }
      rewrite E, lenN_map, map_map. reflexivity.
    + cbn [unreadable]. clear -Hu. induction vs as [|v vs IH]; [reflexivity|]. cbn [map existsb] in *. apply Bool.orb_false_iff in Hu as [-> Hu]. apply IH, Hu.
  - destruct P as [Hnd P].
    eapply follows_ext; [intros s; symmetry; rewrite <- (map_map_fst gwire fs); apply run_de_struct; rewrite map_map_fst; exact Hnd
      |intros s; symmetry; apply run_tag_struct; exact Hnd|].
    rewrite map_map_fst, map_map. cbn [snd]. eapply follows_false.
    + apply (follows_sequence c _ _ (map (fun _ => read_plain) fs)); [rewrite !map_length; reflexivity..|].
      intros i R q p HR Hq Hp. rewrite nth_error_map in HR, Hq, Hp. destruct (nth_error fs i) as [[n t]|] eqn:Et; [|discriminate].
      cbn [option_map snd] in HR, Hq, Hp. injection HR as <-. injection Hq as <-. injection Hp as <-.
      apply nth_error_In in Et. rewrite Forall_forall in IH. apply (IH (n, t) Et).
      clear -P Et. induction fs as [|x fs IH]; [destruct Et|]. cbn [fold_right] in P. destruct P as [P1 P2]. destruct Et as [->|Et]; [exact P1|auto].
    + intros ws vs H. apply related_same, plain_list in H as [-> H]. split.
      * cbn [gsval]. f_equal. generalize (map fst fs). clear. intros l. revert vs. induction l as [|n l IH]; intros [|v vs]; try reflexivity. cbn [map combine fst snd]. f_equal. apply IH.
      * cbn [unreadable]. generalize (map fst fs). intros l. clear -H. revert vs H. induction l as [|n l IH]; intros [|v vs] H; try reflexivity. cbn [combine existsb snd] in *.
        apply Bool.orb_false_iff in H as [-> H]. apply IH, H.
  - destruct P as [_ P]. cbn [de]. unfold de_enum, tag_enum. rewrite map_map. cbn [fst snd].
    apply (follows_bind c _ _ eq); [apply follows_same| |discriminate].
    intros i ? <-. rewrite !pickN_map. destruct (pickN vs i) as [[k t]|] eqn:E; cbn [option_map fst snd]; [|intros s; constructor].
    destruct (gproper_variant _ _ _ _ P E) as [_ Pt]. pose proof (pickN_some _ _ _ E) as [Hin _]. rewrite Forall_forall in IH.
    eapply follows_false; [apply (IH (k, t) Hin Pt)|]. intros w v [-> H]. split; [reflexivity|exact H].
  - intros s. constructor.
  - intros s. constructor.
  - intros s. constructor.
Qed.

(** ** What was written: read back, or the first unreadable value is reached *)
Definition meets {A} (c : cfg) (p : prog A) (w : wprog) (v : A) (b : bool) : Prop :=
  if b then forall rest, run c p (wbytes w ++ rest) = OPanic PTodo
  else wresult w = WeOk /\ parses c ERead p (wbytes w) v.
Lemma wseq_split w w' : (wresult w = WeOk -> wbytes (wseq w w') = wbytes w ++ wbytes w' /\ wresult (wseq w w') = wresult w') /\
  exists t, wbytes (wseq w w') = wbytes w ++ t.
Proof.
  induction w as [|e|p|bs w [IH [t IHt]]]; cbn [wseq wbytes wresult].
  - split; [auto|]. exists (wbytes w'). reflexivity.
  - split; [discriminate|]. exists []. reflexivity.
  - split; [discriminate|]. exists []. reflexivity.
  - split; [intros H; destruct (IH H) as [-> ->]; rewrite app_assoc; auto|]. exists t. rewrite IHt, app_assoc. reflexivity.
Qed.
Lemma meets_bind {A B} c (p : prog A) (f : A -> prog B) w w' a v b b' :
  meets c p w a b -> (b = false -> meets c (f a) w' v b') -> meets c (bind p f) (wseq w w') v (b || b').
Proof.
  destruct (wseq_split w w') as [H1 [t H2]]. unfold meets. destruct b; cbn [orb].
  - intros H _ rest. rewrite H2, <- app_assoc, run_bind, H. reflexivity.
  - intros [Hr Hp] H. specialize (H eq_refl). destruct (H1 Hr) as [-> ->]. destruct b'.
    + intros rest. rewrite <- app_assoc, run_bind, (proj1 Hp). cbn [obind]. apply H.
    + destruct H as [H H']. split; [exact H|]. eapply parses_bind; eassumption.
Qed.
Lemma meets_ret {A} c (v : A) : meets c (Ret v) WDone v false.
Proof. split; [reflexivity|apply parses_ret]. Qed.
Lemma wseq_done_r w : wseq w WDone = w.
Proof. induction w as [| | |bs w IH]; cbn [wseq]; [reflexivity|reflexivity|reflexivity|]. rewrite IH; reflexivity. Qed.
Lemma meets_pmap {A B} c (p : prog A) (f : A -> B) w v b : meets c p w v b -> meets c (pmap f p) w (f v) b.
Proof.
  intros H. unfold pmap. rewrite <- (wseq_done_r w), <- (Bool.orb_false_r b). apply (meets_bind c p _ _ _ v); [exact H|]. intros _. apply meets_ret.
Qed.
Lemma meets_last {A B} c (p : prog A) (f : A -> B) w v b x : meets c p w v b -> f v = x -> meets c (a <- p ;; Ret (f a)) w x b.
Proof. intros H <-. exact (meets_pmap c p f w v b H). Qed.
Lemma meets_ext {A} c (p q : prog A) w v b : (forall s, run c p s = run c q s) -> meets c q w v b -> meets c p w v b.
Proof. intros E. unfold meets. destruct b; [intros H rest; rewrite E; apply H|]. intros [H1 H2]. split; [exact H1|]. eapply parses_ext; eassumption. Qed.
Lemma meets_ok {A} c (p : prog A) u v : parses c ERead p u v -> meets c p (wr u) v false.
Proof. intros H. split; [reflexivity|]. cbn [wr wbytes]. rewrite app_nil_r. exact H. Qed.
Lemma meets_rep {A} c (p : prog A) (f : A -> wprog) (b : A -> bool) l : Forall (fun v => meets c p (f v) v (b v)) l ->
  meets c (rep (length l) p) (wconcat (map f l)) l (existsb b l).
Proof.
  induction 1 as [|v l Hv F IH]; [apply meets_ret|]. cbn [length rep map wconcat fold_right existsb]. change (fold_right wseq WDone) with wconcat.
  apply (meets_bind c p _ _ _ v); [exact Hv|]. intros _. apply (meets_last c _ (fun l => v :: l) _ l); [exact IH|reflexivity].
Qed.
Lemma meets_each {A} c (ps : list (prog A)) (f : A -> wprog) (b : A -> bool) l : Forall2 (fun p v => meets c p (f v) v (b v)) ps l ->
  meets c (sequence ps) (wconcat (map f l)) l (existsb b l).
Proof.
  induction 1 as [|p v ps l Hv F IH]; [apply meets_ret|]. cbn [sequence map wconcat fold_right existsb]. change (fold_right wseq WDone) with wconcat.
  apply (meets_bind c p _ _ _ v); [exact Hv|]. intros _. apply (meets_last c _ (fun l => v :: l) _ l); [exact IH|reflexivity].
Qed.
Lemma meets_entries c (p : prog gval) m acc : wf_cfg c -> Forall (fun kv => str_ok c (fst kv) = true) m ->
  Forall (fun kv => meets c p (ser (gsval (snd kv))) (snd kv) (unreadable (snd kv))) m ->
  meets c (iter (length m) (fun acc => k <- de_string c ;; v <- p ;; Ret (map_insert k v acc)) acc)
    (wconcat (map (fun kv => wseq (ser_str (fst kv)) (ser (gsval (snd kv)))) m))
    (fold_left (fun acc kv => map_insert (fst kv) (snd kv) acc) m acc) (existsb (fun kv => unreadable (snd kv)) m).
Proof.
  intros Hc Hk F. revert acc. induction F as [|[k v] m Hv F IH]; intros acc; [apply meets_ret|]. inversion Hk as [|? ? Hk1 Hk2]; subst.
  cbn [length iter map wconcat fold_right existsb fold_left fst snd] in *. change (fold_right wseq WDone) with wconcat.
  apply (meets_bind c _ _ _ _ (map_insert k v acc)); [|intros _; apply IH, Hk2].
  change (unreadable v) with (false || unreadable v). apply (meets_bind c (de_string c) _ _ _ k).
  - unfold str_ok in Hk1. apply andb_prop in Hk1 as [K1 K2]. destruct (parses_string c k Hc K1 (proj1 (N.ltb_lt _ _) K2)) as [Q1 Q2].
    split; [reflexivity|]. unfold ser_str, ser_u64. cbn [wseq wr wbytes]. rewrite app_nil_r. split; assumption.
  - intros _. apply (meets_last c p (fun x => map_insert k x acc) _ v); [exact Hv|reflexivity].
Qed.

Lemma hold_each c (ts : list gty) l : Forall (fun t => forall v, hold c t v -> meets c (gtde c t) (ser (gsval v)) v (unreadable v)) ts ->
  all_hold c ts l -> Forall2 (fun p v => meets c p (ser (gsval v)) v (unreadable v)) (map (gtde c) ts) l.
Proof. intros F. revert l. induction F as [|t ts Ht F IH]; intros l A; inversion A; subst; cbn [map]; constructor; auto. Qed.
Lemma tagged_meets c t : wf_cfg c -> 4096 <= heap_limit c -> gproper t -> forall v, hold c t v -> meets c (gtde c t) (ser (gsval v)) v (unreadable v).
Proof.
  intros Hc Hh. induction t as [d|t IH|t IH|ts IH|t IH|fs IH|vs IH| | |] using gty_ind2; cbn [gproper]; intros P v H.
  - inversion H as [? w Ht| | | | | | | | | | |]; subst. cbn [gtde gsval unreadable]. apply (meets_pmap c _ GPlain). exact (roundtrip c d w Hc Hh P Ht).
  - inversion H as [| |? x Hx| | | | | | | | |]; subst; cbn [gtde gsval unreadable ser].
    + apply (meets_pmap c _ (fun o => match o with Some v => GSome v | None => GNone end) _ None). unfold de_option.
      apply (meets_bind c de_bool _ (wr [0]) WDone false _ false false); [apply meets_ok, (parses_bool c false)|].
      intros _. apply meets_ret.
    + apply (meets_pmap c _ (fun o => match o with Some v => GSome v | None => GNone end) _ (Some x)). unfold de_option.
      change (unreadable x) with (false || unreadable x). apply (meets_bind c _ _ _ _ true); [apply meets_ok, (parses_bool c true)|].
      intros _. apply (meets_pmap c _ Some), (IH P), Hx.
  - inversion H as [| | |? l Hl F| | | | | | | |]; subst. cbn [gtde gsval unreadable ser ser_len]. apply (meets_pmap c _ GSeq). unfold de_vec.
    change (existsb unreadable l) with (false || existsb unreadable l). apply (meets_bind c _ _ _ _ (lenN l)).
    + apply meets_ok, parses_u64, (lt_usize_64 c); assumption.
    + intros _. rewrite as_usize_id by assumption. eapply meets_ext; [intros; apply run_repeatN|]. unfold lenN. rewrite Nat2N.id, map_map.
      apply (meets_rep c (gtde c t) (fun v => ser (gsval v))). rewrite Forall_forall in *. intros v Hv. apply (IH P), F, Hv.
  - inversion H as [| | | |? l A| | | | | | |]; subst. cbn [gtde gsval unreadable ser]. apply (meets_pmap c _ GTuple). rewrite map_map.
    apply (meets_each c _ (fun v => ser (gsval v))), hold_each; [|exact A].
    clear -IH P. induction IH as [|t ts Ht IH IH2]; [constructor|]. cbn [fold_right] in P. destruct P as [P1 P2]. constructor; [exact (Ht P1)|exact (IH2 P2)].
  - inversion H as [| | | | |? m Hl Hs Hk F| | | | | |]; subst. cbn [gtde gsval unreadable ser ser_len]. apply (meets_pmap c _ GDict). unfold de_map.
    change (existsb (fun kv => unreadable (snd kv)) m) with (false || existsb (fun kv => unreadable (snd kv)) m). apply (meets_bind c _ _ _ _ (lenN m)).
    + apply meets_ok, parses_u64, (lt_usize_64 c); assumption.
    + intros _. rewrite as_usize_id by assumption. unfold de_map_n. eapply meets_ext; [intros; apply run_foldN|]. unfold lenN. rewrite Nat2N.id, map_map. cbn [fst snd ser_key].
      replace m with (fold_left (fun acc kv => map_insert (fst kv) (snd kv) acc) m []) at 3
        by (rewrite insert_all_sorted; [reflexivity|exact Hs|apply Forall_forall; intros; constructor]).
      apply meets_entries; [exact Hc|exact Hk|]. rewrite Forall_forall in *. intros kv Hin. apply (IH P), F, in_map, Hin.
  - destruct P as [Hnd P]. inversion H as [| | | | | |? l Hn A| | | | |]; subst. eapply meets_ext; [intros; apply run_tag_struct, Hnd|]. cbn [gsval unreadable ser].
    assert (Ev : l = combine (map fst fs) (map snd l)) by (rewrite <- Hn; clear; induction l as [|[k v] l IH]; [reflexivity|cbn [map fst snd combine]; f_equal; exact IH]).
    rewrite Ev at 2. apply (meets_pmap c _ (fun l => GRecord (combine (map fst fs) l))). rewrite map_map. cbn [snd].
    rewrite <- (map_map snd (gtde c) fs), <- (map_map snd (fun v => ser (gsval v)) l).
    assert (Eu : existsb (fun nf : string * gval => unreadable (snd nf)) l = existsb unreadable (map snd l)) by (clear; induction l as [|x l IH]; [reflexivity|cbn [map existsb]; rewrite IH; reflexivity]).
    rewrite Eu. apply (meets_each c _ (fun v => ser (gsval v))), hold_each; [|exact A].
    clear -IH P. induction IH as [|t ts Ht IH IH2]; [constructor|]. cbn [fold_right map] in *. destruct P as [P1 P2]. constructor; [exact (Ht P1)|exact (IH2 P2)].
  - destruct P as [Hn P]. inversion H as [| | | | | | |? k i t x E Hx| | | |]; subst. rewrite <- pickN_nth in E.
    destruct (gproper_variant _ _ _ _ P E) as [Hp Pt]. pose proof (pickN_some _ _ _ E) as [Hin Hi]. assert (Hi' : i < 16384) by lia.
    rewrite Forall_forall in IH. specialize (IH (k, t) Hin Pt x Hx). cbn [snd] in IH.
    assert (G : meets c (gtde c (YEnum vs)) (wseq (wr (enc_u32 i)) (ser (gsval x))) (GVariant k i x) (unreadable x)).
    { cbn [gtde]. unfold tag_enum. rewrite idx_agree by exact Hi'. change (unreadable x) with (false || unreadable x).
      apply (meets_bind c _ _ _ _ i); [apply meets_ok, parses_u16; eapply N.lt_trans; [exact Hi'|reflexivity]|].
      intros _. rewrite pickN_map, E. cbn [option_map fst snd]. apply (meets_pmap c _ (GVariant k i)), IH. }
    cbn [gsval unreadable]. destruct k; cbn [gpayload] in Hp.
    + subst t. inversion Hx as [? w Ht| | | | | | | | | | |]; subst. destruct w; try discriminate. exact G.
    + exact G.
    + destruct Hp as [ts ->]. inversion Hx; subst. exact G.
    + destruct Hp as [fs ->]. inversion Hx; subst. exact G.
  - inversion H; subst; intros rest; reflexivity.
  - inversion H; subst; intros rest; reflexivity.
  - inversion H; subst; intros rest; reflexivity.
Qed.

Lemma tagged_read c t s : gproper t ->
  match run c (gtde c t) s with
  | OOk v r => run c (de c (gwire t)) s = OOk (gsval v) r /\ unreadable v = false
  | OErr e => run c (de c (gwire t)) s = OErr e
  | OPanic p => run c (de c (gwire t)) s = OPanic p
  end.
Proof.
  intros P. pose proof (tagged_follows c t P s) as F. inversion F as [w v r [-> Hu] E1 E2|e E1 E2|p E1 E2|? ? Hb|? Hb|? Hb]; try discriminate Hb; auto.
Qed.
Lemma tag_struct_bytes tag name fs :
  wbytes (ser (tagged tag name (SStruct fs))) = wbytes (ser (SStr (name_bytes name))) ++ wbytes (ser (SStruct fs)) /\
  wresult (ser (tagged tag name (SStruct fs))) = wresult (ser (SStruct fs)).
Proof. cbn [tagged ser map snd wconcat fold_right]. change (fold_right wseq WDone) with wconcat. destruct (wseq_split (ser_str (name_bytes name)) (wconcat (map (fun kv => ser (snd kv)) fs))) as [H _]. exact (H eq_refl). Qed.
Lemma tag_unit_bytes tag name :
  wbytes (ser (SStruct [(tag, SStr (name_bytes name))])) = wbytes (ser (SStr (name_bytes name))) /\
  wresult (ser (SStruct [(tag, SStr (name_bytes name))])) = WeOk.
Proof. destruct (tag_struct_bytes tag name []) as [H1 H2]. cbn [tagged] in H1, H2. rewrite H1, H2. cbn [ser map wconcat fold_right wbytes wresult]. rewrite app_nil_r. split; reflexivity. Qed.
Lemma tag_map_bytes tag name n m : n + 1 < 2 ^ 64 ->
  wbytes (ser (tagged tag name (SMap (Some n) m))) =
    enc_u64 (n + 1) ++ wbytes (ser (SStr (name_bytes tag))) ++ wbytes (ser (SStr (name_bytes name))) ++ skipn (length (enc_u64 n)) (wbytes (ser (SMap (Some n) m))) /\
  wresult (ser (tagged tag name (SMap (Some n) m))) = wresult (ser (SMap (Some n) m)).
Proof.
  intros Hn. cbn [tagged option_map ser ser_len map fst snd ser_key wconcat fold_right]. change (fold_right wseq WDone) with wconcat. unfold ser_u64.
  rewrite !wbytes_seq_wr, !wresult_seq_wr. rewrite N.add_1_r. set (r := wconcat _).
  replace (skipn (length (enc_u64 n)) (enc_u64 n ++ wbytes r)) with (wbytes r) by (rewrite skipn_app, skipn_all, Nat.sub_diag; reflexivity).
  destruct (wseq_split (wseq (ser_str (name_bytes tag)) (ser_str (name_bytes name))) r) as [H _]. destruct (H eq_refl) as [-> ->].
  split; [|reflexivity]. f_equal. rewrite (app_assoc (wbytes (ser_str _))). f_equal.
  destruct (wseq_split (ser_str (name_bytes tag)) (ser_str (name_bytes name))) as [G _]. exact (proj1 (G eq_refl)).
Qed.
