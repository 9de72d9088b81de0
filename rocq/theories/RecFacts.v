(** * Proofs about recursive types. *)
From Coq Require Import String.
From Verif Require Import Base BaseFacts Varint VarintFacts Utf8 Utf8Facts PrimFacts Serde Typing SpecDty SerdeFacts SerdeMore
  Consume SerdeSize WidthFacts SerdeSafe SerdeProps Header SpecHeader Body WireBytes Rec SpecRec.
Local Open Scope list_scope.
Local Open Scope N_scope.

Section XtyInd.
  Variable P : xty -> Prop.
  Hypothesis H1 : forall d, P (XPlain d).
  Hypothesis H2 : forall t, P t -> P (XOption t).
  Hypothesis H3 : forall t, P t -> P (XNewtypeStruct t).
  Hypothesis H4 : forall t, P t -> P (XVec t).
  Hypothesis H5 : forall t, P t -> P (XMap t).
  Hypothesis H6 : forall ts, Forall P ts -> P (XTuple ts).
  Hypothesis H7 : forall ts, Forall P ts -> P (XTupleStruct ts).
  Hypothesis H8 : forall keys fs, Forall (fun nf => P (snd nf)) fs -> P (XStruct keys fs).
  Hypothesis H9 : forall vs, Forall (fun kd => P (snd kd)) vs -> P (XEnum vs).
  Hypothesis H10 : forall i, P (XItem i).
  Fixpoint xty_ind2 (t : xty) : P t :=
    match t with
    | XPlain d => H1 d
    | XOption t => H2 t (xty_ind2 t) | XNewtypeStruct t => H3 t (xty_ind2 t)
    | XVec t => H4 t (xty_ind2 t) | XMap t => H5 t (xty_ind2 t)
    | XTuple ts => H6 ts ((fix go l : Forall P l := match l with
        | [] => Forall_nil _ | d :: t => Forall_cons _ (xty_ind2 d) (go t) end) ts)
    | XTupleStruct ts => H7 ts ((fix go l : Forall P l := match l with
        | [] => Forall_nil _ | d :: t => Forall_cons _ (xty_ind2 d) (go t) end) ts)
    | XStruct keys fs => H8 keys fs ((fix go l : Forall (fun nf => P (snd nf)) l := match l with
        | [] => Forall_nil _ | d :: t => Forall_cons _ (xty_ind2 (snd d)) (go t) end) fs)
    | XEnum vs => H9 vs ((fix go l : Forall (fun nf => P (snd nf)) l := match l with
        | [] => Forall_nil _ | d :: t => Forall_cons _ (xty_ind2 (snd d)) (go t) end) vs)
    | XItem i => H10 i
    end.
End XtyInd.

(** ** [shadow c b p q]: p does what q does, or overflows the stack (if b: only where q does not succeed). *)
Definition shadow {A} (c : cfg) (b : bool) (p q : prog A) : Prop :=
  forall s, run c p s = run c q s \/ (run c p s = OPanic PStack /\ (b = true -> forall a r, run c q s <> OOk a r)).
Lemma shadow_refl {A} c b (p : prog A) : shadow c b p p.
Proof. intros s; left; reflexivity. Qed.
Lemma shadow_stack {A} c b (q : prog A) : (b = true -> forall s a r, run c q s <> OOk a r) -> shadow c b (Crash PStack) q.
Proof. intros H s. right. split; [reflexivity|intros Hb; apply H, Hb]. Qed.
Lemma shadow_bind {A B} c b (p q : prog A) (f g : A -> prog B) :
  shadow c b p q -> (forall a, shadow c b (f a) (g a)) -> shadow c b (bind p f) (bind q g).
Proof.
  intros H Hf s. rewrite !run_bind. destruct (H s) as [E|[E Hn]].
  - rewrite E. destruct (run c q s) as [a r|e|x]; cbn [obind]; [apply Hf|left; reflexivity..].
  - right. rewrite E. split; [reflexivity|]. intros Hb a r. destruct (run c q s) as [a' r'|e|x] eqn:Eq; cbn [obind]; try discriminate.
    destruct (Hn Hb a' r' eq_refl).
Qed.
Lemma shadow_pmap {A B} c b (f : A -> B) (p q : prog A) : shadow c b p q -> shadow c b (pmap f p) (pmap f q).
Proof. intros H. apply shadow_bind; [exact H|intros; apply shadow_refl]. Qed.
Lemma shadow_ext {A} c b (p p' q q' : prog A) : (forall s, run c p s = run c p' s) -> (forall s, run c q s = run c q' s) ->
  shadow c b p' q' -> shadow c b p q.
Proof. intros Hp Hq H s. rewrite Hp, Hq. apply H. Qed.
Lemma shadow_iter {S} c b n (f g : S -> prog S) s : (forall s, shadow c b (f s) (g s)) -> shadow c b (iter n f s) (iter n g s).
Proof.
  intros H. revert s; induction n as [|n IH]; intros s; cbn [iter]; [apply shadow_refl|]. apply shadow_bind; [apply H|exact IH].
Qed.
Lemma shadow_foldN {S} c b n (f g : S -> prog S) s : (forall s, shadow c b (f s) (g s)) -> shadow c b (foldN n f s) (foldN n g s).
Proof. intros H. eapply shadow_ext; [intros; apply run_foldN..|]. apply shadow_iter, H. Qed.
Lemma shadow_repeatN {A} c b n (p q : prog A) : shadow c b p q -> shadow c b (repeatN n p) (repeatN n q).
Proof.
  intros H. apply shadow_bind; [|intros; apply shadow_refl]. apply shadow_foldN. intros s. apply shadow_bind; [exact H|intros; apply shadow_refl].
Qed.
Lemma shadow_sequence {A B} c b (f g : A -> prog B) l : Forall (fun a => shadow c b (f a) (g a)) l ->
  shadow c b (sequence (map f l)) (sequence (map g l)).
Proof.
  induction 1 as [|a l H _ IH]; cbn [map sequence]; [apply shadow_refl|].
  apply shadow_bind; [exact H|]. intros y. apply shadow_bind; [exact IH|intros; apply shadow_refl].
Qed.
Lemma find_field_map {A B} k (f : A -> B) (l : list (string * A)) :
  find_field k (map (fun nf => (fst nf, f (snd nf))) l) = option_map (fun ix => (fst ix, f (snd ix))) (find_field k l).
Proof.
  induction l as [|[n a] l IH]; cbn [map find_field fst snd]; [reflexivity|]. destruct (String.eqb k n); [reflexivity|].
  rewrite IH. destruct (find_field k l) as [[i x]|]; reflexivity.
Qed.
Lemma shadow_struct_loop {A B} c b keys (f g : A -> prog B) (l : list (string * A)) slots :
  Forall (fun nf => shadow c b (f (snd nf)) (g (snd nf))) l ->
  shadow c b (struct_loop keys (map (fun nf => (fst nf, f (snd nf))) l) slots)
           (struct_loop keys (map (fun nf => (fst nf, g (snd nf))) l) slots).
Proof.
  intros H. revert slots; induction keys as [|k keys IH]; intros slots; cbn [struct_loop]; [apply shadow_refl|].
  rewrite !find_field_map. destruct (find_field k l) as [[i x]|] eqn:E; cbn [option_map fst snd]; [|apply shadow_refl].
  destruct (nth_error slots i) as [[x'|]|]; [apply shadow_refl| |apply shadow_refl].
  apply shadow_bind; [|intros; apply IH]. apply find_field_in, nth_error_In in E. rewrite Forall_forall in H. apply (H _ E).
Qed.
Lemma shadow_enum c b {A} (f g : A -> N -> prog sval) l : Forall (fun a => forall i, shadow c b (f a i) (g a i)) l ->
  shadow c b (de_enum (map f l)) (de_enum (map g l)).
Proof.
  intros H. apply shadow_bind; [apply shadow_refl|]. intros i. rewrite !pickN_map.
  destruct (pickN l i) as [a|] eqn:E; cbn [option_map]; [|apply shadow_refl].
  apply pickN_some in E as [Hin _]. rewrite Forall_forall in H. apply (H a Hin).
Qed.

(** Two ways of calling items. *)
Lemma shadow_xde c b f g t : (forall i, shadow c b (f i) (g i)) -> shadow c b (xde c f t) (xde c g t).
Proof.
  intros H. induction t using xty_ind2; cbn [xde].
  - apply shadow_refl.
  - apply shadow_pmap. apply shadow_bind; [apply shadow_refl|]. intros [|]; [apply shadow_pmap, IHt|apply shadow_refl].
  - apply shadow_pmap, IHt.
  - apply shadow_pmap. apply shadow_bind; [apply shadow_refl|]. intros n. apply shadow_repeatN, IHt.
  - apply shadow_pmap. apply shadow_bind; [apply shadow_refl|]. intros n. apply shadow_foldN. intros m.
    apply shadow_bind; [apply shadow_refl|]. intros k. apply shadow_bind; [exact IHt|intros; apply shadow_refl].
  - apply shadow_pmap, shadow_sequence, H0.
  - apply shadow_pmap, shadow_sequence, H0.
  - apply shadow_pmap. apply shadow_bind; [|intros; apply shadow_refl]. rewrite !map_map. apply shadow_struct_loop, H0.
  - apply shadow_enum. eapply Forall_impl; [|exact H0]. intros [k t] Ht i. apply shadow_pmap, Ht.
  - apply H.
Qed.
Lemma shadow_item c items n m i : (n <= m)%nat -> shadow c false (item_de c items n i) (item_de c items m i).
Proof.
  revert m i; induction n as [|n IH]; intros m i Hm; [apply shadow_stack; discriminate|].
  destruct m as [|m]; [lia|]. cbn [item_de]. destruct (nth_error items i) as [t|]; [|apply shadow_refl].
  apply shadow_xde. intros j. apply IH. lia.
Qed.
(** Items against the type with names resolved. *)
Lemma never_fails c s a r : run c (de c never) s <> OOk a r.
Proof.
  intros H. cbn [never de map] in H. unfold de_enum in H. apply run_bind_ok in H as (i & r' & _ & H). discriminate.
Qed.
Lemma missing_resolve f t : (forall i, f i = never \/ exists u, is_derived u = true /\ exists g, f i = resolve g u) ->
  missing (resolve f t) = xmissing t.
Proof.
  intros Hf. destruct t as [d|t|t|t|t|ts|ts|keys fs|vs|i]; try reflexivity. cbn [resolve xmissing].
  destruct (Hf i) as [-> | (u & Hu & g & ->)]; [reflexivity|]. destruct u as [d|t|t|t|t|ts|ts|keys fs|vs|j]; try reflexivity; try discriminate.
  destruct d; try discriminate; reflexivity.
Qed.
Lemma xde_resolve c f t : (forall i, f i = never \/ exists u, is_derived u = true /\ exists g, f i = resolve g u) ->
  xde c (fun i => de c (f i)) t = de c (resolve f t).
Proof.
  intros Hf. induction t using xty_ind2; cbn [xde resolve de]; try reflexivity.
  - rewrite IHt. reflexivity.
  - rewrite IHt. reflexivity.
  - rewrite IHt. reflexivity.
  - rewrite IHt. reflexivity.
  - do 2 f_equal. rewrite map_map. apply map_ext_Forall. exact H.
  - do 2 f_equal. rewrite map_map. apply map_ext_Forall. exact H.
  - rewrite !map_map. cbn [fst snd]. f_equal. f_equal.
    + apply map_ext_Forall. eapply Forall_impl; [|exact H]. intros [n t] E. cbn [fst snd] in *. rewrite E. reflexivity.
    + apply map_ext. intros [n t]. cbn [snd]. symmetry. apply missing_resolve, Hf.
  - rewrite map_map. f_equal. apply map_ext_Forall. eapply Forall_impl; [|exact H]. intros [k t] E. cbn [fst snd] in *. rewrite E. reflexivity.
Qed.
Lemma levels_shape items n i : wf_items items ->
  levels items n i = never \/ exists u, is_derived u = true /\ exists g, levels items n i = resolve g u.
Proof.
  intros Hi. destruct n as [|n]; [left; reflexivity|]. cbn [levels]. destruct (nth_error items i) as [t|] eqn:E; [|left; reflexivity].
  right. exists t. apply nth_error_In in E. unfold wf_items in Hi. rewrite Forall_forall in Hi. split; [apply Hi, E|eauto].
Qed.
Lemma shadow_levels c items n i : wf_items items -> shadow c true (item_de c items n i) (de c (levels items n i)).
Proof.
  intros Hi. revert i; induction n as [|n IH]; intros i; [apply shadow_stack; intros _; apply never_fails|].
  cbn [item_de levels]. destruct (nth_error items i) as [t|]; [|apply shadow_stack; intros _; apply never_fails].
  rewrite <- xde_resolve by (intros j; apply levels_shape, Hi). apply shadow_xde, IH.
Qed.

(** ** Resolved types are well-formed *)
Lemma wf_resolve f t : (forall i, wf_dty (f i) = true) -> wf_dty (resolve (fun _ => never) t) = true -> wf_dty (resolve f t) = true.
Proof.
  intros Hf. induction t using xty_ind2; cbn [resolve wf_dty]; try tauto; try exact IHt.
  - rewrite !forallb_forall. intros Hw x Hx. apply in_map_iff in Hx as (t & <- & Hin). rewrite Forall_forall in H.
    apply H; [exact Hin|]. apply Hw, in_map, Hin.
  - rewrite !forallb_forall. intros Hw x Hx. apply in_map_iff in Hx as (t & <- & Hin). rewrite Forall_forall in H.
    apply H; [exact Hin|]. apply Hw, in_map, Hin.
  - rewrite !map_map. cbn [fst]. intros Hw. apply andb_prop in Hw as [Hw1 Hw2]. rewrite Hw1. cbn [andb].
    rewrite forallb_forall in *. intros x Hx. apply in_map_iff in Hx as ([n t] & <- & Hin). cbn [snd]. rewrite Forall_forall in H.
    apply (H _ Hin). apply (Hw2 _ (in_map _ _ _ Hin)).
  - intros Hw. apply andb_prop in Hw as [Hw1 Hw2]. unfold lenN in *. rewrite map_length in *. rewrite Hw1. cbn [andb].
    rewrite forallb_forall in *. intros x Hx. apply in_map_iff in Hx as ([k t] & <- & Hin). cbn [fst snd]. rewrite Forall_forall in H.
    specialize (Hw2 _ (in_map _ _ _ Hin)). cbn [fst snd] in Hw2. apply andb_prop in Hw2 as [Hp Hd].
    specialize (H _ Hin Hd). cbn [snd] in H. rewrite H, andb_true_r.
    destruct k; try reflexivity; destruct t; try discriminate Hp; exact Hp.
  - intros _. apply Hf.
Qed.
Lemma wf_levels items n i : wf_items items -> wf_dty (levels items n i) = true.
Proof.
  intros Hi. revert i; induction n as [|n IH]; intros i; [reflexivity|]. cbn [levels].
  destruct (nth_error items i) as [t|] eqn:E; [|reflexivity]. apply wf_resolve; [exact IH|].
  apply nth_error_In in E. unfold wf_items in Hi. rewrite Forall_forall in Hi. apply Hi, E.
Qed.

(** ** Locality *)
Lemma local_xde c call t : usize_bits c = 64 -> (forall i, local c ERead (call i)) -> local c ERead (xde c call t).
Proof.
  intros Hc Hcall. induction t using xty_ind2; cbn [xde].
  - apply local_de, Hc.
  - apply local_pmap, local_bind; [apply local_bool|]. intros [|]; [apply local_pmap, IHt|apply local_Ret].
  - apply local_pmap, IHt.
  - apply local_pmap, local_vec, IHt.
  - apply local_pmap, local_map; assumption.
  - apply local_pmap, local_sequence, Forall_map, H.
  - apply local_pmap, local_sequence, Forall_map, H.
  - apply local_pmap, local_bind; [|intros; apply local_fill_missing]. apply local_struct_loop, Forall_map, H.
  - apply local_bind; [apply local_dec_u16|]. intros i. rewrite pickN_map. destruct (pickN vs i) as [a|] eqn:E; cbn [option_map]; [|apply local_Fail].
    apply pickN_some in E as [Hin _]. rewrite Forall_forall in H. apply local_pmap, (H a Hin).
  - apply Hcall.
Qed.
Lemma local_item c items n i : usize_bits c = 64 -> local c ERead (item_de c items n i).
Proof.
  intros Hc. revert i; induction n as [|n IH]; intros i; cbn [item_de]; [apply local_Crash|].
  destruct (nth_error items i); [apply local_xde; assumption|apply local_Crash].
Qed.

(** ** Encodings are bytes *)
Lemma str_raw c bs : str_ok c bs = true -> bytes_okb bs = true.
Proof. unfold str_ok. intros H. apply andb_prop in H as [H _]. apply bytes_okb_ok, utf8_valid_bytes, H. Qed.
Lemma buf_raw c bs : buf_ok c bs = true -> bytes_okb bs = true.
Proof. unfold buf_ok. intros H. apply andb_prop in H as [H _]. exact H. Qed.
Lemma typed_raw c d v : wf_cfg c -> has_ty c d v = true -> raw_ok v = true.
Proof.
  intros Hw. revert v. induction d using dty_ind2; intros v Hv; cbn [has_ty] in Hv; try discriminate.
  all: try (destruct v; try discriminate Hv; reflexivity).
  - destruct v; try discriminate. exact Hv.
  - destruct v; try discriminate. exact (str_raw c _ Hv).
  - destruct v; try discriminate. exact (buf_raw c _ Hv).
  - destruct v; try discriminate; [reflexivity|]. exact (IHd _ Hv).
  - destruct v; try discriminate. exact (IHd _ Hv).
  - destruct v as [ | | | | | | | | | | | | | | | | | | | | | | |[n|] l| | | | | | | | ]; try discriminate. apply andb_prop in Hv as [_ Hv].
    cbn [raw_ok]. rewrite forallb_forall in *. auto.
  - destruct v; try discriminate. apply (forall2b_Forall2 (has_ty c)) in Hv. cbn [raw_ok].
    induction Hv as [|d v ds l H1 Hv IH]; [reflexivity|]. inversion H; subst. cbn [forallb]. rewrite (H3 v H1), IH by assumption. reflexivity.
  - destruct v; try discriminate. apply (forall2b_Forall2 (has_ty c)) in Hv. cbn [raw_ok].
    induction Hv as [|d v ds l H1 Hv IH]; [reflexivity|]. inversion H; subst. cbn [forallb]. rewrite (H3 v H1), IH by assumption. reflexivity.
  - destruct v as [ | | | | | | | | | | | | | | | | | | | | | | | | | | |[n|] l| | | | ]; try discriminate.
    destruct (strkeys l) as [m|] eqn:E; [|discriminate]. apply andb_prop in Hv as [_ Hv]. apply strkeys_spec in E. subst l.
    cbn [raw_ok]. rewrite forallb_map. rewrite forallb_forall in *. intros [k x] Hin. specialize (Hv _ Hin). cbn [fst snd raw_ok] in *.
    apply andb_prop in Hv as [H1 H2]. rewrite (str_raw c k H1), (IHd x H2). reflexivity.
  - destruct v; try discriminate.
    apply (forall2b_Forall2 (fun nf kv => String.eqb (fst nf) (fst kv) && has_ty c (snd nf) (snd kv))) in Hv. cbn [raw_ok].
    induction Hv as [|d v ds l H1 Hv IH]; [reflexivity|]. inversion H; subst. cbn [forallb]. apply andb_prop in H1 as [_ H1].
    rewrite (H3 _ H1), IH by assumption. reflexivity.
  - destruct v; try discriminate; cbv zeta in Hv; rewrite pickN_map in Hv; try reflexivity;
      match type of Hv with context [pickN vs ?i] => destruct (pickN vs i) as [[k dp]|] eqn:Hpick; [|discriminate] end;
      cbn [option_map fst snd] in Hv; destruct k; try discriminate; apply pickN_some in Hpick as [Hin _];
      rewrite Forall_forall in H; exact (H _ Hin _ Hv).
  - destruct v as [ | | | | | | | | | | | | | | | | | | | | | | |[n|] [|v [|]]| | | | | | | | ]; try discriminate.
    apply (vec_u8_ok_spec c v Hw) in Hv as (bs & -> & Hb & _). apply (raw_big bs), bytes_okb_ok, Hb.
  - destruct v as [ | | | | | | | | | | | | | | | | | | | | | | |[n|] [|v [|]]| | | | | | | | ]; try discriminate.
    apply (vec_u8_ok_spec c v Hw) in Hv as (bs & -> & Hb & _). apply (raw_big bs), bytes_okb_ok, Hb.
  - destruct v as [ | | | | | | | | | | | | | | | | | | | | | | |[n|] [|v [|w [|]]]| | | | | | | | ]; try discriminate Hv.
    + destruct v as [ | | | | | |[|]| | | | | | | | | | | | | | | | | | | | | | | | | ]; try discriminate Hv. reflexivity.
    + assert (Hw' : exists s, w = SI64 s /\ vec_u8_ok c v = true).
      { destruct v as [ | | | | | |[|]| | | | | | | | | | | | | | | | | | | | | | | | | ]; destruct w; try discriminate Hv;
          apply andb_prop in Hv as [Hv _]; apply andb_prop in Hv as [Hv _]; eexists; split; [reflexivity|exact Hv]. }
      destruct Hw' as (s & -> & Hv'). apply (vec_u8_ok_spec c v Hw) in Hv' as (bs & -> & Hb & Hl).
      cbn [raw_ok forallb]. rewrite raw_vec_u8 by (apply bytes_okb_ok, Hb). reflexivity.
    + exfalso. destruct v as [ | | | | | |[|]| | | | | | | | | | | | | | | | | | | | | | | | | ]; destruct w; discriminate Hv.
  - destruct v as [ | | | | | | | | | | | | | | | | | | | | | | | |[|[] [|[] [|]]]| | | | | | | ]; try discriminate. reflexivity.
  - destruct v as [ | | | | | | | | | | | | | | | | | | | | | | | | | | | |[|[a []] [|[b []] [|]]]| | | ]; try discriminate. reflexivity.
Qed.

(** ** Main facts *)
Section Items.
  Variables (c : cfg) (items : list xty).
  Hypothesis Hw : wf_cfg c.
  Hypothesis Hh : 4096 <= heap_limit c.
  Hypothesis Hi : wf_items items.

  Lemma item_roundtrip n i v rest : fits c items n i v ->
    wresult (ser v) = WeOk /\ run c (item_de c items n i) (wbytes (ser v) ++ rest) = OOk v rest.
  Proof.
    intros Hv. destruct (rt_run c (levels items n i) v rest Hw Hh (wf_levels items n i Hi) Hv) as [H1 H2]. split; [exact H1|].
    destruct (shadow_levels c items n i Hi (wbytes (ser v) ++ rest)) as [E|[_ E]]; [rewrite E; exact H2|].
    destruct (E eq_refl _ _ H2).
  Qed.
  Lemma item_more n m i v rest : fits c items n i v -> (n <= m)%nat ->
    run c (item_de c items m i) (wbytes (ser v) ++ rest) = OOk v rest.
  Proof.
    intros Hv Hm. destruct (item_roundtrip n i v rest Hv) as [_ H].
    destruct (shadow_item c items n m i Hm (wbytes (ser v) ++ rest)) as [E|[E _]]; congruence.
  Qed.
  Lemma item_truncated n m i v u x t : usize_bits c = 64 -> fits c items n i v -> (n <= m)%nat ->
    wbytes (ser v) = u ++ x :: t -> run c (item_de c items m i) u = OErr ERead.
  Proof.
    intros Hc Hv Hm E. pose proof (item_more n m i v [] Hv Hm) as H. rewrite app_nil_r in H.
    apply (local_item c items m i Hc) in H as (u' & Hu & [_ P]); [|apply ser_bytes_ok, (typed_raw c _ _ Hw Hv)].
    rewrite app_nil_r in Hu. subst u'. exact (P u x t E).
  Qed.
  Lemma item_decoded n i s v r : bytes_ok s -> narrow c s r -> run c (item_de c items n i) s = OOk v r ->
    fits c items n i v /\ run c (de c (levels items n i)) s = OOk v r.
  Proof.
    intros Hs Hn H. assert (G : run c (de c (levels items n i)) s = OOk v r).
    { destruct (shadow_levels c items n i Hi s) as [E|[E _]]; [rewrite <- E; exact H|congruence]. }
    split; [|exact G]. exact (typed_short c _ Hw Hh (wf_levels items n i Hi) s v r Hs Hn G).
  Qed.
  Lemma item_exact n m i v rest : usize_bits c = 64 \/ lenN (wbytes (ser v)) < 2 ^ usize_bits c -> bytes_ok rest -> fits c items m i v -> ~ fits c items n i v ->
    run c (item_de c items n i) (wbytes (ser v) ++ rest) = OPanic PStack.
  Proof.
    intros Hc Hr Hm Hn. assert (Hs : bytes_ok (wbytes (ser v) ++ rest)).
    { apply Forall_app. split; [apply ser_bytes_ok, (typed_raw c _ _ Hw Hm)|exact Hr]. }
    assert (G : run c (item_de c items n i) (wbytes (ser v) ++ rest) = OOk v rest \/
                run c (item_de c items n i) (wbytes (ser v) ++ rest) = OPanic PStack).
    { destruct (Nat.le_ge_cases n m) as [L|L].
      - destruct (item_roundtrip m i v rest Hm) as [_ H].
        destruct (shadow_item c items n m i L (wbytes (ser v) ++ rest)) as [E|[E _]]; [left; congruence|right; exact E].
      - left. exact (item_more m n i v rest Hm L). }
    destruct G as [G|G]; [|exact G]. destruct Hn. refine (proj1 (item_decoded n i _ _ _ Hs _ G)). destruct Hc as [Hc|Hc]; [left; exact Hc|right]. rewrite lenN_app. lia.
  Qed.
  Lemma item_agrees n i s : run c (item_de c items n i) s = run c (de c (levels items n i)) s \/
    run c (item_de c items n i) s = OPanic PStack.
  Proof. destruct (shadow_levels c items n i Hi s) as [E|[E _]]; auto. Qed.

  (** Without recursion *)
  Let any_err (e : derr) : Prop := True.
  Let no_stack (q : panic) : Prop := q <> PStack.
  Lemma ends_xde call t : wf_dty (resolve (fun _ => never) t) = true ->
    (forall j, mentions j t -> ends c any_err no_stack (call j)) -> ends c any_err no_stack (xde c call t).
  Proof.
    assert (He : any_err ERead) by exact I.
    induction t using xty_ind2; cbn [resolve wf_dty xde]; intros Hd Hm.
    - eapply ends_weaken; [exact (ends_de c d Hw Hh Hd)|intros; exact I|]. intros q (-> & _). discriminate.
    - apply ends_pmap, ends_bind; [apply ends_bool, He|]. intros [|]; [apply ends_pmap, IHt; [exact Hd|intros; apply Hm; constructor; assumption]|apply ends_Ret].
    - apply ends_pmap, IHt; [exact Hd|intros; apply Hm; constructor; assumption].
    - apply ends_pmap, ends_vec; [exact I|]. apply IHt; [exact Hd|intros; apply Hm; constructor; assumption].
    - apply ends_pmap, ends_map; [exact I|]. apply IHt; [exact Hd|intros; apply Hm; constructor; assumption].
    - apply ends_pmap, ends_sequence, Forall_map. rewrite Forall_forall in *. intros t Ht. apply H; [exact Ht| |].
      + rewrite forallb_forall in Hd. apply Hd, in_map, Ht.
      + intros j Hj. apply Hm. exact (m_tuple j ts t Ht Hj).
    - apply ends_pmap, ends_sequence, Forall_map. rewrite Forall_forall in *. intros t Ht. apply H; [exact Ht| |].
      + rewrite forallb_forall in Hd. apply Hd, in_map, Ht.
      + intros j Hj. apply Hm. exact (m_tuple_struct j ts t Ht Hj).
    - apply andb_prop in Hd as [_ Hd]. rewrite forallb_forall in Hd.
      assert (HF : Forall (fun np => ends c any_err no_stack (snd np)) (map (fun nf => (fst nf, xde c call (snd nf))) fs)).
      { apply Forall_map. rewrite Forall_forall in *. intros [n t] Ht. cbn [snd]. apply (H _ Ht); [exact (Hd _ (in_map _ _ _ Ht))|].
        intros j Hj. apply Hm. exact (m_struct j keys fs _ Ht Hj). }
      apply ends_pmap, ends_bind.
      + generalize (map (fun _ : string * prog sval => @None sval) (map (fun nf => (fst nf, xde c call (snd nf))) fs)).
        revert HF. generalize (map (fun nf => (fst nf, xde c call (snd nf))) fs). clear. intros fs HF.
        induction keys as [|k keys IH]; intros slots; cbn [struct_loop]; [apply ends_Ret|].
        destruct (find_field k fs) as [[i p]|] eqn:E; [|apply ends_Crash; discriminate].
        destruct (nth_error slots i) as [[a|]|]; [apply ends_Fail; exact I| |apply ends_Fail; exact I].
        apply ends_bind; [|intros a; apply IH]. apply find_field_in, nth_error_In in E. rewrite Forall_forall in HF. apply (HF _ E).
      + intros slots. generalize (map (fun nf => xmissing (snd nf)) fs). clear. revert slots.
        intros slots miss. revert slots. induction miss as [|m miss IH]; intros slots; cbn [fill_missing]; [apply ends_Ret|].
        destruct slots as [|s slots]; [apply ends_Ret|].
        assert (G : forall a : sval, ends c any_err no_stack (bind (fill_missing miss slots) (fun l => Ret (a :: l)))).
        { intros a; apply ends_bind; [apply IH|intros; apply ends_Ret]. }
        destruct s; [apply G|]. destruct m; [apply G|apply ends_Fail; exact I].
    - apply andb_prop in Hd as [_ Hd]. rewrite forallb_forall in Hd. apply ends_bind; [apply ends_u16; exact I|]. intros i.
      rewrite pickN_map. destruct (pickN vs i) as [[k t]|] eqn:E; cbn [option_map]; [|apply ends_Fail; exact I].
      apply pickN_some in E as [Hin _]. apply ends_pmap. rewrite Forall_forall in H. apply (H _ Hin).
      + specialize (Hd _ (in_map _ _ _ Hin)). apply andb_prop in Hd as [_ Hd]. exact Hd.
      + intros j Hj. apply Hm. exact (m_enum j vs _ Hin Hj).
    - apply Hm. constructor.
  Qed.
  Lemma acyclic_stack rank n i : acyclic items rank -> (rank i < n)%nat -> (i < length items)%nat -> ends c any_err no_stack (item_de c items n i).
  Proof.
    intros Ha. revert i; induction n as [|n IH]; intros i Hn Hl; [lia|]. cbn [item_de].
    destruct (nth_error items i) as [t|] eqn:E; [|apply nth_error_None in E; lia].
    pose proof (nth_error_In _ _ E) as Hin. unfold wf_items in Hi. rewrite Forall_forall in Hi. destruct (Hi t Hin) as (_ & Hd & Hm).
    apply ends_xde; [exact Hd|]. intros j Hj. apply IH; [|apply Hm, Hj]. specialize (Ha i t j E Hj). lia.
  Qed.
  Lemma acyclic_no_overflow rank n i s : acyclic items rank -> (rank i < n)%nat -> (i < length items)%nat -> bytes_ok s ->
    run c (item_de c items n i) s = run c (de c (levels items n i)) s.
  Proof.
    intros Ha Hn Hl Hs. destruct (item_agrees n i s) as [E|E]; [exact E|].
    pose proof (acyclic_stack rank n i Ha Hn Hl s Hs) as H. rewrite E in H. destruct (H eq_refl).
  Qed.
End Items.

(** ** The list type of SpecRec *)
Lemma node_step c call s : run c (xde c call (XStruct ["next"%string] [("next"%string, XOption (XItem 0))])) (1 :: s) =
  obind (run c (call 0%nat) s) (fun a r => OOk (SStruct [("next"%string, SSome a)]) r).
Proof.
  assert (Hb : run c de_bool (1 :: s) = OOk true s) by exact (proj1 (parses_bool c true) s).
  cbn [xde map fst snd xmissing]. unfold pmap at 1. rewrite run_bind. unfold de_struct. rewrite run_bind.
  cbn [struct_loop find_field map]. rewrite String.eqb_refl. cbn [nth_error].
  rewrite run_bind. unfold pmap, de_option. rewrite !run_bind, Hb. cbn [obind]. unfold pmap. rewrite run_bind.
  destruct (run c (call 0%nat) s); reflexivity.
Qed.
Lemma node_overflow c n rest : run c (item_de c node n 0) (repeat 1 n ++ rest) = OPanic PStack.
Proof.
  induction n as [|n IH]; [reflexivity|]. cbn [item_de node nth_error repeat app]. rewrite node_step, IH. reflexivity.
Qed.
