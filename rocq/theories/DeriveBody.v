(** * Bytes of typed values read through the header of their type. *)
From Coq Require Import String Permutation.
From Verif Require Import Base BaseFacts Varint VarintFacts Serde Typing PrimFacts SerdeFacts MapFacts Big BigFacts Time TimeFacts
  Header HeaderFacts SpecHeader Body SpecBody BodyFacts Derive SpecDerive DeriveFacts.
Local Open Scope list_scope.
Local Open Scope N_scope.

(** [sv] writes what [bde c h] reads as [b]. *)
Definition rw (c : cfg) (h : header) (sv : sval) (b : body) : Prop :=
  wresult (ser sv) = WeOk /\ parses c ERead (bde c h) (wbytes (ser sv)) b.
Inductive rws (c : cfg) : list header -> list sval -> list body -> Prop :=
| rws_nil : rws c [] [] []
| rws_cons h s b hs ss bs : rw c h s b -> rws c hs ss bs -> rws c (h :: hs) (s :: ss) (b :: bs).

Lemma rws_seq c hs ss bs : rws c hs ss bs ->
  wresult (wconcat (map ser ss)) = WeOk /\
  parses c ERead (sequence (map (bde c) hs)) (wbytes (wconcat (map ser ss))) bs /\ length hs = length bs.
Proof.
  induction 1 as [|h s b hs ss bs [Hw Hp] _ (IH1 & IH2 & IH3)]; cbn [map sequence length].
  - split; [reflexivity|]. split; [apply parses_ret|reflexivity].
  - change (wconcat (ser s :: map ser ss)) with (wseq (ser s) (wconcat (map ser ss))).
    split; [apply wresult_wseq_ok_iff; auto|]. split; [|lia]. rewrite wbytes_wseq_done by exact Hw.
    eapply parses_bind; [exact Hp|]. eapply parses_bind_ret; [exact IH2|reflexivity].
Qed.
Lemma rw_tuple c hs ss bs : vec_room c (lenN bs) = true -> rws c hs ss bs ->
  wresult (wconcat (map ser ss)) = WeOk /\ parses c ERead (bde c (HTuple hs)) (wbytes (wconcat (map ser ss))) (BTuple bs).
Proof.
  intros Hr H. apply rws_seq in H as (H1 & H2 & H3). split; [exact H1|]. cbn [bde].
  apply parses_Alloc; [|apply (parses_pmap _ _ _ BTuple), H2].
  unfold lenN. rewrite H3. apply vec_room_alloc, Hr.
Qed.
Lemma body_ok_tuple c bs : body_ok c (BTuple bs) = true <-> forallb (body_ok c) bs = true.
Proof. unfold body_ok. cbn [every node_ok]. reflexivity. Qed.
Lemma body_fits_tuple c bs : body_fits c (BTuple bs) = true <-> vec_room c (lenN bs) = true /\ forallb (body_fits c) bs = true.
Proof. unfold body_fits. cbn [every]. apply andb_true_iff. Qed.
Lemma variant_ok c bs : body_ok c (variant_body bs) = true -> forallb (body_ok c) bs = true.
Proof. destruct bs as [|b [|b' bs]]; cbn [variant_body forallb]; [auto|intros ->; reflexivity|]. apply body_ok_tuple. Qed.
Lemma variant_fits c bs : body_fits c (variant_body bs) = true -> forallb (body_fits c) bs = true.
Proof. destruct bs as [|b [|b' bs]]; cbn [variant_body forallb]; [auto|intros ->; reflexivity|]. apply body_fits_tuple. Qed.
Lemma rw_variant c hs ss bs : body_fits c (variant_body bs) = true -> rws c hs ss bs ->
  wresult (wconcat (map ser ss)) = WeOk /\
  parses c ERead (bde c (variant_header hs)) (wbytes (wconcat (map ser ss))) (variant_body bs).
Proof.
  intros Hf H. destruct H as [|h s b hs ss bs [Hw Hp] H]; [split; [reflexivity|apply parses_ret]|].
  destruct H as [|h' s' b' hs ss bs H' H].
  - cbn [map]. change (wconcat [ser s]) with (wseq (ser s) WDone). cbn [variant_header variant_body].
    split; [apply wresult_wseq_ok_iff; auto|]. rewrite wbytes_wseq_done by exact Hw. cbn [wbytes]. rewrite app_nil_r. exact Hp.
  - cbn [variant_header variant_body] in *. apply rw_tuple; [apply body_fits_tuple, Hf|].
    constructor; [split; assumption|]. constructor; assumption.
Qed.

Lemma ser_fmt_date c y o : fmt_date_sval c (y, o) = date_sval c y o.
Proof. reflexivity. Qed.
Lemma ser_fmt_datetime t : ser (fmt_datetime_sval t) = ser (date_time_sval (odt_ts t) (odt_ns t)).
Proof. reflexivity. Qed.

Lemma leaf_rw c l v sv b : wf_cfg c -> 4096 <= heap_limit c ->
  leaf_sval c l v = Some sv -> leaf_body c l v = Some b -> body_ok c b = true -> body_fits c b = true ->
  rw c (leaf_header l) sv b.
Proof.
  intros Hc Hh Hs Hb Hok Hf.
  assert (E : ser sv = ser (body_sval c b) /\ validate (leaf_header l) b = true).
  { destruct l, v; try discriminate Hs; cbn [leaf_sval leaf_body] in Hs, Hb; injection Hs as <-;
      try (injection Hb as <-); cbn [body_sval leaf_header]; try (split; reflexivity).
    - split; [apply ser_fmt_biguint|reflexivity].
    - split; [apply ser_fmt_bigint|reflexivity].
    - pose proof (ser_fmt_bigdecimal c (digits, scale)) as E. destruct (bigdecimal_from c (digits, scale)) as [w|]; [|discriminate].
      cbn [option_map] in Hb. injection Hb as <-. cbn [body_sval]. split; [exact E|reflexivity]. }
  destruct E as [E V]. unfold rw. rewrite E. exact (body_roundtrip c _ b Hc Hh V Hok Hf).
Qed.

Definition typed (c : cfg) (omit : string -> rval -> bool) (t : rty) : Prop := forall v sv h b,
  describes t h -> carries c t v b -> rser c omit t v = Some sv -> body_ok c b = true -> body_fits c b = true -> rw c h sv b.

Lemma typed_fields c omit fs : Forall (fun f => skipped (fst f) \/ typed c omit (snd (snd f))) fs ->
  forall hs vs bs l, describes_fields fs hs -> carries_fields c fs vs bs ->
  ser_fields omit (map (fun f => (fst f, (fst (snd f), rser c omit (snd (snd f))))) fs) vs = Some l ->
  forallb (body_ok c) bs = true -> forallb (body_fits c) bs = true ->
  rws c hs (map snd l) bs.
Proof.
  induction 1 as [|[a [n t]] fs Ht _ IH]; intros hs vs bs l Hd Hca Hs Hok Hf; cbn [map fst snd] in *.
  - inversion Hd; subst. inversion Hca; subst. cbn [ser_fields] in Hs. injection Hs as <-. constructor.
  - destruct vs as [|v vs]; [inversion Hca|]. cbn [ser_fields] in Hs. rewrite serde_skips_eq, serde_skips_if_eq in Hs.
    inversion Hd; subst.
    + rewrite (proj2 (skip_iff a)) in Hs by assumption. cbn [orb] in Hs.
      inversion Hca; subst; [|contradiction]. eapply IH; eassumption.
    + rewrite (proj2 (skip_false a)), (proj2 (skip_if_false a)) in Hs by assumption. cbn [orb andb] in Hs.
      inversion Hca; subst; [contradiction|]. cbn [forallb] in Hok, Hf. apply andb_prop in Hok as [Hok1 Hok2], Hf as [Hf1 Hf2].
      destruct (rser c omit t v) as [s|] eqn:E1; [|discriminate].
      destruct (ser_fields _ _ vs) as [l'|] eqn:E2; [|discriminate]. injection Hs as <-. cbn [map snd].
      destruct Ht as [Ht|Ht]; [contradiction|].
      constructor; [eapply Ht; eassumption|]. eapply IH; eassumption.
Qed.
(** Members none of which has a skip attribute. *)
Lemma typed_members c omit om (fs : list (attrs * (string * rty))) :
  Forall (fun f => ~ skipped (fst f) /\ ~ skipped_if (fst f) /\ typed c omit (snd (snd f))) fs ->
  forall hs vs bs l, describes_all (map (fun f => snd (snd f)) fs) hs -> carries_all c (map (fun f => snd (snd f)) fs) vs bs ->
  ser_fields om (map (fun f => (fst f, (fst (snd f), rser c omit (snd (snd f))))) fs) vs = Some l ->
  forallb (body_ok c) bs = true -> forallb (body_fits c) bs = true ->
  rws c hs (map snd l) bs.
Proof.
  induction 1 as [|[a [n t]] fs (Ha & Hi & Ht) _ IH]; intros hs vs bs l Hd Hca Hs Hok Hf; cbn [map fst snd] in *.
  - inversion Hd; subst. inversion Hca; subst. cbn [ser_fields] in Hs. injection Hs as <-. constructor.
  - destruct vs as [|v vs]; [inversion Hca|]. cbn [ser_fields] in Hs. rewrite serde_skips_eq, serde_skips_if_eq in Hs.
    inversion Hd; subst. rewrite (proj2 (skip_false a)), (proj2 (skip_if_false a)) in Hs by assumption. cbn [orb andb] in Hs.
    inversion Hca; subst. cbn [forallb] in Hok, Hf. apply andb_prop in Hok as [Hok1 Hok2], Hf as [Hf1 Hf2].
    destruct (rser c omit t v) as [s|] eqn:E1; [|discriminate].
    destruct (ser_fields _ _ vs) as [l'|] eqn:E2; [|discriminate]. injection Hs as <-. cbn [map snd].
    constructor; [eapply Ht; eassumption|]. eapply IH; eassumption.
Qed.
Lemma not_skipped_nil : ~ skipped [].
Proof. intros [(a & ns & [] & _)|(a & ns & [] & _)]. Qed.
Lemma not_skipped_if_nil : ~ skipped_if [].
Proof. intros (a & ns & [] & _). Qed.

(** Elements of a vector, values of a map. *)
Lemma typed_elems c omit t h vs bs ss : typed c omit t -> describes t h ->
  carries_all c (map (fun _ => t) vs) vs bs -> all_some (map (rser c omit t) vs) = Some ss ->
  forallb (body_ok c) bs = true -> forallb (body_fits c) bs = true ->
  Forall2 (rw c h) ss bs /\ length vs = length bs.
Proof.
  intros Ht Hd. revert bs ss; induction vs as [|v vs IH]; intros bs ss Hca Hs Hok Hf; cbn [map] in *.
  - inversion Hca; subst. injection Hs as <-. split; constructor.
  - apply all_some_cons in Hs as (s & ss' & H1 & H2 & ->). inversion Hca; subst. cbn [forallb] in Hok, Hf.
    apply andb_prop in Hok as [Hok1 Hok2], Hf as [Hf1 Hf2]. destruct (IH bs0 ss') as [IH1 IH2]; try assumption.
    split; [|cbn [length]; lia]. constructor; [eapply Ht; eassumption|assumption].
Qed.
Lemma rw_list c h ss bs : Forall2 (rw c h) ss bs ->
  wresult (wconcat (map ser ss)) = WeOk /\ wbytes (wconcat (map ser ss)) = concat (map (fun s => wbytes (ser s)) ss) /\
  Forall2 (parses c ERead (bde c h)) (map (fun s => wbytes (ser s)) ss) bs.
Proof.
  intros H. destruct (wconcat_ok ser ss) as [H1 H2]; [induction H as [|s b ss bs [Hw _] _ IH]; constructor; assumption|].
  split; [exact H1|]. split; [exact H2|]. clear H1 H2. induction H as [|s b ss bs [_ Hp] _ IH]; constructor; assumption.
Qed.
Lemma fold_left_map {A B S} (g : S -> B -> S) (f : A -> B) l s : fold_left g (map f l) s = fold_left (fun s a => g s (f a)) l s.
Proof. revert s; induction l as [|a l IH]; intros s; [reflexivity|]. cbn [map fold_left]. apply IH. Qed.
Lemma map_fst_combine {A B} (l : list A) (m : list B) : length l = length m -> map fst (combine l m) = l.
Proof. revert m; induction l as [|a l IH]; intros [|b m] H; try discriminate; [reflexivity|]. cbn [combine map fst]. rewrite IH; [reflexivity|]. injection H as H; exact H. Qed.
Lemma map_snd_combine {A B} (l : list A) (m : list B) : length l = length m -> map snd (combine l m) = m.
Proof. revert m; induction l as [|a l IH]; intros [|b m] H; try discriminate; [reflexivity|]. cbn [combine map snd]. rewrite IH; [reflexivity|]. injection H as H; exact H. Qed.

(** A list of entries in any order, read into a BTreeMap. *)
Lemma rw_entries c h ks ss bs : wf_cfg c -> Forall (fun k => str_ok c k = true) ks -> length ks = length bs ->
  Forall2 (rw c h) ss bs ->
  let l := combine (map SStr ks) ss in
  wresult (wconcat (map (fun kv => wseq (ser_key (fst kv)) (ser (snd kv))) l)) = WeOk /\
  parses c ERead (de_map_n c (lenN ks) (bde c h))
    (wbytes (wconcat (map (fun kv => wseq (ser_key (fst kv)) (ser (snd kv))) l)))
    (insert_all (combine ks bs) []).
Proof.
  intros Hc Hk Hl HF. cbv zeta.
  set (xs := combine ks (combine bs (map (fun s => wbytes (ser s)) ss))).
  assert (Hlss : length ss = length bs) by (eapply Forall2_length; exact HF).
  assert (E1 : wresult (wconcat (map (fun kv => wseq (ser_key (fst kv)) (ser (snd kv))) (combine (map SStr ks) ss))) = WeOk /\
     wbytes (wconcat (map (fun kv => wseq (ser_key (fst kv)) (ser (snd kv))) (combine (map SStr ks) ss))) =
     concat (map (fun x => enc_str (fst x) ++ snd (snd x)) xs)).
  { destruct (wconcat_ok (fun kv => wseq (ser_key (fst kv)) (ser (snd kv))) (combine (map SStr ks) ss)) as [H1 H2].
    - clear - HF. revert ks; induction HF as [|s b ss bs [Hw _] _ IH]; intros [|k ks]; cbn [map combine]; constructor; [|apply IH].
      cbn [fst snd ser_key]. exact Hw.
    - split; [exact H1|]. rewrite H2. f_equal. unfold xs. clear - HF Hl. revert ks Hl.
      induction HF as [|s b ss bs _ _ IH]; intros [|k ks] Hl; try discriminate; [reflexivity|]. cbn [map combine fst snd].
      f_equal; [|apply IH; injection Hl as Hl; exact Hl]. cbn [ser_key]. unfold ser_str, ser_u64, enc_str. cbn [wseq wr wbytes].
      rewrite <- app_assoc. reflexivity. }
  destruct E1 as [E1 E2]. split; [exact E1|]. rewrite E2.
  assert (Hlx : lenN ks = lenN xs).
  { unfold lenN, xs. rewrite !combine_length, map_length. lia. }
  rewrite Hlx. unfold de_map_n.
  assert (E3 : insert_all (combine ks bs) [] = fold_left (fun acc x => map_insert (fst x) (fst (snd x)) acc) xs []).
  { unfold insert_all. replace (combine ks bs) with (map (fun x : list N * (body * list N) => (fst x, fst (snd x))) xs).
    - rewrite fold_left_map. reflexivity.
    - unfold xs. clear - Hl Hlss. revert bs ss Hl Hlss. induction ks as [|k ks IH]; intros [|b bs] [|s ss] H1 H2; try discriminate; [reflexivity|].
      cbn [map combine fst snd]. f_equal. apply IH; [injection H1 as H1; exact H1|injection H2 as H2; exact H2]. }
  rewrite E3.
  apply (parses_foldN c ERead (fun m => k <- de_string c ;; v <- bde c h ;; Ret (map_insert k v m))
           (fun x => enc_str (fst x) ++ snd (snd x)) (fun acc x => map_insert (fst x) (fst (snd x)) acc)).
  unfold xs. clear - Hc Hk HF Hl. revert ks Hk Hl. induction HF as [|s b ss bs [_ Hp] _ IH]; intros [|k ks] Hk Hl; try discriminate; [constructor|].
  inversion Hk; subst. cbn [map combine]. constructor; [|apply IH; [assumption|injection Hl as Hl; exact Hl]].
  intros m. cbn [fst snd]. apply andb_prop in H1 as [Hk1 Hk2].
  eapply parses_bind; [apply parses_string; [exact Hc|exact Hk1|apply N.ltb_lt, Hk2]|].
  eapply parses_bind_ret; [exact Hp|reflexivity].
Qed.

Lemma typed_map c omit t : wf_cfg c -> typed c omit t -> forall vs m h sv,
  describes t h -> carries_map c t vs m ->
  option_map (SMap (Some (lenN vs))) (map_some (fun kv => option_map (pair (SStr (fst kv))) (rser c omit t (snd kv))) vs) = Some sv ->
  body_ok c (BMap m) = true -> body_fits c (BMap m) = true -> rw c (HMap h) sv (BMap m).
Proof.
  intros Hc Ht vs m h sv Hd Hca Hs Hok Hf. inversion Hca as [? ? bs ? Hnd Hall Hperm Hsort]; subst.
  apply option_map_some in Hs as (l & Hs & ->).
  unfold body_ok, body_fits in Hok, Hf. cbn [every node_ok] in Hok, Hf. cbn [andb] in Hf.
  apply andb_prop in Hok as [Hl Hok]. apply andb_prop in Hl as [Hl Hk]. apply andb_prop in Hl as [Hl _].
  assert (Hlen : length vs = length bs).
  { clear - Hall. revert bs Hall. induction vs as [|v vs IH]; intros bs H; cbn [map] in H; inversion H; subst; [reflexivity|].
    cbn [length]. f_equal. apply IH; assumption. }
  assert (Hlen' : length (map fst vs) = length bs) by (rewrite map_length; exact Hlen).
  assert (HP : forall f : list N * body -> bool, forallb f m = true -> forallb f (combine (map fst vs) bs) = true).
  { intros f H. rewrite forallb_forall in H |- *. intros x Hx. apply H. eapply Permutation_in; eassumption. }
  assert (Hbs : forall f : body -> bool, forallb (fun kv => f (snd kv)) m = true -> forallb f bs = true).
  { intros f H. apply HP in H. rewrite <- (map_snd_combine (map fst vs) bs Hlen').
    rewrite forallb_forall in H |- *. intros b Hb. apply in_map_iff in Hb as (kv & <- & Hb). apply (H kv Hb). }
  assert (Hkeys : Forall (fun k => str_ok c k = true) (map fst vs)).
  { apply HP in Hk. rewrite <- (map_fst_combine (map fst vs) bs Hlen').
    rewrite forallb_forall in Hk. apply Forall_forall. intros k Hin. apply in_map_iff in Hin as (kv & <- & Hin). apply (Hk kv Hin). }
  assert (Hsplit : exists ss, all_some (map (rser c omit t) (map snd vs)) = Some ss /\ l = combine (map SStr (map fst vs)) ss).
  { clear - Hs. unfold map_some in Hs. revert l Hs. induction vs as [|[k v] vs IH]; intros l Hs; cbn [map fst snd] in *.
    - injection Hs as <-. exists []. auto.
    - apply all_some_cons in Hs as (a & l' & H1 & H2 & ->). apply option_map_some in H1 as (s & H1 & ->).
      destruct (IH l' H2) as (ss & H3 & ->). exists (s :: ss). rewrite all_some_cons. split; [eauto|reflexivity]. }
  destruct Hsplit as (ss & Hss & ->).
  assert (Hmm : map (fun _ => t) vs = map (fun _ => t) (map snd vs)) by (rewrite map_map; reflexivity).
  rewrite Hmm in Hall.
  destruct (typed_elems c omit t h (map snd vs) bs ss Ht Hd Hall Hss (Hbs _ Hok) (Hbs _ Hf)) as [HF _].
  destruct (rw_entries c h (map fst vs) ss bs Hc Hkeys Hlen' HF) as [H1 H2].
  assert (Hlv : lenN vs = lenN (map fst vs)) by (unfold lenN; rewrite map_length; reflexivity).
  assert (Hlm : lenN vs = lenN m).
  { unfold lenN. rewrite <- (Permutation_length Hperm), combine_length. rewrite map_length. f_equal. lia. }
  unfold rw. cbn [ser ser_len]. unfold ser_u64. rewrite wresult_seq_wr, wbytes_seq_wr. split; [exact H1|].
  cbn [bde]. apply N.ltb_lt in Hl. eapply parses_bind; [apply parses_u64, (lt_usize_64 c); [exact Hc|rewrite Hlm; exact Hl]|].
  apply (parses_pmap _ _ _ BMap). rewrite Hlv.
  replace m with (insert_all (combine (map fst vs) bs) []); [exact H2|].
  rewrite (insert_all_perm _ m); [|rewrite map_fst_combine by exact Hlen'; exact Hnd|exact Hperm].
  unfold insert_all. rewrite insert_all_sorted; [reflexivity|exact Hsort|apply Forall_forall; intros; constructor].
Qed.

(** The variant with index [i] and the member of the header with index [i]. *)
Lemma variants_align kept tail hs i a k fs :
  Forall (fun v => ~ skipped (fst v)) kept -> Forall (fun v => skipped (fst v)) tail ->
  describes_variants (kept ++ tail) hs -> pickN (kept ++ tail) i = Some (a, (k, fs)) -> ~ skipped a ->
  In (a, (k, fs)) kept /\ exists fhs, pickN hs i = Some (variant_header fhs) /\ describes_all (map (fun f => snd (snd f)) fs) fhs.
Proof.
  intros Hk Ht. revert hs i; induction Hk as [|[a' [k' fs']] kept Ha Hk IH]; intros hs i Hd Hp Hs; cbn [app] in *.
  - exfalso. apply pickN_some in Hp as [Hin _]. rewrite Forall_forall in Ht. apply Ht in Hin. contradiction.
  - cbn [fst] in Ha. inversion Hd; subst; [contradiction|]. cbn [pickN] in Hp |- *. destruct (N.eqb_spec i 0) as [->|Hi].
    + injection Hp as <- <- <-. split; [left; reflexivity|]. eexists; split; [reflexivity|assumption].
    + destruct (IH hs0 (i - 1)) as [H1 H2]; try assumption. split; [right; exact H1|exact H2].
Qed.

Lemma typed_enum c omit vs : wf_cfg c -> aligned (REnum vs) ->
  Forall (fun v => Forall (fun f => aligned (snd (snd f)) -> typed c omit (snd (snd f))) (snd (snd v))) vs ->
  typed c omit (REnum vs).
Proof.
  intros Hc Hal HT v sv h b Hd Hca Hs Hok Hf. inversion Hal as [| | | | | | |kept tail Hk Ht E]; subst.
  inversion Hd as [| | | | | | |? hs Hdv]; subst. inversion Hca as [| | | | | | | |? i a k fs vals bs Hp Ha Hall]; subst.
  cbn [rser] in Hs. rewrite pickN_map, Hp in Hs. cbn [option_map fst snd] in Hs. rewrite serde_skips_eq, (proj2 (skip_false a)) in Hs by exact Ha.
  destruct (variants_align kept tail hs i a k fs) as (Hin & fhs & Hpick & Hdf); try assumption.
  { eapply Forall_impl; [|exact Hk]. cbv beta. tauto. }
  unfold body_ok, body_fits in Hok, Hf. cbn [every node_ok] in Hok, Hf. cbn [andb] in Hf. apply andb_prop in Hok as [Hi Hok].
  apply N.ltb_lt in Hi. fold (body_ok c) in Hok. fold (body_fits c) in Hf.
  assert (Hmem : Forall (fun f => ~ skipped (fst f) /\ ~ skipped_if (fst f) /\ typed c omit (snd (snd f))) fs).
  { rewrite Forall_forall in Hk. apply Hk in Hin as Hin'. cbn [snd] in Hin'. destruct Hin' as [_ Hin'].
    rewrite Forall_forall in HT. specialize (HT _ (in_or_app kept tail _ (or_introl Hin))). cbn [snd] in HT.
    rewrite Forall_forall in Hin', HT |- *. intros f Hfin. destruct (Hin' f Hfin) as (H1 & H2 & H3). auto. }
  assert (HP : forall ss, rws c fhs ss bs -> parses c ERead (bde c (HEnum hs)) (enc_u32 i ++ wbytes (wconcat (map ser ss))) (BEnum i (variant_body bs))).
  { intros ss Hr. destruct (rw_variant c fhs ss bs Hf Hr) as [_ H2]. cbn [bde]. eapply parses_bind; [apply parses_u32, Hi|].
    rewrite as_usize_id.
    - rewrite pickN_map, Hpick. cbn [option_map]. apply parses_pmap, H2.
    - destruct (usize_bits_cases c Hc) as [->| ->]; [exact Hi|]. eapply N.lt_trans; [exact Hi|reflexivity]. }
  pose proof (typed_members c omit omit fs Hmem fhs vals bs) as HM.
  pose proof (variant_ok c bs Hok) as Hok'. pose proof (variant_fits c bs Hf) as Hf'.
  unfold rser_variant in Hs. destruct k.
  - apply option_map_some in Hs as (l & Hl & ->). specialize (HM l Hdf Hall Hl Hok' Hf').
    pose proof (rw_variant c fhs _ bs Hf HM) as [H1 _]. specialize (HP _ HM).
    unfold rw. cbn [ser]. unfold ser_u32. rewrite wresult_seq_wr, wbytes_seq_wr. rewrite <- (map_map snd ser l). auto.
  - destruct fs as [|[a1 [n1 t1]] [|f2 fs]].
    + cbn [map] in Hs. apply option_map_some in Hs as (l & Hl & ->). specialize (HM l Hdf Hall Hl Hok' Hf').
      pose proof (rw_variant c fhs _ bs Hf HM) as [H1 _]. specialize (HP _ HM).
      unfold rw. cbn [ser]. unfold ser_u32. rewrite wresult_seq_wr, wbytes_seq_wr. auto.
    + cbn [map fst snd] in Hs. destruct vals as [|v [|v' vals]]; try discriminate. rewrite serde_skips_eq in Hs.
      inversion Hmem as [|? ? (G1 & G2 & G3) _]; subst. cbn [fst snd] in G1, G2, G3. rewrite (proj2 (skip_false a1)) in Hs by exact G1.
      apply option_map_some in Hs as (s & Hs & ->).
      assert (HR : rws c fhs [s] bs).
      { apply (HM [(n1, s)]); try assumption. cbn [map fst snd ser_fields].
        rewrite serde_skips_eq, serde_skips_if_eq, (proj2 (skip_false a1)), (proj2 (skip_if_false a1)), Hs by assumption. reflexivity. }
      pose proof (rw_variant c fhs _ bs Hf HR) as [H1 _]. specialize (HP _ HR). cbn [map] in H1, HP. change (wconcat [ser s]) with (wseq (ser s) WDone) in *.
      apply wresult_wseq_ok_iff in H1 as [H1 _]. rewrite wbytes_wseq_done in HP by exact H1. cbn [wbytes] in HP. rewrite app_nil_r in HP.
      unfold rw. cbn [ser]. unfold ser_u32. rewrite wresult_seq_wr, wbytes_seq_wr. auto.
    + cbn [map] in Hs. apply option_map_some in Hs as (l & Hl & ->). specialize (HM l Hdf Hall Hl Hok' Hf').
      pose proof (rw_variant c fhs _ bs Hf HM) as [H1 _]. specialize (HP _ HM).
      unfold rw. cbn [ser]. unfold ser_u32. rewrite wresult_seq_wr, wbytes_seq_wr. auto.
  - destruct fs as [|f fs]; cbn [map] in Hs; [|discriminate]. destruct vals; [|discriminate]. injection Hs as <-.
    inversion Hdf; subst. inversion Hall; subst. specialize (HP [] (rws_nil c)). cbn [map wconcat fold_right wbytes] in HP.
    unfold rw. cbn [ser ser_u32 wr wbytes wresult]. auto.
Qed.

Lemma typed_all c omit t : wf_cfg c -> 4096 <= heap_limit c -> aligned t -> typed c omit t.
Proof.
  intros Hc Hh. apply (rty_ind2 (fun t => aligned t -> typed c omit t)); clear t.
  - intros l _ v sv h b Hd Hca Hs Hok Hf. inversion Hd; subst. inversion Hca; subst. eapply leaf_rw; eassumption.
  - intros t IH Hal v sv h b Hd Hca Hs Hok Hf. inversion Hal; subst. inversion Hd; subst. inversion Hca; subst.
    + injection Hs as <-. unfold rw. cbn [ser bde]. split; [reflexivity|]. apply (parses_pmap _ _ (de_option (bde c h0)) BOptional [0] None).
      apply (parses_bind_ret c ERead _ _ [0] false); [apply (parses_bool c false)|reflexivity].
    + cbn [rser] in Hs. apply option_map_some in Hs as (s & Hs & ->).
      destruct (IH H0 v0 s h0 b0) as [Hw Hp]; try assumption.
      unfold rw. cbn [ser bde]. rewrite wresult_seq_wr, wbytes_seq_wr. split; [exact Hw|].
      apply (parses_pmap _ _ (de_option (bde c h0)) BOptional _ (Some b0)).
      eapply parses_bind; [apply (parses_bool c true)|]. apply parses_pmap, Hp.
  - intros t IH Hal v sv h b Hd Hca Hs Hok Hf. inversion Hal; subst. inversion Hd; subst. inversion Hca; subst.
    cbn [rser] in Hs. apply option_map_some in Hs as (ss & Hs & ->).
    unfold body_ok, body_fits in Hok, Hf. cbn [every node_ok] in Hok, Hf.
    apply andb_prop in Hok as [Hl Hok]. apply andb_prop in Hf as [Hr Hf]. apply N.ltb_lt in Hl.
    destruct (typed_elems c omit t h0 vs bs ss (IH H0)) as [HF Hlen]; try assumption.
    destruct (rw_list c h0 ss bs HF) as (W2 & W3 & W4).
    unfold rw. cbn [ser ser_len bde]. unfold ser_u64. rewrite wresult_seq_wr, wbytes_seq_wr, W3. split; [exact W2|].
    replace (lenN vs) with (lenN bs) by (unfold lenN; rewrite Hlen; reflexivity).
    eapply parses_bind; [apply parses_u64, (lt_usize_64 c); assumption|].
    rewrite as_usize_id by exact Hl. apply parses_Alloc; [apply vec_room_alloc, Hr|].
    apply (parses_pmap _ _ _ BArray). apply parses_repeatN; [exact W4|reflexivity].
  - intros t IH Hal v sv h b Hd Hca Hs Hok Hf. inversion Hal; subst. inversion Hd; subst. inversion Hca; subst.
    eapply typed_map; eauto.
  - intros t IH Hal v sv h b Hd Hca Hs Hok Hf. inversion Hal; subst. inversion Hd; subst. inversion Hca; subst.
    eapply typed_map; eauto.
  - intros ts IH Hal v sv h b Hd Hca Hs Hok Hf. inversion Hal; subst. inversion Hd; subst. inversion Hca; subst.
    cbn [rser] in Hs. apply option_map_some in Hs as (l & Hl & ->).
    apply body_ok_tuple in Hok. apply body_fits_tuple in Hf as [Hr Hf].
    assert (HR : rws c hs (map snd l) bs).
    { apply (typed_members c omit (fun _ _ => false) (map (fun t => ([], (EmptyString, t))) ts)) with (vs := vs); try assumption.
      - apply Forall_map. cbn [fst snd]. rewrite Forall_forall in IH, H0 |- *. intros t Ht.
        split; [apply not_skipped_nil|]. split; [apply not_skipped_if_nil|]. apply IH; [exact Ht|apply H0, Ht].
      - rewrite map_map. cbn [snd]. rewrite map_id. assumption.
      - rewrite map_map. cbn [snd]. rewrite map_id. assumption.
      - rewrite map_map. cbn [fst snd]. exact Hl. }
    unfold rw. cbn [ser]. apply rw_tuple; assumption.
  - intros k fs IH Hal v sv h b Hd Hca Hs Hok Hf. inversion Hal as [| | | | | |? ? HA|]; subst. inversion Hd as [| | | | | |? ? hs HD|]; subst. inversion Hca as [| | | | | | |? ? vs bs HC|]; subst.
    cbn [rser] in Hs. apply body_ok_tuple in Hok. apply body_fits_tuple in Hf as [Hr Hf].
    assert (HT : Forall (fun f => skipped (fst f) \/ typed c omit (snd (snd f))) fs).
    { rewrite Forall_forall in IH, HA |- *. intros f Hin. destruct (HA f Hin); [left; assumption|right; apply IH; assumption]. }
    pose proof (typed_fields c omit fs HT hs vs bs) as HM.
    unfold rser_struct in Hs. destruct k.
    + apply option_map_some in Hs as (l & Hl & ->). pose proof (rw_tuple c hs _ bs Hr (HM l HD HC Hl Hok Hf)) as HR.
      unfold rw. cbn [ser]. rewrite <- (map_map snd ser l). exact HR.
    + destruct fs as [|[a1 [n1 t1]] [|f2 fs]].
      * cbn [map] in Hs. apply option_map_some in Hs as (l & Hl & ->). exact (rw_tuple c hs _ bs Hr (HM l HD HC Hl Hok Hf)).
      * cbn [map fst snd] in Hs. destruct (serde_skips a1 || serde_skips_if a1) eqn:E; [discriminate|]. apply orb_false_iff in E as [E1 E2].
        destruct vs as [|v [|v' vs]]; try discriminate. apply option_map_some in Hs as (s & Hs & ->).
        assert (Hl : ser_fields omit (map (fun f => (fst f, (fst (snd f), rser c omit (snd (snd f))))) [(a1, (n1, t1))]) [v] = Some [(n1, s)]).
        { cbn [map fst snd ser_fields]. rewrite E1, E2. cbn [orb andb]. rewrite Hs. reflexivity. }
        pose proof (rw_tuple c hs _ bs Hr (HM _ HD HC Hl Hok Hf)) as [G1 G2]. cbn [map snd] in G1, G2.
        change (wconcat [ser s]) with (wseq (ser s) WDone) in *. apply wresult_wseq_ok_iff in G1 as [G1 _].
        rewrite wbytes_wseq_done in G2 by exact G1. cbn [wbytes] in G2. rewrite app_nil_r in G2. split; assumption.
      * cbn [map] in Hs. apply option_map_some in Hs as (l & Hl & ->). exact (rw_tuple c hs _ bs Hr (HM l HD HC Hl Hok Hf)).
    + destruct fs as [|f fs]; cbn [map] in Hs; [|discriminate]. destruct vs; [|discriminate]. injection Hs as <-.
      inversion HD; subst. inversion HC; subst. exact (rw_tuple c [] [] [] Hr (rws_nil c)).
  - intros vs IH Hal. apply typed_enum; assumption.
  - intros Hal. inversion Hal.
  - intros i Hal. inversion Hal.
Qed.

(** ** Enums with a skipped variant before another one *)
Lemma describes_variants_len vs hs : describes_variants vs hs ->
  length hs = length (filter (fun v => negb (is_skip_field (fst v))) vs).
Proof.
  revert hs; induction vs as [|[a [k fs]] vs IH]; intros hs H; inversion H; subst; cbn [filter fst]; [reflexivity| |].
  - rewrite (proj2 (skip_iff a)) by assumption. cbn [negb]. apply IH; assumption.
  - rewrite (proj2 (skip_false a)) by assumption. cbn [negb length]. f_equal. apply IH; assumption.
Qed.
Lemma filter_length_le {A} (f : A -> bool) l : (length (filter f l) <= length l)%nat.
Proof. induction l as [|a l IH]; cbn [filter length]; [lia|]. destruct (f a); cbn [length]; lia. Qed.
Lemma describes_variants_short vs1 s vs2 v vs3 hs : skipped (fst s) -> Forall (fun v => skipped (fst v)) vs3 ->
  describes_variants (vs1 ++ s :: vs2 ++ v :: vs3) hs -> (length hs <= length (vs1 ++ s :: vs2))%nat.
Proof.
  intros Hs H3 Hd. rewrite (describes_variants_len _ _ Hd). rewrite filter_app. cbn [filter]. rewrite (proj2 (skip_iff _) Hs). cbn [negb].
  rewrite filter_app. cbn [filter]. rewrite !app_length. cbn [length].
  assert (E : filter (fun v : attrs * (style * list (attrs * (string * rty))) => negb (is_skip_field (fst v))) vs3 = []).
  { clear - H3. induction H3 as [|v vs H _ IH]; [reflexivity|]. cbn [filter]. rewrite (proj2 (skip_iff _) H). exact IH. }
  rewrite E. pose proof (filter_length_le (fun v : attrs * (style * list (attrs * (string * rty))) => negb (is_skip_field (fst v))) vs1).
  pose proof (filter_length_le (fun v : attrs * (style * list (attrs * (string * rty))) => negb (is_skip_field (fst v))) vs2).
  destruct (negb _); cbn [length]; lia.
Qed.
(** Whatever the variant, its index comes first. *)
Lemma rser_variant_bytes omit i k fs l sv : rser_variant omit i k fs l = Some sv -> exists u, wbytes (ser sv) = enc_u32 i ++ u.
Proof.
  assert (U : exists u, wbytes (ser (SUnitVariant i)) = enc_u32 i ++ u) by (exists []; reflexivity).
  unfold rser_variant. destruct k.
  - intros H; apply option_map_some in H as (x & _ & ->). cbn [ser]. unfold ser_u32. rewrite wbytes_seq_wr. eauto.
  - destruct fs as [|[a [n f]] [|f2 fs]].
    + intros H; apply option_map_some in H as (x & _ & ->). cbn [ser]. unfold ser_u32. rewrite wbytes_seq_wr. eauto.
    + destruct l as [|v [|v' l]]; try discriminate. destruct (serde_skips a); [intros H; injection H as <-; exact U|].
      intros H; apply option_map_some in H as (x & _ & ->). cbn [ser]. unfold ser_u32. rewrite wbytes_seq_wr. eauto.
    + intros H; apply option_map_some in H as (x & _ & ->). cbn [ser]. unfold ser_u32. rewrite wbytes_seq_wr. eauto.
  - destruct fs; [|discriminate]. destruct l; [|discriminate]. intros H; injection H as <-. exact U.
Qed.
Lemma rser_enum_bytes c omit vs i l sv : (forall var, pickN vs i = Some var -> ~ skipped (fst var)) ->
  rser c omit (REnum vs) (VVariant i l) = Some sv -> exists u, wbytes (ser sv) = enc_u32 i ++ u.
Proof.
  cbn [rser]. rewrite pickN_map. destruct (pickN vs i) as [[a [k fs]]|]; [|discriminate]. intros Ha. cbn [option_map fst snd].
  rewrite serde_skips_eq, (proj2 (skip_false a)) by exact (Ha _ eq_refl). apply rser_variant_bytes.
Qed.
Lemma enum_out_of_range c omit vs hs i l sv rest : wf_cfg c -> i < 2 ^ 32 -> lenN hs <= i ->
  (forall var, pickN vs i = Some var -> ~ skipped (fst var)) ->
  rser c omit (REnum vs) (VVariant i l) = Some sv ->
  run c (bde c (HEnum hs)) (wbytes (ser sv) ++ rest) = OErr ERead.
Proof.
  intros Hc Hi Hl Hw Hs. destruct (rser_enum_bytes _ _ _ _ _ _ Hw Hs) as (u & ->). rewrite <- app_assoc. cbn [bde]. rewrite run_bind.
  unfold de_u32. rewrite (proj1 (parses_u32 c ERead i Hi)). cbn [obind]. rewrite as_usize_id.
  - rewrite pickN_map. rewrite (proj2 (pickN_none hs i)) by exact Hl. reflexivity.
  - destruct (usize_bits_cases c Hc) as [->| ->]; [exact Hi|]. eapply N.lt_trans; [exact Hi|reflexivity].
Qed.
Lemma pickN_app_at {A} (l1 : list A) a l2 : pickN (l1 ++ a :: l2) (lenN l1) = Some a.
Proof.
  induction l1 as [|x l1 IH]; [reflexivity|]. cbn [app pickN]. rewrite lenN_cons. destruct (N.eqb_spec (lenN l1 + 1) 0); [lia|].
  rewrite N.add_sub. exact IH.
Qed.
Lemma late_variant_unreadable c omit vs1 s vs2 v vs3 h l sv rest : wf_cfg c ->
  skipped (fst s) -> ~ skipped (fst v) -> Forall (fun v => skipped (fst v)) vs3 ->
  let vs := vs1 ++ s :: vs2 ++ v :: vs3 in
  let i := lenN (vs1 ++ s :: vs2) in
  describes (REnum vs) h -> i < 2 ^ 32 -> rser c omit (REnum vs) (VVariant i l) = Some sv ->
  run c (bde c h) (wbytes (ser sv) ++ rest) = OErr ERead.
Proof.
  intros Hc Hs Hv H3 vs i Hd Hi Hr. inversion Hd; subst. eapply enum_out_of_range; [exact Hc|exact Hi| | |exact Hr].
  2:{ intros var E. replace var with v; [exact Hv|]. unfold vs, i in E. rewrite app_comm_cons, app_assoc in E. rewrite pickN_app_at in E. congruence. }
  unfold i, lenN. apply describes_variants_short in H0; [|assumption|assumption]. lia.
Qed.

(** ** Typed and dynamic writers make the same writes *)
Lemma wseq_done_r w : wseq w WDone = w.
Proof. induction w as [| | |bs w IH]; cbn [wseq]; [reflexivity|reflexivity|reflexivity|]. rewrite IH; reflexivity. Qed.
Lemma leaf_same c l v sv b : leaf_sval c l v = Some sv -> leaf_body c l v = Some b -> ser sv = bser c b.
Proof.
  intros Hs Hb. unfold bser. destruct l, v; try discriminate Hs; cbn [leaf_sval leaf_body] in Hs, Hb; injection Hs as <-;
    try (injection Hb as <-); cbn [body_sval]; try reflexivity.
  - apply ser_fmt_biguint.
  - apply ser_fmt_bigint.
  - pose proof (ser_fmt_bigdecimal c (digits, scale)) as E. destruct (bigdecimal_from c (digits, scale)) as [w|]; [|discriminate].
    cbn [option_map] in Hb. injection Hb as <-. exact E.
Qed.
Definition same (c : cfg) (omit : string -> rval -> bool) (t : rty) : Prop := forall v sv h b,
  describes t h -> carries c t v b -> rser c omit t v = Some sv -> in_order v = true -> ser sv = bser c b.
Lemma same_fields c omit fs : Forall (fun f => skipped (fst f) \/ same c omit (snd (snd f))) fs ->
  forall hs vs bs l, describes_fields fs hs -> carries_fields c fs vs bs ->
  ser_fields omit (map (fun f => (fst f, (fst (snd f), rser c omit (snd (snd f))))) fs) vs = Some l ->
  forallb in_order vs = true -> map (fun kv => ser (snd kv)) l = map (bser c) bs.
Proof.
  induction 1 as [|[a [n t]] fs Ht _ IH]; intros hs vs bs l Hd Hca Hs Ho; cbn [map fst snd] in *.
  - inversion Hd; subst. inversion Hca; subst. cbn [ser_fields] in Hs. injection Hs as <-. reflexivity.
  - destruct vs as [|v vs]; [inversion Hca|]. cbn [ser_fields] in Hs. rewrite serde_skips_eq, serde_skips_if_eq in Hs.
    cbn [forallb] in Ho. apply andb_prop in Ho as [Ho1 Ho2]. inversion Hd; subst.
    + rewrite (proj2 (skip_iff a)) in Hs by assumption. cbn [orb] in Hs.
      inversion Hca; subst; [|contradiction]. eapply IH; eassumption.
    + rewrite (proj2 (skip_false a)), (proj2 (skip_if_false a)) in Hs by assumption. cbn [orb andb] in Hs.
      inversion Hca; subst; [contradiction|].
      destruct (rser c omit t v) as [s|] eqn:E1; [|discriminate].
      destruct (ser_fields _ _ vs) as [l'|] eqn:E2; [|discriminate]. injection Hs as <-. cbn [map snd].
      destruct Ht as [Ht|Ht]; [contradiction|]. f_equal; [eapply Ht; eassumption|eapply IH; eassumption].
Qed.
Lemma same_members c omit om (fs : list (attrs * (string * rty))) :
  Forall (fun f => ~ skipped (fst f) /\ ~ skipped_if (fst f) /\ same c omit (snd (snd f))) fs ->
  forall hs vs bs l, describes_all (map (fun f => snd (snd f)) fs) hs -> carries_all c (map (fun f => snd (snd f)) fs) vs bs ->
  ser_fields om (map (fun f => (fst f, (fst (snd f), rser c omit (snd (snd f))))) fs) vs = Some l ->
  forallb in_order vs = true -> map (fun kv => ser (snd kv)) l = map (bser c) bs.
Proof.
  induction 1 as [|[a [n t]] fs (Ha & Hi & Ht) _ IH]; intros hs vs bs l Hd Hca Hs Ho; cbn [map fst snd] in *.
  - inversion Hd; subst. inversion Hca; subst. cbn [ser_fields] in Hs. injection Hs as <-. reflexivity.
  - destruct vs as [|v vs]; [inversion Hca|]. cbn [ser_fields] in Hs. rewrite serde_skips_eq, serde_skips_if_eq in Hs.
    cbn [forallb] in Ho. apply andb_prop in Ho as [Ho1 Ho2].
    inversion Hd; subst. rewrite (proj2 (skip_false a)), (proj2 (skip_if_false a)) in Hs by assumption. cbn [orb andb] in Hs.
    inversion Hca; subst.
    destruct (rser c omit t v) as [s|] eqn:E1; [|discriminate].
    destruct (ser_fields _ _ vs) as [l'|] eqn:E2; [|discriminate]. injection Hs as <-. cbn [map snd].
    f_equal; [eapply Ht; eassumption|eapply IH; eassumption].
Qed.
Lemma same_elems c omit t h vs bs ss : same c omit t -> describes t h ->
  carries_all c (map (fun _ => t) vs) vs bs -> all_some (map (rser c omit t) vs) = Some ss ->
  forallb in_order vs = true -> map ser ss = map (bser c) bs /\ length vs = length bs.
Proof.
  intros Ht Hd. revert bs ss; induction vs as [|v vs IH]; intros bs ss Hca Hs Ho; cbn [map] in *.
  - inversion Hca; subst. injection Hs as <-. auto.
  - apply all_some_cons in Hs as (s & ss' & H1 & H2 & ->). inversion Hca; subst. cbn [forallb] in Ho. apply andb_prop in Ho as [Ho1 Ho2].
    destruct (IH bs0 ss') as [IH1 IH2]; try assumption. cbn [map length]. split; [|lia]. f_equal; [eapply Ht; eassumption|assumption].
Qed.
Lemma bser_tuple c bs : bser c (BTuple bs) = wconcat (map (bser c) bs).
Proof. unfold bser. cbn [body_sval ser]. rewrite map_map. reflexivity. Qed.
Lemma bser_variant c i bs : bser c (BEnum i (variant_body bs)) = wseq (ser_u32 i) (wconcat (map (bser c) bs)).
Proof.
  change (bser c (BEnum i (variant_body bs))) with (wseq (ser_u32 i) (bser c (variant_body bs))). f_equal.
  destruct bs as [|b [|b' bs]]; cbn [variant_body].
  - reflexivity.
  - cbn [map]. change (wconcat [bser c b]) with (wseq (bser c b) WDone). rewrite wseq_done_r. reflexivity.
  - apply bser_tuple.
Qed.
Lemma same_map c omit t : same c omit t -> forall vs m h sv,
  describes t h -> carries_map c t vs m ->
  option_map (SMap (Some (lenN vs))) (map_some (fun kv => option_map (pair (SStr (fst kv))) (rser c omit t (snd kv))) vs) = Some sv ->
  sorted_keys vs = true -> forallb (fun kv => in_order (snd kv)) vs = true -> ser sv = bser c (BMap m).
Proof.
  intros Ht vs m h sv Hd Hca Hs Hsv Ho. inversion Hca as [? ? bs ? Hnd Hall Hperm Hsort]; subst.
  apply option_map_some in Hs as (l & Hs & ->).
  assert (Hmm : map (fun _ => t) vs = map (fun _ => t) (map snd vs)) by (rewrite map_map; reflexivity).
  rewrite Hmm in Hall.
  assert (Hsplit : exists ss, all_some (map (rser c omit t) (map snd vs)) = Some ss /\ l = combine (map SStr (map fst vs)) ss).
  { clear - Hs. unfold map_some in Hs. revert l Hs. induction vs as [|[k v] vs IH]; intros l Hs; cbn [map fst snd] in *.
    - injection Hs as <-. exists []. auto.
    - apply all_some_cons in Hs as (a & l' & H1 & H2 & ->). apply option_map_some in H1 as (s & H1 & ->).
      destruct (IH l' H2) as (ss & H3 & ->). exists (s :: ss). rewrite all_some_cons. split; [eauto|reflexivity]. }
  destruct Hsplit as (ss & Hss & ->).
  assert (Ho' : forallb in_order (map snd vs) = true).
  { rewrite forallb_forall in Ho |- *. intros x Hx. apply in_map_iff in Hx as (kv & <- & Hx). apply (Ho kv Hx). }
  destruct (same_elems c omit t h (map snd vs) bs ss Ht Hd Hall Hss Ho') as [HE Hlen].
  rewrite map_length in Hlen.
  assert (Hlen' : length (map fst vs) = length bs) by (rewrite map_length; exact Hlen).
  assert (Em : m = combine (map fst vs) bs).
  { assert (Hsc : sorted_keys (combine (map fst vs) bs) = true).
    { clear - Hsv Hlen. revert bs Hlen. induction vs as [|[k v] vs IH]; intros [|b bs] Hl; try discriminate; [reflexivity|].
      cbn [map fst combine]. destruct vs as [|[k' v'] vs].
      - destruct bs; [reflexivity|discriminate].
      - destruct bs as [|b' bs]; [discriminate|]. specialize (IH (proj1 (sorted_cons _ _ _ Hsv)) (b' :: bs)).
        cbn [map fst combine sorted_keys] in IH, Hsv |- *. destruct (bytes_cmp k k'); try discriminate. apply IH. cbn [length] in Hl |- *; lia. }
    pose proof (insert_all_perm _ m (eq_ind_r (fun x => NoDup x) Hnd (map_fst_combine _ _ Hlen')) Hperm) as E.
    unfold insert_all in E. rewrite !insert_all_sorted in E; try assumption; try (apply Forall_forall; intros; constructor).
    symmetry. exact E. }
  subst m. unfold bser. cbn [body_sval ser ser_len].
  assert (El : lenN vs = lenN (combine (map fst vs) bs)) by (unfold lenN; rewrite combine_length, map_length; f_equal; lia).
  rewrite <- El. f_equal. f_equal.
  clear - HE Hlen'. revert bs ss HE Hlen'. generalize (map fst vs) as ks. induction ks as [|k ks IH]; intros [|b bs] [|s ss] HE Hl; try discriminate; [reflexivity|].
  cbn [map combine fst snd ser_key]. cbn [map] in HE. injection HE as HE1 HE2. f_equal; [f_equal; exact HE1|]. apply IH; [exact HE2|cbn [length] in Hl; lia].
Qed.
Lemma same_all c omit t : aligned t -> same c omit t.
Proof.
  apply (rty_ind2 (fun t => aligned t -> same c omit t)); clear t.
  - intros l _ v sv h b Hd Hca Hs Ho. inversion Hca; subst. eapply leaf_same; eassumption.
  - intros t IH Hal v sv h b Hd Hca Hs Ho. inversion Hal; subst. inversion Hd as [|? h0 Hd0| | | | | |]; subst. inversion Hca; subst.
    + injection Hs as <-. reflexivity.
    + cbn [rser] in Hs. apply option_map_some in Hs as (s & Hs & ->). unfold bser. cbn [body_sval ser]. f_equal.
      eapply (IH H0); eassumption.
  - intros t IH Hal v sv h b Hd Hca Hs Ho. inversion Hal; subst. inversion Hd as [| |? h0 Hd0| | | | |]; subst. inversion Hca; subst.
    cbn [rser] in Hs. apply option_map_some in Hs as (ss & Hs & ->). cbn [in_order] in Ho.
    destruct (same_elems c omit t h0 vs bs ss (IH H0)) as [HE Hlen]; try assumption.
    unfold bser. cbn [body_sval ser ser_len]. rewrite map_map. unfold lenN. rewrite Hlen. f_equal. f_equal. exact HE.
  - intros t IH Hal v sv h b Hd Hca Hs Ho. inversion Hal; subst. inversion Hd as [| | |? h0 Hd0| | | |]; subst. inversion Hca; subst.
    cbn [in_order] in Ho. apply andb_prop in Ho as [Ho1 Ho2]. eapply same_map; eauto.
  - intros t IH Hal v sv h b Hd Hca Hs Ho. inversion Hal; subst. inversion Hd as [| | | |? h0 Hd0| | |]; subst. inversion Hca; subst.
    cbn [in_order] in Ho. apply andb_prop in Ho as [Ho1 Ho2]. eapply same_map; eauto.
  - intros ts IH Hal v sv h b Hd Hca Hs Ho. inversion Hal; subst. inversion Hd as [| | | | |? hs HL HD| |]; subst.
    inversion Hca as [| | | |? vs bs HC| | | |]; subst.
    cbn [rser] in Hs. apply option_map_some in Hs as (l & Hl & ->). cbn [in_order] in Ho.
    assert (HR : map (fun kv => ser (snd kv)) l = map (bser c) bs).
    { apply (same_members c omit (fun _ _ => false) (map (fun t => ([], (EmptyString, t))) ts)) with (vs := vs) (hs := hs); try assumption.
      - apply Forall_map. cbn [fst snd]. rewrite Forall_forall in IH, H0 |- *. intros t Ht.
        split; [apply not_skipped_nil|]. split; [apply not_skipped_if_nil|]. apply IH; [exact Ht|apply H0, Ht].
      - rewrite map_map. cbn [snd]. rewrite map_id. assumption.
      - rewrite map_map. cbn [snd]. rewrite map_id. assumption.
      - rewrite map_map. cbn [fst snd]. exact Hl. }
    rewrite bser_tuple. cbn [ser]. rewrite map_map. f_equal. exact HR.
  - intros k fs IH Hal v sv h b Hd Hca Hs Ho. inversion Hal as [| | | | | |? ? HA|]; subst.
    inversion Hd as [| | | | | |? ? hs HD|]; subst. inversion Hca as [| | | | | | |? ? vs bs HC|]; subst.
    cbn [rser] in Hs. cbn [in_order] in Ho. rewrite bser_tuple.
    assert (HT : Forall (fun f => skipped (fst f) \/ same c omit (snd (snd f))) fs).
    { rewrite Forall_forall in IH, HA |- *. intros f Hin. destruct (HA f Hin); [left; assumption|right; apply IH; assumption]. }
    pose proof (same_fields c omit fs HT hs vs bs) as HM.
    unfold rser_struct in Hs. destruct k.
    + apply option_map_some in Hs as (l & Hl & ->). cbn [ser]. f_equal. exact (HM l HD HC Hl Ho).
    + destruct fs as [|[a1 [n1 t1]] [|f2 fs]].
      * cbn [map] in Hs. apply option_map_some in Hs as (l & Hl & ->). cbn [ser]. rewrite map_map. f_equal. exact (HM l HD HC Hl Ho).
      * cbn [map fst snd] in Hs. destruct (serde_skips a1 || serde_skips_if a1) eqn:E; [discriminate|]. apply orb_false_iff in E as [E1 E2].
        destruct vs as [|v [|v' vs]]; try discriminate. apply option_map_some in Hs as (s & Hs & ->).
        assert (Hl : ser_fields omit (map (fun f => (fst f, (fst (snd f), rser c omit (snd (snd f))))) [(a1, (n1, t1))]) [v] = Some [(n1, s)]).
        { cbn [map fst snd ser_fields]. rewrite E1, E2. cbn [orb andb]. rewrite Hs. reflexivity. }
        rewrite <- (HM _ HD HC Hl Ho). cbn [map snd]. change (wconcat [ser s]) with (wseq (ser s) WDone). rewrite wseq_done_r. reflexivity.
      * cbn [map] in Hs. apply option_map_some in Hs as (l & Hl & ->). cbn [ser]. rewrite map_map. f_equal. exact (HM l HD HC Hl Ho).
    + destruct fs as [|f fs]; cbn [map] in Hs; [|discriminate]. destruct vs; [|discriminate]. injection Hs as <-. inversion HC; subst. reflexivity.
  - intros vs IH Hal v sv h b Hd Hca Hs Ho. inversion Hal as [| | | | | | |kept tail Hk Ht E]; subst.
    inversion Hd as [| | | | | | |? hs Hdv]; subst. inversion Hca as [| | | | | | | |? i a k fs vals bs Hp Ha Hall]; subst.
    cbn [rser] in Hs. rewrite pickN_map, Hp in Hs. cbn [option_map fst snd] in Hs. rewrite serde_skips_eq, (proj2 (skip_false a)) in Hs by exact Ha.
    destruct (variants_align kept tail hs i a k fs) as (Hin & fhs & Hpick & Hdf); try assumption.
    { eapply Forall_impl; [|exact Hk]. cbv beta. tauto. }
    cbn [in_order] in Ho.
    assert (Hmem : Forall (fun f => ~ skipped (fst f) /\ ~ skipped_if (fst f) /\ same c omit (snd (snd f))) fs).
    { rewrite Forall_forall in Hk. apply Hk in Hin as Hin'. cbn [snd] in Hin'. destruct Hin' as [_ Hin'].
      rewrite Forall_forall in IH. specialize (IH _ (in_or_app kept tail _ (or_introl Hin))). cbn [snd] in IH.
      rewrite Forall_forall in Hin', IH |- *. intros f Hfin. destruct (Hin' f Hfin) as (H1 & H2 & H3). auto. }
    pose proof (same_members c omit omit fs Hmem fhs vals bs) as HM. rewrite bser_variant.
    unfold rser_variant in Hs. destruct k.
    + apply option_map_some in Hs as (l & Hl & ->). cbn [ser]. f_equal. f_equal. exact (HM l Hdf Hall Hl Ho).
    + destruct fs as [|[a1 [n1 t1]] [|f2 fs]].
      * cbn [map] in Hs. apply option_map_some in Hs as (l & Hl & ->). cbn [ser]. rewrite map_map. f_equal. f_equal. exact (HM l Hdf Hall Hl Ho).
      * cbn [map fst snd] in Hs. destruct vals as [|v [|v' vals]]; try discriminate. rewrite serde_skips_eq in Hs.
        inversion Hmem as [|? ? (G1 & G2 & G3) _]; subst. cbn [fst snd] in G1, G2, G3. rewrite (proj2 (skip_false a1)) in Hs by exact G1.
        apply option_map_some in Hs as (s & Hs & ->).
        assert (Hl : ser_fields omit (map (fun f => (fst f, (fst (snd f), rser c omit (snd (snd f))))) [(a1, (n1, t1))]) [v] = Some [(n1, s)]).
        { cbn [map fst snd ser_fields].
          rewrite serde_skips_eq, serde_skips_if_eq, (proj2 (skip_false a1)), (proj2 (skip_if_false a1)), Hs by assumption. reflexivity. }
        rewrite <- (HM _ Hdf Hall Hl Ho). cbn [map snd]. change (wconcat [ser s]) with (wseq (ser s) WDone). rewrite wseq_done_r. reflexivity.
      * cbn [map] in Hs. apply option_map_some in Hs as (l & Hl & ->). cbn [ser]. rewrite map_map. f_equal. f_equal. exact (HM l Hdf Hall Hl Ho).
    + destruct fs as [|f fs]; cbn [map] in Hs; [|discriminate]. destruct vals; [|discriminate]. injection Hs as <-.
      inversion Hall; subst. cbn [map wconcat fold_right ser]. rewrite wseq_done_r. reflexivity.
  - intros Hal. inversion Hal.
  - intros i Hal. inversion Hal.
Qed.
