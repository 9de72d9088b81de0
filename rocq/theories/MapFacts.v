(** * Maps: lemmas behind C16 and C17. *)
From Coq Require Import Permutation Sorted.
From Verif Require Import Base BaseFacts Varint Serde Typing SpecMap PrimFacts SerdeFacts SerdeMore.

Lemma bytes_cmp_lt_iff a b : bytes_cmp a b = Lt <-> lex_lt a b.
Proof.
  split.
  - revert b; induction a as [|x a IH]; intros [|y b]; cbn [bytes_cmp]; try discriminate.
    + intros _. exists []. left. exists y, b. auto.
    + destruct (N.compare_spec x y) as [->|H|H]; intros E; try discriminate.
      * destruct (IH b E) as (p & [(z & t & -> & ->)|(u & s & v & t & -> & -> & Hl)]); exists (y :: p).
        -- left. exists z, t; auto.
        -- right. exists u, s, v, t; auto.
      * exists []. right. exists x, a, y, b. auto.
  - intros (p & [(y & t & -> & ->)|(x & s & y & t & -> & -> & Hl)]).
    + induction p as [|z p IH]; cbn [app bytes_cmp]; [reflexivity|]. rewrite N.compare_refl; exact IH.
    + induction p as [|z p IH]; cbn [app bytes_cmp]; [destruct (N.compare_spec x y); try lia; reflexivity|].
      rewrite N.compare_refl; exact IH.
Qed.
Lemma sorted_keys_lex {V} (m : list (list N * V)) : sorted_keys m = true -> StronglySorted lex_lt (map fst m).
Proof.
  induction m as [|[k v] m IH]; intros H; cbn [map fst]; constructor.
  - apply sorted_cons in H as [H _]. apply IH, H.
  - apply sorted_cons in H as [_ H]. apply Forall_map. eapply Forall_impl; [|exact H].
    intros kv Hkv; apply bytes_cmp_lt_iff, Hkv.
Qed.

(** First-match lookup. *)
Fixpoint lookup {V} (k : list N) (m : list (list N * V)) : option V :=
  match m with
  | [] => None
  | (k', v) :: t => if list_eq_dec N.eq_dec k k' then Some v else lookup k t
  end.
Lemma lookup_insert {V} j k (v : V) m :
  lookup j (map_insert k v m) = if list_eq_dec N.eq_dec j k then Some v else lookup j m.
Proof.
  induction m as [|[k' v'] m IH]; cbn [map_insert lookup]; [reflexivity|].
  destruct (bytes_cmp k k') eqn:E; cbn [lookup].
  - apply bytes_cmp_eq in E; subst k'. destruct (list_eq_dec N.eq_dec j k); reflexivity.
  - reflexivity.
  - rewrite IH. destruct (list_eq_dec N.eq_dec j k') as [->|]; [|reflexivity].
    destruct (list_eq_dec N.eq_dec k' k) as [->|]; [rewrite bytes_cmp_refl in E; discriminate|reflexivity].
Qed.
Definition insert_all {V} (l m : list (list N * V)) : list (list N * V) :=
  fold_left (fun acc kv => map_insert (fst kv) (snd kv) acc) l m.
Lemma lookup_insert_all {V} j (l m : list (list N * V)) :
  lookup j (insert_all l m) = match last_binding j l with Some v => Some v | None => lookup j m end.
Proof.
  revert m; induction l as [|[k v] l IH]; intros m; cbn [insert_all fold_left last_binding]; [reflexivity|].
  unfold insert_all in IH. rewrite IH. cbn [fst snd]. destruct (last_binding j l); [reflexivity|].
  rewrite lookup_insert. destruct (list_eq_dec N.eq_dec j k); reflexivity.
Qed.
Lemma insert_all_sorted_out {V} (l m : list (list N * V)) :
  sorted_keys m = true -> sorted_keys (insert_all l m) = true.
Proof.
  revert m; induction l as [|[k v] l IH]; intros m H; cbn [insert_all fold_left]; [exact H|].
  apply IH, map_insert_sorted, H.
Qed.
Lemma lookup_below {V} k (m : list (list N * V)) :
  Forall (fun kv => bytes_cmp k (fst kv) = Lt) m -> lookup k m = None.
Proof.
  induction 1 as [|[k' v'] m H Hm IH]; [reflexivity|]. cbn [lookup].
  destruct (list_eq_dec N.eq_dec k k') as [->|]; [cbn [fst] in H; rewrite bytes_cmp_refl in H; discriminate|exact IH].
Qed.
Lemma sorted_lookup_ext {V} (m m' : list (list N * V)) :
  sorted_keys m = true -> sorted_keys m' = true -> (forall k, lookup k m = lookup k m') -> m = m'.
Proof.
  revert m'; induction m as [|[k v] m IH]; intros m' Hm Hm' H.
  - destruct m' as [|[k' v'] m']; [reflexivity|]. specialize (H k'); cbn [lookup] in H.
    destruct (list_eq_dec N.eq_dec k' k'); [discriminate|congruence].
  - destruct m' as [|[k' v'] m'].
    { specialize (H k); cbn [lookup] in H. destruct (list_eq_dec N.eq_dec k k); [discriminate|congruence]. }
    apply sorted_cons in Hm as [Hm Hk]. apply sorted_cons in Hm' as [Hm' Hk'].
    assert (E : k = k').
    { destruct (bytes_cmp k k') eqn:E; [apply bytes_cmp_eq, E| |].
      - exfalso. specialize (H k). cbn [lookup] in H. destruct (list_eq_dec N.eq_dec k k); [|congruence].
        destruct (list_eq_dec N.eq_dec k k') as [->|]; [rewrite bytes_cmp_refl in E; discriminate|].
        rewrite lookup_below in H; [discriminate|]. eapply Forall_impl; [|exact Hk'].
        intros kv Hkv; eapply bytes_cmp_trans; eassumption.
      - exfalso. assert (E' : bytes_cmp k' k = Lt) by (rewrite bytes_cmp_antisym, E; reflexivity).
        specialize (H k'). cbn [lookup] in H. destruct (list_eq_dec N.eq_dec k' k') in H; [|congruence].
        destruct (list_eq_dec N.eq_dec k' k) as [->|]; [rewrite bytes_cmp_refl in E'; discriminate|].
        rewrite lookup_below in H; [discriminate|]. eapply Forall_impl; [|exact Hk].
        intros kv Hkv; eapply bytes_cmp_trans; eassumption. }
    subst k'. pose proof (H k) as Hv. cbn [lookup] in Hv. destruct (list_eq_dec N.eq_dec k k); [|congruence].
    injection Hv as ->. f_equal. apply IH; [exact Hm|exact Hm'|].
    intros j. specialize (H j). cbn [lookup] in H. destruct (list_eq_dec N.eq_dec j k) as [->|]; [|exact H].
    rewrite !lookup_below; auto.
Qed.
Lemma last_binding_in {V} k (v : V) l : NoDup (map fst l) -> (last_binding k l = Some v <-> In (k, v) l).
Proof.
  induction l as [|[k' v'] l IH]; cbn [map fst last_binding]; intros Hnd; [split; [discriminate|intros []]|].
  inversion Hnd as [|? ? Hn Hnd']; subst. specialize (IH Hnd').
  destruct (last_binding k l) as [w|] eqn:E.
  - split.
    + intros H; injection H as ->. right. apply IH; reflexivity.
    + intros [H|H]; [|apply IH, H]. injection H as -> ->. exfalso; apply Hn.
      clear - E. induction l as [|[k' v'] l IHl]; cbn [last_binding map fst] in *; [discriminate|].
      destruct (last_binding k l) eqn:E'; [right; apply IHl; exact E|].
      destruct (list_eq_dec N.eq_dec k k') as [->|]; [left; reflexivity|discriminate].
  - destruct (list_eq_dec N.eq_dec k k') as [->|Hk]; split.
    + intros H; injection H as ->; left; reflexivity.
    + intros [H|H]; [injection H as ->; reflexivity|]. apply IH in H; discriminate.
    + discriminate.
    + intros [H|H]; [injection H as -> ->; congruence|]. apply IH in H; discriminate.
Qed.
Lemma last_binding_perm {V} (l l' : list (list N * V)) k :
  NoDup (map fst l) -> Permutation l l' -> last_binding k l = last_binding k l'.
Proof.
  intros Hnd Hp. assert (Hnd' : NoDup (map fst l')) by (eapply Permutation_NoDup; [apply Permutation_map, Hp|exact Hnd]).
  destruct (last_binding k l) as [v|] eqn:E.
  - symmetry. apply last_binding_in; [exact Hnd'|]. apply last_binding_in in E; [|exact Hnd].
    eapply Permutation_in; eassumption.
  - destruct (last_binding k l') as [v|] eqn:E'; [|reflexivity].
    apply last_binding_in in E'; [|exact Hnd']. apply Permutation_sym in Hp.
    eapply Permutation_in in E'; [|exact Hp]. apply last_binding_in in E'; [congruence|exact Hnd].
Qed.
Lemma insert_all_perm {V} (l l' : list (list N * V)) :
  NoDup (map fst l) -> Permutation l l' -> insert_all l [] = insert_all l' [].
Proof.
  intros Hnd Hp. apply sorted_lookup_ext; try (apply insert_all_sorted_out; reflexivity).
  intros k. rewrite !lookup_insert_all, (last_binding_perm l l' k Hnd Hp). reflexivity.
Qed.
Lemma lookup_last {V} k (m : list (list N * V)) : sorted_keys m = true -> lookup k m = last_binding k m.
Proof.
  induction m as [|[k' v'] m IH]; intros H; [reflexivity|]. apply sorted_cons in H as [H Hk].
  cbn [lookup last_binding]. rewrite <- IH by exact H.
  destruct (list_eq_dec N.eq_dec k k') as [->|]; [rewrite lookup_below by exact Hk; reflexivity|].
  destruct (lookup k m); reflexivity.
Qed.

(** What a BTreeMap decodes to, whatever the order of entries and duplicates. *)
Lemma parses_map_any c d l : wf_cfg c -> 4096 <= heap_limit c -> wf_dty d = true ->
  lenN l < 2 ^ usize_bits c ->
  Forall (fun kv => str_ok c (fst kv) = true /\ has_ty c d (snd kv) = true) l ->
  wresult (ser (SMap (Some (lenN l)) (entries l))) = WeOk /\
  parses c ERead (de c (DMap d)) (wbytes (ser (SMap (Some (lenN l)) (entries l))))
    (SMap (Some (lenN (insert_all l []))) (entries (insert_all l []))).
Proof.
  intros Hc Hh Hd Hl HF.
  assert (Hm : Forall (fun kv => str_ok c (fst kv) = true /\ rt c d (snd kv)) l).
  { eapply Forall_impl; [|exact HF]. intros kv [H1 H2]. split; [exact H1|apply roundtrip; assumption]. }
  unfold entries at 1 2. cbn [ser ser_len]. unfold ser_u64. rewrite wbytes_seq_wr, wresult_seq_wr, map_map. cbn [fst snd ser_key].
  destruct (wconcat_ok (fun kv => wseq (ser_str (fst kv)) (ser (snd kv))) l) as [Hw Hb].
  { eapply Forall_impl; [|exact Hm]. intros kv [_ [Hw _]]. exact Hw. }
  rewrite Hw, Hb. split; [reflexivity|].
  assert (E : map (fun kv => wbytes (wseq (ser_str (fst kv)) (ser (snd kv)))) l =
              map (fun kv => enc_str (fst kv) ++ wbytes (ser (snd kv))) l).
  { apply map_ext; intros kv. unfold ser_str, ser_u64, enc_str. cbn [wseq wr wbytes]. rewrite <- app_assoc. reflexivity. }
  rewrite E. cbn [de].
  apply (parses_pmap _ _ (de_map c (de c d)) (fun m => SMap (Some (lenN m)) (map (fun kv => (SStr (fst kv), snd kv)) m))).
  apply (parses_map c (de c d) (fun kv => wbytes (ser (snd kv))) l); [exact Hc|exact Hl|].
  eapply Forall_impl; [|exact Hm]. intros kv [H1 [_ H2]]; auto.
Qed.
Lemma map_decode_any c d l rest : wf_cfg c -> 4096 <= heap_limit c -> wf_dty d = true ->
  lenN l < 2 ^ usize_bits c ->
  Forall (fun kv => str_ok c (fst kv) = true /\ has_ty c d (snd kv) = true) l ->
  wresult (ser (SMap (Some (lenN l)) (entries l))) = WeOk /\
  exists m, run c (de c (DMap d)) (wbytes (ser (SMap (Some (lenN l)) (entries l))) ++ rest) =
              OOk (SMap (Some (lenN m)) (entries m)) rest /\
    StronglySorted lex_lt (map fst m) /\ (forall k, last_binding k m = last_binding k l).
Proof.
  intros Hc Hh Hd Hl HF. destruct (parses_map_any c d l Hc Hh Hd Hl HF) as [Hw [Hp _]].
  split; [exact Hw|]. exists (insert_all l []). split; [apply Hp|].
  assert (Hs : sorted_keys (insert_all l []) = true) by (apply insert_all_sorted_out; reflexivity).
  split; [apply sorted_keys_lex, Hs|].
  intros k. rewrite <- lookup_last by exact Hs. rewrite lookup_insert_all. destruct (last_binding k l); reflexivity.
Qed.
Lemma map_decode_perm c d l l' rest : wf_cfg c -> 4096 <= heap_limit c -> wf_dty d = true ->
  lenN l < 2 ^ usize_bits c ->
  Forall (fun kv => str_ok c (fst kv) = true /\ has_ty c d (snd kv) = true) l ->
  NoDup (map fst l) -> Permutation l l' ->
  run c (de c (DMap d)) (wbytes (ser (SMap (Some (lenN l')) (entries l'))) ++ rest) =
  run c (de c (DMap d)) (wbytes (ser (SMap (Some (lenN l)) (entries l))) ++ rest).
Proof.
  intros Hc Hh Hd Hl HF Hnd Hp.
  rewrite (proj1 (proj2 (parses_map_any c d l Hc Hh Hd Hl HF))).
  rewrite (insert_all_perm l l' Hnd Hp). apply parses_map_any; try assumption.
  - unfold lenN in *. rewrite <- (Permutation_length Hp). exact Hl.
  - eapply Permutation_Forall; eassumption.
Qed.

(** ** Keys *)
Lemma wresult_wseq_ok_iff a b : wresult (wseq a b) = WeOk <-> wresult a = WeOk /\ wresult b = WeOk.
Proof.
  rewrite wresult_wseq. destruct (wresult a); split; try tauto; try discriminate; intros [H _]; discriminate.
Qed.
Lemma wresult_wconcat_ok_iff l : wresult (wconcat l) = WeOk <-> Forall (fun w => wresult w = WeOk) l.
Proof.
  induction l as [|w l IH]; [split; [constructor|reflexivity]|].
  change (wconcat (w :: l)) with (wseq w (wconcat l)). rewrite wresult_wseq_ok_iff, IH.
  split; [intros []; constructor; assumption|intros H; inversion H; auto].
Qed.
Lemma ser_map_ok_iff len l :
  wresult (ser (SMap len l)) = WeOk <->
  Forall (fun kv => (exists bs, fst kv = SStr bs) /\ wresult (ser (snd kv)) = WeOk) l.
Proof.
  cbn [ser]. rewrite wresult_wseq_ok_iff.
  assert (Hl : wresult (ser_len len) = WeOk) by (destruct len; reflexivity).
  rewrite wresult_wconcat_ok_iff, Forall_map.
  split.
  - intros [_ H]. eapply Forall_impl; [|exact H]. intros [k v] E; cbn [fst snd] in *.
    apply wresult_wseq_ok_iff in E as [E1 E2]. split; [|exact E2].
    destruct k; cbn [ser_key] in E1; try discriminate. eauto.
  - intros H; split; [exact Hl|]. eapply Forall_impl; [|exact H]. intros [k v] [(bs & E) Hv]; cbn [fst snd] in *.
    subst k. apply wresult_wseq_ok_iff; split; [reflexivity|exact Hv].
Qed.
Lemma ser_map_bad_key len k v l : (forall bs, k <> SStr bs) -> (forall p, k <> SPanic p) ->
  wresult (ser (SMap len ((k, v) :: l))) =
    WeErr (match k with SI128 _ | SU128 _ | SError => SEMsg | _ => SEKey end) /\
  wbytes (ser (SMap len ((k, v) :: l))) = match len with Some n => enc_u64 n | None => [] end.
Proof.
  intros H1 H2. cbn [ser map]. change (wconcat (?w :: ?l)) with (wseq w (wconcat l)).
  assert (E : forall w e, wresult (wseq (ser_len len) (wseq (wseq (WFail e) (ser v)) w)) = WeErr e /\
                     wbytes (wseq (ser_len len) (wseq (wseq (WFail e) (ser v)) w)) = match len with Some n => enc_u64 n | None => [] end).
  { intros w e. destruct len as [n|]; cbn [ser_len ser_u64 wr wseq wresult wbytes]; rewrite ?app_nil_r; auto. }
  destruct k; cbn [fst snd ser_key]; try (destruct (H1 bs eq_refl)); try (destruct (H2 p eq_refl));
    cbn [wconcat fold_right]; apply E.
Qed.

(** A map is read as the list of its entries would be. *)
Lemma rep_map {A B} c n (p : prog A) (q : prog B) (f : A -> B) i :
  (forall i, run c q i = obind (run c p i) (fun a r => OOk (f a) r)) ->
  run c (rep n q) i = obind (run c (rep n p) i) (fun l r => OOk (map f l) r).
Proof.
  intros H. revert i; induction n as [|n IH]; intros i; [reflexivity|]. cbn [rep].
  rewrite !run_bind, H, !obind_obind. apply obind_ext; intros a r. cbn [obind].
  rewrite !run_bind, IH, !obind_obind. apply obind_ext; intros l r'. reflexivity.
Qed.
Lemma iter_insert {A} c n (p : prog (list N * A)) (step : list (list N * A) -> prog (list (list N * A))) m i :
  (forall m i, run c (step m) i = obind (run c p i) (fun kv r => OOk (map_insert (fst kv) (snd kv) m) r)) ->
  run c (iter n step m) i = obind (run c (rep n p) i) (fun l r => OOk (insert_all l m) r).
Proof.
  intros H. revert m i; induction n as [|n IH]; intros m i; [reflexivity|]. rewrite run_iter_S, H. cbn [rep].
  rewrite run_bind, !obind_obind. apply obind_ext; intros kv r. cbn [obind].
  rewrite IH, run_bind, !obind_obind. apply obind_ext; intros l r'. reflexivity.
Qed.
Lemma map_as_vec c d s :
  match run c (de c (DVec (DTuple [DString; d]))) s with
  | OOk v r => exists l, v = SSeq (Some (lenN l)) (map entry_tuple l) /\
      run c (de c (DMap d)) s = OOk (SMap (Some (lenN (insert_all l []))) (entries (insert_all l []))) r
  | OErr e => run c (de c (DMap d)) s = OErr e
  | OPanic q => run c (de c (DMap d)) s = OPanic q
  end.
Proof.
  cbn [de map sequence]. rewrite !run_pmap. unfold de_vec, de_map, de_map_n. rewrite !run_bind.
  destruct (run c (dec_u64 ERead) s) as [n r0|e|q]; cbn [obind]; [|reflexivity..].
  rewrite run_repeatN, run_foldN.
  pose (p := k <- de_string c ;; v <- de c d ;; Ret (k, v)).
  rewrite (rep_map c _ p _ entry_tuple).
  - rewrite (iter_insert c _ p).
    + destruct (run c (rep (N.to_nat (as_usize c n)) p) r0) as [l r|e|q]; cbn [obind]; [|reflexivity..].
      exists l. split; [|reflexivity]. unfold lenN; rewrite map_length; reflexivity.
    + intros m i. unfold p. rewrite !run_bind, obind_obind. apply obind_ext; intros k r.
      rewrite !run_bind, obind_obind. reflexivity.
  - intros i. unfold p. rewrite run_pmap, !run_bind, run_pmap, !obind_obind. apply obind_ext; intros k r. cbn [obind].
    rewrite !run_bind, !obind_obind. apply obind_ext; intros v r'. reflexivity.
Qed.
Lemma map_decode_all c d s :
  match run c (de c (DVec (DTuple [DString; d]))) s with
  | OOk v r => exists l m, v = SSeq (Some (lenN l)) (map entry_tuple l) /\
      run c (de c (DMap d)) s = OOk (SMap (Some (lenN m)) (entries m)) r /\
      StronglySorted lex_lt (map fst m) /\ (forall k, last_binding k m = last_binding k l)
  | OErr e => run c (de c (DMap d)) s = OErr e
  | OPanic q => run c (de c (DMap d)) s = OPanic q
  end.
Proof.
  pose proof (map_as_vec c d s) as H. destruct (run c (de c (DVec (DTuple [DString; d]))) s) as [v r|e|q]; [|exact H..].
  destruct H as (l & Hv & Hr). exists l, (insert_all l []). split; [exact Hv|]. split; [exact Hr|].
  assert (Hs : sorted_keys (insert_all l []) = true) by (apply insert_all_sorted_out; reflexivity).
  split; [apply sorted_keys_lex, Hs|].
  intros k. rewrite <- lookup_last by exact Hs. rewrite lookup_insert_all. destruct (last_binding k l); reflexivity.
Qed.
