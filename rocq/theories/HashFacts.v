(** * Proofs for C92. *)
From Coq Require Import String Permutation.
From Verif Require Import Base BaseFacts Varint VarintFacts PrimFacts Serde Typing SerdeFacts MapFacts Std SpecStd StdFacts SpecHash.
Local Open Scope list_scope.
Local Open Scope N_scope.

Lemma two_perm {A B} (R : A -> B -> Prop) k k' l : Permutation k k' -> Forall2 R k l -> exists l', Permutation l l' /\ Forall2 R k' l'.
Proof.
  intros P; revert l; induction P as [|x k k' P IH|x y k|k1 k2 k3 P1 IH1 P2 IH2]; intros l F.
  - inversion F; subst. exists []. auto.
  - inversion F as [|? y ? l0 Hxy F']; subst. destruct (IH l0 F') as (l' & Q & G). exists (y :: l'). split; [apply perm_skip, Q|constructor; assumption].
  - inversion F as [|? a ? l0 Ha F']; subst. inversion F' as [|? b ? l1 Hb F'']; subst. exists (b :: a :: l1). split; [apply perm_swap|constructor; [|constructor]; assumption].
  - destruct (IH1 l F) as (l1 & Q1 & G1). destruct (IH2 l1 G1) as (l2 & Q2 & G2). exists l2. split; [eapply perm_trans; eassumption|exact G2].
Qed.
Lemma set_perm (cmp : stdval -> stdval -> comparison) l l' m : lawful cmp -> (forall x y, In x l -> In y l -> cmp x y = Eq -> x = y) -> Permutation l l' ->
  set_of_members cmp l m -> set_of_members cmp l' m.
Proof.
  intros L S P (H1 & H2 & H3). split; [exact H1|]. split.
  - intros x Hx. apply H2. eapply Permutation_in; [apply Permutation_sym, P|exact Hx].
  - intros y Hy. destruct (H3 y Hy) as (l1 & l2 & E & _).
    assert (Hl : In y l) by (rewrite E; apply in_or_app; right; left; reflexivity).
    assert (Hl' : In y l') by (eapply Permutation_in; eassumption).
    assert (S' : forall x, In x l' -> cmp x y = Eq -> x = y).
    { intros x Hx. apply S; [eapply Permutation_in; [apply Permutation_sym, P|exact Hx]|exact Hl]. }
    pose proof (cmp_refl cmp L y) as R. clear -Hl' S' R. induction l' as [|x l' IH]; [destruct Hl'|].
    assert (D : {cmp x y = Eq} + {cmp x y <> Eq}) by (destruct (cmp x y); [left; reflexivity|right; discriminate|right; discriminate]).
    destruct D as [E|E].
    + exists [], l'. rewrite (S' x (or_introl eq_refl) E). split; [reflexivity|constructor].
    + destruct IH as (a & b & -> & F); [destruct Hl' as [->|H]; [destruct (E R)|exact H]|intros z Hz; apply S'; right; exact Hz|].
      exists (x :: a), b. split; [reflexivity|]. constructor; [exact E|exact F].
Qed.
Lemma sorted_distinct {V} (m : list (list N * V)) : sorted_keys m = true -> NoDup (map fst m).
Proof.
  induction m as [|[k v] m IH]; intros H; cbn [map fst]; [constructor|]. apply sorted_cons in H as [H Hk]. constructor; [|apply IH, H].
  intros Hin. apply in_map_iff in Hin as ([k' v'] & E & Hin). cbn [fst] in E. subst k'. rewrite Forall_forall in Hk. specialize (Hk _ Hin). cbn [fst] in Hk.
  rewrite bytes_cmp_refl in Hk. discriminate.
Qed.

Definition byt (u : stdval) : list N := wbytes (ser (std_sval u)).
Definition fine (u : stdval) : Prop := wresult (ser (std_sval u)) = WeOk.
Definition good (c : cfg) (t : stdty) (v u v' : stdval) : Prop :=
  fine u /\ parses c ERead (std_de c t) (byt u) v' /\ length (byt u) = length (byt v).
Definition goods (c : cfg) (t : stdty) : Prop := forall v v' u, comes_back c t v v' -> shuffled t v u -> good c t v u v'.

Lemma seq_bytes n k : Forall fine k ->
  wresult (ser (SSeq (Some n) (map std_sval k))) = WeOk /\ wbytes (ser (SSeq (Some n) (map std_sval k))) = enc_u64 n ++ concat (map byt k).
Proof.
  intros F. cbn [ser ser_len]. unfold ser_u64. rewrite wbytes_seq_wr, wresult_seq_wr, map_map.
  destruct (wconcat_ok (fun u => ser (std_sval u)) k F) as [H1 H2]. rewrite H1, H2. split; reflexivity.
Qed.
Lemma tuple_bytes k : Forall fine k ->
  wresult (wconcat (map ser (map std_sval k))) = WeOk /\ wbytes (wconcat (map ser (map std_sval k))) = concat (map byt k).
Proof. intros F. rewrite map_map. exact (wconcat_ok (fun u => ser (std_sval u)) k F). Qed.
Lemma map_bytes n (m : list (list N * stdval)) : Forall fine (map snd m) ->
  wresult (ser (SMap (Some n) (map (fun kv => (SStr (fst kv), std_sval (snd kv))) m))) = WeOk /\
  wbytes (ser (SMap (Some n) (map (fun kv => (SStr (fst kv), std_sval (snd kv))) m))) =
    enc_u64 n ++ concat (map (fun kv => enc_str (fst kv) ++ byt (snd kv)) m).
Proof.
  intros F. cbn [ser ser_len]. unfold ser_u64. rewrite wbytes_seq_wr, wresult_seq_wr, map_map. cbn [fst snd ser_key].
  destruct (wconcat_ok (fun kv => wseq (ser_str (fst kv)) (ser (std_sval (snd kv)))) m) as [H1 H2].
  { apply Forall_forall. intros kv Hin. rewrite Forall_forall in F. exact (F _ (in_map snd _ _ Hin)). }
  rewrite H1, H2. split; [reflexivity|]. f_equal. f_equal. apply map_ext. intros kv. unfold ser_str, ser_u64, enc_str, byt. cbn [wseq wr wbytes]. rewrite <- app_assoc. reflexivity.
Qed.
Lemma concat_perm {A} (f : A -> list N) l l' : Permutation l l' -> length (concat (map f l)) = length (concat (map f l')).
Proof. intros P. rewrite <- !flat_map_concat_map. apply Permutation_length, Permutation_flat_map, P. Qed.

Section Hash.
  Variable c : cfg.
  Hypothesis Hc : wf_cfg c.
  Hypothesis Hh : 4096 <= heap_limit c.
  Lemma same_good t v v' : proper t -> wf_dty (wire t) = true -> comes_back c t v v' -> good c t v v v'.
  Proof.
    intros P Hw H. destruct (std_written c t P v v' H) as (w & E & Ht & Hs).
    destruct (std_read_back c Hc Hh t P Hw w v' Ht Hs) as [R Q]. unfold good, fine, byt. rewrite E. auto.
  Qed.
  Lemma list_good t l l' k : goods c t -> Forall2 (comes_back c t) l l' -> Forall2 (shuffled t) l k ->
    Forall fine k /\ Forall fine l /\ Forall2 (fun u v' => parses c ERead (std_de c t) (byt u) v') k l' /\
    length (concat (map byt k)) = length (concat (map byt l)).
  Proof.
    intros G F; revert k; induction F as [|v v' l l' Hv F IH]; intros k S; inversion S as [|? u ? k' Hu S']; subst.
    - repeat split; constructor.
    - destruct (G v v' u Hv Hu) as (A & B & C). destruct (G v v' v Hv (sh_same t v)) as (A' & _). destruct (IH k' S') as (I1 & I2 & I3 & I4).
      split; [constructor; assumption|]. split; [constructor; assumption|]. split; [constructor; assumption|].
      cbn [map concat]. rewrite !app_length. congruence.
  Qed.
  Lemma all_good ts l l' k : Forall (goods c) ts -> all_back c ts l l' -> all_shuffled ts l k ->
    Forall fine k /\ Forall fine l /\ parses c ERead (sequence (map (std_de c) ts)) (concat (map byt k)) l' /\
    length (concat (map byt k)) = length (concat (map byt l)).
  Proof.
    intros G; revert l l' k; induction G as [|t ts Gt G IH]; intros l l' k B S; inversion B as [|? v v' ? l0 l0' Hv B']; subst; inversion S as [|? ? u ? ? k' Hu S']; subst.
    - split; [constructor|]. split; [constructor|]. split; [apply parses_ret|reflexivity].
    - destruct (Gt v v' u Hv Hu) as (A1 & A2 & A3). destruct (Gt v v' v Hv (sh_same t v)) as (A' & _). destruct (IH _ _ _ B' S') as (I1 & I2 & I3 & I4).
      split; [constructor; assumption|]. split; [constructor; assumption|]. split.
      + cbn [map sequence concat]. eapply parses_bind; [exact A2|]. eapply parses_bind_ret; [exact I3|reflexivity].
      + cbn [map concat]. rewrite !app_length. congruence.
  Qed.
  Lemma vec_good t k l' : Forall fine k -> Forall2 (fun u v' => parses c ERead (std_de c t) (byt u) v') k l' -> lenN k < 2 ^ usize_bits c ->
    parses c ERead (de_vec c (std_de c t)) (byt (XSeq k)) l'.
  Proof.
    intros F P Hl. unfold byt. cbn [std_sval]. rewrite (proj2 (seq_bytes (lenN k) k F)).
    replace (lenN k) with (lenN l') in * by (unfold lenN; rewrite (two_len P); reflexivity). apply parses_vec; [exact Hc| |exact Hl].
    clear -P. induction P; cbn [map]; constructor; assumption.
  Qed.
  Lemma variant_bytes k i t v v' u : payload k t -> comes_back c t v v' -> shuffled t v u ->
    byt (XVariant k i u) = enc_u32 i ++ byt u /\ (fine u -> fine (XVariant k i u)).
  Proof.
    intros P B S. unfold byt, fine. cbn [std_sval]. destruct k; cbn [payload] in P.
    - subst t. inversion B; subst. inversion S; subst. cbn [has_ty] in *. destruct w; try discriminate. cbn [std_sval variant_sval ser wbytes]. rewrite app_nil_r.
      split; [|reflexivity]. unfold ser_u32. cbn [wr wbytes]. apply app_nil_r.
    - cbn [variant_sval]. rewrite newtype_bytes. split; [reflexivity|]. intros F. cbn [ser]. unfold ser_u32. rewrite wresult_seq_wr. exact F.
    - destruct P as [ts ->]. assert (E : exists l, u = XTuple l) by (inversion B; subst; inversion S; subst; eexists; reflexivity). destruct E as [l ->].
      cbn [std_sval variant_sval ser]. unfold ser_u32. rewrite wbytes_seq_wr, wresult_seq_wr. auto.
    - destruct P as [fs ->]. assert (E : exists l, u = XRecord l) by (inversion B; subst; inversion S; subst; eexists; reflexivity). destruct E as [l ->].
      cbn [std_sval variant_sval ser]. unfold ser_u32. rewrite wbytes_seq_wr, wresult_seq_wr. auto.
  Qed.
  Lemma shuffled_good t : proper t -> wf_dty (wire t) = true -> strict c t -> goods c t.
  Proof.
    induction t as [d|d|t IH|t IH|cmp t IH|n t IH|ts IH|t IH|t IH|t IH|t e IH IHe| | | | | | | | | | | |t IH|fs IH|vs IH] using stdty_ind2;
      intros P Hw K v v' u B S; pose proof (fun H => same_good _ v v' P Hw H) as Same; cbn [proper] in P; cbn [strict] in K;
      try (inversion S; subst; exact (Same B)).
    - (* option *) inversion S as [|? v0 u0 S0| | | | | | | | |]; subst; [exact (Same B)|]. inversion B as [| | |? ? v0' B0| | | | | | | | | | | | | | | | | | | | | | | | | | |]; subst.
      cbn [wire wf_dty] in Hw. destruct (IH P Hw K _ _ _ B0 S0) as (A1 & A2 & A3). unfold good, fine, byt in *. cbn [std_sval ser]. rewrite !wbytes_seq_wr, !wresult_seq_wr, !app_length.
      split; [exact A1|]. split; [|congruence]. cbn [std_de].
      apply (parses_pmap _ _ (de_option (std_de c t)) (fun o => match o with Some v => XSome v | None => XNone end) _ (Some v0')).
      eapply parses_bind; [apply (parses_bool c true)|]. apply parses_pmap, A2.
    - (* vec *) inversion S as [| |? l k F| | | | | | | |]; subst; [exact (Same B)|]. inversion B as [| | | |? ? l' Hl F'| | | | | | | | | | | | | | | | | | | | | | | | | |]; subst.
      destruct (list_good t l l' k (IH P Hw K) F' F) as (A1 & A2 & A3 & A4). pose proof (two_len F) as L.
      destruct (seq_bytes (lenN k) k A1) as [R1 R2]. destruct (seq_bytes (lenN l) l A2) as [_ R4].
      split; [exact R1|]. split.
      + cbn [std_de]. apply (parses_pmap _ _ (de_vec c (std_de c t)) XSeq). apply vec_good; [exact A1|exact A3|unfold lenN in *; rewrite <- L; exact Hl].
      + unfold byt. cbn [std_sval]. rewrite R2, R4, !app_length, A4. unfold lenN. rewrite L. reflexivity.
    - (* set *) destruct P as [Lw P]. destruct K as [Ks K]. inversion S as [| | |? ? l k k' F Pm| | | | | | |]; subst; [exact (Same B)|].
      inversion B as [| | | | |? ? ? l' m Hl F' Hm| | | | | | | | | | | | | | | | | | | | | | | | |]; subst.
      destruct (list_good t l l' k (IH P Hw K) F' F) as (A1 & A2 & A3 & A4). pose proof (two_len F) as L.
      destruct (two_perm _ k k' l' Pm A3) as (l2 & Q & A5).
      assert (A6 : Forall fine k') by (eapply Permutation_Forall; eassumption).
      assert (L' : lenN k' = lenN l) by (unfold lenN; rewrite L, (Permutation_length Pm); reflexivity).
      destruct (seq_bytes (lenN k') k' A6) as [R1 R2]. destruct (seq_bytes (lenN l) l A2) as [_ R4].
      split; [exact R1|]. split.
      + cbn [std_de]. assert (m = set_of cmp l2) as ->.
        { eapply set_unique; [exact Lw| |apply set_of_spec, Lw]. apply (set_perm cmp l' l2 m Lw); [|exact Q|exact Hm].
          assert (O : forall x, In x l' -> exists w, comes_back c t w x).
          { clear -F'. induction F' as [|a b l l' H F IH]; intros x []; [subst; eauto|auto]. }
          intros x y Hx Hy E. destruct (O x Hx) as [wx Ox]. destruct (O y Hy) as [wy Oy]. exact (Ks x y wx wy Ox Oy E). }
        apply (parses_pmap _ _ (de_vec c (std_de c t)) (fun l => XSeq (set_of cmp l))). apply vec_good; [exact A6|exact A5|rewrite L'; exact Hl].
      + unfold byt. cbn [std_sval]. rewrite R2, R4, !app_length, L', <- A4. f_equal. symmetry. apply concat_perm, Pm.
    - (* array *) inversion S as [| | | |? ? l k F| | | | | |]; subst; [exact (Same B)|]. inversion B as [| | | | | |? ? ? l' Hn F'| | | | | | | | | | | | | | | | | | | | | | | |]; subst.
      assert (W : wf_dty (wire t) = true \/ l = []).
      { destruct l as [|x l]; [right; reflexivity|left]. cbn [wire wf_dty length repeat forallb] in Hw. apply andb_prop in Hw as [Hw _]. exact Hw. }
      assert (T : Forall fine k /\ Forall fine l /\ parses c ERead (sequence (repeat (std_de c t) (length l))) (concat (map byt k)) l' /\ length (concat (map byt k)) = length (concat (map byt l))).
      { destruct W as [W| ->].
        - destruct (list_good t l l' k (IH P W K) F' F) as (A1 & A2 & A3 & A4). split; [exact A1|]. split; [exact A2|]. split; [|exact A4].
          rewrite (two_len F). clear -A3. induction A3 as [|u v k l H F IH]; cbn [length repeat sequence map concat]; [apply parses_ret|].
          eapply parses_bind; [exact H|]. eapply parses_bind_ret; [exact IH|reflexivity].
        - inversion F; subst. inversion F'; subst. split; [constructor|]. split; [constructor|]. split; [apply parses_ret|reflexivity]. }
      destruct T as (A1 & A2 & A3 & A4). destruct (tuple_bytes k A1) as [R1 R2]. destruct (tuple_bytes l A2) as [_ R4].
      unfold good, fine, byt. cbn [std_sval ser std_de]. rewrite R1, R2, R4. split; [reflexivity|]. split; [apply (parses_pmap _ _ _ XTuple), A3|exact A4].
    - (* tuple *) inversion S as [| | | | |? l k F| | | | |]; subst; [exact (Same B)|]. inversion B as [| | | | | | |? ? l' F'| | | | | | | | | | | | | | | | | | | | | | |]; subst.
      assert (G : Forall (goods c) ts).
      { cbn [wire wf_dty] in Hw. clear -IH P Hw K. induction IH as [|t ts Ht IH IH2]; [constructor|]. cbn [fold_right map forallb] in *.
        apply andb_prop in Hw as [H1 H2]. destruct P as [P1 P2]. destruct K as [K1 K2]. constructor; auto. }
      destruct (all_good ts l l' k G F' F) as (A1 & A2 & A3 & A4). destruct (tuple_bytes k A1) as [R1 R2]. destruct (tuple_bytes l A2) as [_ R4].
      unfold good, fine, byt. cbn [std_sval ser std_de]. rewrite R1, R2, R4. split; [reflexivity|]. split; [apply (parses_pmap _ _ _ XTuple), A3|exact A4].
    - (* result *) cbn [wire wf_dty forallb fst snd payload_shape andb] in Hw. apply andb_prop in Hw as [_ Hw]. apply andb_prop in Hw as [Hw He]. apply andb_prop in He as [He _].
      destruct P as [P Pe]. destruct K as [K Ke]. inversion S as [| | | | | |? ? v0 u0 S0|? ? v0 u0 S0| | |]; subst; [exact (Same B)| |];
      inversion B as [| | | | | | | | | | | | |? ? ? v0' B0|? ? ? v0' B0| | | | | | | | | | | | | | | |]; subst.
      + destruct (IH P Hw K _ _ _ B0 S0) as (A1 & A2 & A3). unfold good, fine, byt in *. cbn [std_sval]. rewrite !newtype_bytes, !app_length. cbn [ser]. unfold ser_u32. rewrite wresult_seq_wr.
        split; [exact A1|]. split; [|congruence]. cbn [std_de]. eapply parses_std_enum; [reflexivity|reflexivity|apply parses_pmap, A2].
      + destruct (IHe Pe He Ke _ _ _ B0 S0) as (A1 & A2 & A3). unfold good, fine, byt in *. cbn [std_sval]. rewrite !newtype_bytes, !app_length. cbn [ser]. unfold ser_u32. rewrite wresult_seq_wr.
        split; [exact A1|]. split; [|congruence]. cbn [std_de]. eapply parses_std_enum; [reflexivity|reflexivity|apply parses_pmap, A2].
    - (* map *) inversion S as [| | | | | | | |? m k k' Hk F Pm| |]; subst; [exact (Same B)|].
      inversion B as [| | | | | | | | | | | | | | | | | | | | | | | | | | | |? ? m' Hl Hs Hz Hk' F'| | ]; subst.
      destruct (list_good t _ _ _ (IH P Hw K) F' F) as (A1 & A2 & A3 & A4).
      set (R := fun (x y : list N * stdval) => fst x = fst y /\ parses c ERead (std_de c t) (byt (snd x)) (snd y)).
      assert (T : Forall2 R k m').
      { rewrite <- Hk in Hk'. clear -A3 Hk'. revert m' A3 Hk'. induction k as [|[a b] k IH]; intros [|[a' b'] m'] A3 E; try discriminate; [constructor|].
        cbn [map fst snd] in *. injection E as -> E. inversion A3; subst. constructor; [split; [reflexivity|assumption]|apply IH; assumption]. }
      destruct (two_perm R k k' m' Pm T) as (m2 & Q & T2).
      assert (Lk : lenN k' = lenN m) by (unfold lenN; rewrite <- (Permutation_length Pm), <- (map_length fst k), Hk, map_length; reflexivity).
      assert (Lm : lenN m2 = lenN k') by (unfold lenN; rewrite (two_len T2); reflexivity).
      assert (A5 : Forall fine (map snd k')) by (eapply Permutation_Forall; [apply Permutation_map, Pm|exact A1]).
      destruct (map_bytes (lenN k') k' A5) as [R1 R2]. destruct (map_bytes (lenN m) m A2) as [_ R4].
      split; [exact R1|]. split.
      + unfold byt. cbn [std_sval std_de]. rewrite R2. apply (parses_pmap _ _ (de_map c (std_de c t)) XDict).
        pose proof (parses_map_with c (std_de c t) (map (fun kv => (fst kv, byt (snd kv))) k') m2 Hc) as Z.
        change (fold_left (fun acc kv => map_insert (fst kv) (snd kv) acc) m2 []) with (insert_all m2 []) in Z.
        assert (Hs' : sorted_keys m' = true) by (rewrite (sorted_same m' m Hk'); exact Hs).
        rewrite <- (insert_all_perm m' m2 (sorted_distinct m' Hs') Q) in Z. unfold insert_all in Z. rewrite insert_all_sorted in Z; [|exact Hs'|apply Forall_forall; intros; constructor].
        rewrite app_nil_l, !map_map in Z. cbn [fst snd] in Z. rewrite Lm in Z. apply Z.
        * rewrite Lk. exact Hl.
        * clear -T2. induction T2 as [|x y a b [H1 _] T IH]; cbn [map]; congruence.
        * assert (Hz' : Forall (fun kv => str_ok c (fst kv) = true) m').
          { clear -Hz Hk'. revert m Hk' Hz. induction m' as [|[a b] m' IH]; intros [|[a' b'] m] E Hz; try discriminate; [constructor|].
            cbn [map fst] in E. injection E as -> E. inversion Hz; subst. constructor; [assumption|apply (IH m); assumption]. }
          eapply Permutation_Forall; [exact Q|exact Hz'].
        * clear -T2. induction T2 as [|x y a b [_ H1] T IH]; cbn [map]; constructor; assumption.
      + unfold byt at 1 2. cbn [std_sval]. rewrite R2, R4, !app_length, Lk. f_equal.
        rewrite <- (concat_perm (fun kv => enc_str (fst kv) ++ byt (snd kv)) k k' Pm).
        clear -Hk A4. assert (G : forall (l : list (list N * stdval)), length (concat (map (fun kv => enc_str (fst kv) ++ byt (snd kv)) l)) =
          (length (concat (map enc_str (map fst l))) + length (concat (map byt (map snd l))))%nat).
        { induction l as [|x l IH]; [reflexivity|]. cbn [map concat]. rewrite !app_length, IH. lia. }
        rewrite !G, Hk, A4. reflexivity.
    - (* struct *) destruct P as [Hnd P]. inversion S as [| | | | | | | | |? l k Hk F|]; subst; [exact (Same B)|].
      inversion B as [| | | | | | | | | | | | | | | | | | | | | | | | | | | | |? ? l' Hn Hn' F'| ]; subst.
      assert (G : Forall (goods c) (map snd fs)).
      { cbn [wire wf_dty] in Hw. apply andb_prop in Hw as [_ Hw]. clear -IH P Hw K. induction IH as [|[n t] fs Ht IH IH2]; [constructor|].
        cbn [fold_right snd map forallb] in *. apply andb_prop in Hw as [H1 H2]. destruct P as [P1 P2]. destruct K as [K1 K2]. constructor; auto. }
      destruct (all_good _ _ _ _ G F' F) as (A1 & A2 & A3 & A4). destruct (tuple_bytes _ A1) as [R1 R2]. destruct (tuple_bytes _ A2) as [_ R4].
      assert (Q : forall l : list (string * stdval), map (fun kv => ser (snd kv)) (map (fun kv => (fst kv, std_sval (snd kv))) l) = map ser (map std_sval (map snd l))).
      { intros x. rewrite !map_map. reflexivity. }
      unfold good, fine, byt. cbn [std_sval ser]. rewrite !Q, R1, R2, R4. split; [reflexivity|]. split; [|exact A4].
      eapply parses_ext; [intros; apply run_user_struct, Hnd|].
      assert (Ev : l' = combine (map fst fs) (map snd l')) by (rewrite <- Hn'; clear; induction l' as [|[a b] l' IH]; [reflexivity|cbn [map fst snd combine]; f_equal; exact IH]).
      rewrite Ev. apply (parses_pmap _ _ _ (fun l => XRecord (combine (map fst fs) l))). rewrite <- (map_map snd (std_de c) fs). exact A3.
    - (* enum *) inversion S as [| | | | | | | | | |? k i t v0 u0 E S0]; subst; [exact (Same B)|].
      inversion B as [| | | | | | | | | | | | | | | | | | | | | | | | | | | | | |? ? ? t' ? v0' E' B0]; subst. rewrite E in E'. injection E' as <-.
      cbn [wire wf_dty] in Hw. apply andb_prop in Hw as [Hn Hvs]. rewrite lenN_map in Hn. rewrite <- pickN_nth in E.
      destruct (proper_variant _ _ _ _ P E) as [Hp Pt]. pose proof (pickN_some _ _ _ E) as [Hin Hi].
      assert (i < 16384) by (apply N.leb_le in Hn; lia).
      rewrite forallb_forall in Hvs. specialize (Hvs (k, wire t) (in_map (fun v => (fst v, wire (snd v))) _ _ Hin)). cbn [fst snd] in Hvs. apply andb_prop in Hvs as [_ Hvs].
      assert (Kt : strict c t). { clear -K Hin. induction vs as [|x vs IH]; [destruct Hin|]. cbn [fold_right] in K. destruct K as [K1 K2]. destruct Hin as [->|Hin]; [exact K1|auto]. }
      rewrite Forall_forall in IH. destruct (IH (k, t) Hin Pt Hvs Kt _ _ _ B0 S0) as (A1 & A2 & A3).
      destruct (variant_bytes k i t v0 v0' u0 Hp B0 S0) as [R1 R2]. destruct (variant_bytes k i t v0 v0' v0 Hp B0 (sh_same t v0)) as [R3 _].
      unfold good. rewrite R1, R3, !app_length. split; [exact (R2 A1)|]. split; [|congruence]. cbn [std_de].
      eapply parses_user_enum; [assumption|rewrite pickN_map, E; reflexivity|]. cbn [fst snd]. apply parses_pmap, A2.
  Qed.
End Hash.
