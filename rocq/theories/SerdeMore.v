(** * More proofs about Serde.v: decoding arbitrary input. *)
From Coq Require Import String.
From Verif Require Import Base BaseFacts Varint VarintFacts ZigZagFacts Utf8 Utf8Facts SpecVarint SpecRequest SpecDty
  Serde Typing PrimFacts SerdeFacts.
Local Open Scope list_scope.
Local Open Scope N_scope.

(** ** Locality *)
Lemma find_field_in {A} k (fs : list (string * A)) i a : find_field k fs = Some (i, a) ->
  nth_error fs i = Some (k, a).
Proof.
  revert i; induction fs as [|[n b] fs IH]; intros i; cbn [find_field]; [discriminate|].
  destruct (String.eqb_spec k n) as [->|_].
  - intros H; injection H as <- ->; reflexivity.
  - destruct (find_field k fs) as [[j x]|]; [|discriminate]. intros H; injection H as <- ->.
    cbn [nth_error]. apply IH; reflexivity.
Qed.
Lemma local_struct_loop {A} c keys (fs : list (string * prog A)) slots :
  Forall (fun np => local c ERead (snd np)) fs -> local c ERead (struct_loop keys fs slots).
Proof.
  intros H; revert slots; induction keys as [|k keys IH]; intros slots; cbn [struct_loop]; [apply local_Ret|].
  destruct (find_field k fs) as [[i p]|] eqn:E; [|apply local_Crash].
  destruct (nth_error slots i) as [[a|]|]; [apply local_Fail| |apply local_Fail].
  apply local_bind; [|intros a; apply IH].
  apply find_field_in, nth_error_In in E. rewrite Forall_forall in H. apply (H _ E).
Qed.
Lemma local_fill_missing {A} c (miss slots : list (option A)) : local c ERead (fill_missing miss slots).
Proof.
  revert slots; induction miss as [|m miss IH]; intros slots; cbn [fill_missing]; [apply local_Ret|].
  destruct slots as [|s slots]; [apply local_Ret|].
  assert (G : forall a : A, local c ERead (bind (fill_missing miss slots) (fun l => Ret (a :: l)))).
  { intros a; apply local_bind; [apply IH|intros; apply local_Ret]. }
  destruct s; [apply G|]. destruct m; [apply G|apply local_Fail].
Qed.
Lemma local_map {A} c (p : prog A) : usize_bits c = 64 -> local c ERead p -> local c ERead (de_map c p).
Proof.
  intros Hc Hp; apply local_bind; [apply local_dec_u64|]. intros n; apply local_foldN. intros m.
  apply local_bind; [apply local_string, Hc|]. intros k. apply local_bind; [exact Hp|]; intros; apply local_Ret.
Qed.
Lemma local_date c : local c ERead (de_date c).
Proof.
  apply local_bind; [apply local_i32|]; intros y0. apply local_bind.
  { destruct (arith_s _ _ _); [apply local_Ret|apply local_Crash]. }
  intros y; apply local_bind; [apply local_dec_u16|]; intros o0. apply local_bind.
  { destruct (arith_u _ _ _); [apply local_Ret|apply local_Crash]. }
  intros; apply local_Ret.
Qed.

Lemma local_de c d : usize_bits c = 64 -> local c ERead (de c d).
Proof.
  intros Hc. induction d using dty_ind2; cbn [de];
    try apply local_Fail; try apply local_Crash; try apply local_Ret; try apply local_pmap.
  - apply local_bool.
  - apply local_i8.
  - apply local_i16.
  - apply local_i32.
  - apply local_i64.
  - apply local_byte.
  - apply local_dec_u16.
  - apply local_dec_u32.
  - apply local_dec_u64.
  - apply local_isize.
  - apply local_usize.
  - apply local_float.
  - apply local_float.
  - apply local_char, Hc.
  - apply local_string, Hc.
  - apply local_byte_buf.
  - apply local_bind; [apply local_bool|]. intros [|]; [apply local_pmap, IHd|apply local_Ret].
  - exact IHd.
  - apply local_vec, IHd.
  - apply local_sequence, Forall_map, H.
  - apply local_sequence, Forall_map, H.
  - apply local_map; assumption.
  - apply local_bind; [|intros; apply local_fill_missing]. apply local_struct_loop, Forall_map. exact H.
  - apply local_bind; [apply local_dec_u16|]. intros i. rewrite pickN_map.
    destruct (pickN vs i) as [kd|] eqn:E; [|apply local_Fail]. cbn [option_map].
    apply pickN_some in E as [Hin _]. rewrite Forall_forall in H. apply local_pmap, (H _ Hin).
  - apply local_vec, local_byte.
  - apply local_vec, local_byte.
  - apply local_bind; [apply local_vec, local_byte|]. intros [|b bs]; [apply local_Ret|].
    apply local_bind; [apply local_i64|intros; apply local_Ret].
  - apply local_date.
  - apply local_bind; [apply local_i64|]; intros. apply local_bind; [apply local_dec_u32|intros; apply local_Ret].
Qed.

(** ** Decoded values have the requested type *)
Lemma Forall2_nth {A B} (R : A -> B -> Prop) l m i a b :
  Forall2 R l m -> nth_error l i = Some a -> nth_error m i = Some b -> R a b.
Proof.
  intros H; revert i; induction H as [|x y l m Hxy H IH]; intros [|i]; cbn [nth_error]; try discriminate.
  - intros E1 E2; congruence.
  - apply IH.
Qed.
Lemma Forall2_nth_l {A B} (R : A -> B -> Prop) l m i a :
  Forall2 R l m -> nth_error l i = Some a -> exists b, nth_error m i = Some b.
Proof.
  intros H; revert i; induction H as [|x y l m Hxy H IH]; intros [|i]; cbn [nth_error]; try discriminate; eauto.
Qed.

Lemma yields_struct_loop {A D} c keys (fs : list (string * prog A)) (ds : list D) (R : D -> A -> Prop) slots :
  Forall2 (fun np d => yields c (snd np) (R d)) fs ds ->
  Forall2 (fun d s => match s with Some a => R d a | None => True end) ds slots ->
  yields c (struct_loop keys fs slots)
    (Forall2 (fun d s => match s with Some a => R d a | None => True end) ds).
Proof.
  intros Hy; revert slots; induction keys as [|k keys IH]; intros slots Hs; cbn [struct_loop];
    [apply yields_Ret, Hs|].
  destruct (find_field k fs) as [[i p]|] eqn:E; [|apply yields_Crash].
  destruct (nth_error slots i) as [[a|]|] eqn:En; [apply yields_Fail| |apply yields_Fail].
  apply find_field_in in E. destruct (Forall2_nth_l _ _ _ _ _ Hy E) as [d Ed].
  eapply yields_bind; [exact (Forall2_nth _ _ _ _ _ _ Hy E Ed)|]. intros a Ha. apply IH.
  clear - Hs Ha Ed. revert i Ed; induction Hs as [|d' s ds slots Hds Hs IH]; intros [|i] Ed; cbn [nth_error] in Ed; try discriminate.
  - injection Ed as ->. cbn [set_slot]. constructor; assumption.
  - cbn [set_slot]. constructor; [assumption|apply IH, Ed].
Qed.
Lemma yields_fill_missing {A D} c (ds : list D) (R : D -> A -> Prop) miss slots :
  Forall2 (fun d m => match m with Some a => R d a | None => True end) ds miss ->
  Forall2 (fun d s => match s with Some a => R d a | None => True end) ds slots ->
  yields c (fill_missing miss slots) (Forall2 R ds).
Proof.
  intros Hm; revert slots; induction Hm as [|d m ds miss Hdm Hm IH]; intros slots Hs; cbn [fill_missing].
  - inversion Hs; subst. apply yields_Ret; constructor.
  - inversion Hs as [|? s ? slots' Hds Hs']; subst.
    assert (G : forall a : A, R d a -> yields c (bind (fill_missing miss slots') (fun l => Ret (a :: l))) (Forall2 R (d :: ds))).
    { intros a Ha; eapply yields_bind; [apply IH, Hs'|]. intros l Hl; apply yields_Ret; constructor; assumption. }
    destruct s as [a|]; [apply G, Hds|]. destruct m as [a|]; [apply G, Hdm|apply yields_Fail].
Qed.

Lemma sorted_lt_cons {V} k (v : V) m :
  sorted_keys m = true -> Forall (fun kv => bytes_cmp k (fst kv) = Lt) m -> sorted_keys ((k, v) :: m) = true.
Proof.
  intros Hs Hk. destruct m as [|[k' v'] m]; [reflexivity|]. inversion Hk; subst; cbn [fst] in *.
  cbn [sorted_keys] in *. rewrite H1. exact Hs.
Qed.
Lemma map_insert_keys {V} (P : list N -> Prop) (Q : V -> Prop) k v m : P k -> Q v ->
  Forall (fun kv => P (fst kv) /\ Q (snd kv)) m ->
  Forall (fun kv => P (fst kv) /\ Q (snd kv)) (map_insert k v m).
Proof.
  intros Hk Hv; induction 1 as [|[k' v'] m H Hm IH]; cbn [map_insert]; [repeat constructor; assumption|].
  destruct (bytes_cmp k k'); repeat constructor; try assumption; apply H.
Qed.
Lemma map_insert_sorted {V} k (v : V) m : sorted_keys m = true -> sorted_keys (map_insert k v m) = true.
Proof.
  induction m as [|[k' v'] m IH]; intros H; cbn [map_insert]; [reflexivity|].
  pose proof (sorted_cons _ _ _ H) as [Hs Hk].
  destruct (bytes_cmp k k') eqn:E.
  - apply bytes_cmp_eq in E; subst. apply sorted_lt_cons; assumption.
  - apply sorted_lt_cons; [exact H|]. constructor; [exact E|].
    eapply Forall_impl; [|exact Hk]. intros kv Hkv; eapply bytes_cmp_trans; eassumption.
  - apply sorted_lt_cons; [apply IH, Hs|].
    assert (E' : bytes_cmp k' k = Lt) by (rewrite bytes_cmp_antisym, E; reflexivity).
    clear - E' Hk. induction Hk as [|[k2 v2] m Hk Hm IH]; cbn [map_insert]; [constructor; [exact E'|constructor]|].
    destruct (bytes_cmp k k2); constructor; cbn [fst]; try assumption; try constructor; assumption.
Qed.
Lemma map_insert_length {V} k (v : V) m : (length (map_insert k v m) <= S (length m))%nat.
Proof.
  induction m as [|[k' v'] m IH]; cbn [map_insert]; [cbn; lia|].
  destruct (bytes_cmp k k'); cbn [length]; lia.
Qed.
Lemma yields_map {A} c (p : prog A) (Q : A -> Prop) : wf_cfg c -> yields c p Q ->
  yields c (de_map c p) (fun m => lenN m < 2 ^ usize_bits c /\ sorted_keys m = true /\
     Forall (fun kv => str_ok c (fst kv) = true /\ Q (snd kv)) m).
Proof.
  intros Hc Hp. unfold de_map, de_map_n. eapply yields_bind with (P := fun _ => True); [intros s a r _ _; exact I|].
  intros count _. set (n := as_usize c count).
  assert (Hn : n < 2 ^ usize_bits c) by (apply N.mod_lt, N.pow_nonzero; lia).
  intros s m r Hs H. rewrite run_foldN in H.
  assert (G : (length m <= N.to_nat n)%nat /\ sorted_keys m = true /\
     Forall (fun kv => str_ok c (fst kv) = true /\ Q (snd kv)) m).
  { revert H. apply (yields_iter c (N.to_nat n) _ [] (fun i (m : list (list N * A)) => (length m <= i)%nat /\ sorted_keys m = true /\
     Forall (fun kv => str_ok c (fst kv) = true /\ Q (snd kv)) m)); [|clear s m r Hs|exact Hs].
    - split; [cbn; lia|]. split; [reflexivity|constructor].
    - intros i m (Hl & Hso & HF). eapply yields_bind; [apply yields_string, Hc|]. intros k [Hk1 Hk2].
      eapply yields_bind; [exact Hp|]. intros v Hv; apply yields_Ret.
      split; [|split].
      + pose proof (map_insert_length k v m); lia.
      + apply map_insert_sorted, Hso.
      + apply (map_insert_keys (fun k => str_ok c k = true) Q); [|exact Hv|exact HF].
        unfold str_ok, usize_ok. rewrite Hk1. cbn [andb]. apply N.ltb_lt, Hk2. }
  destruct G as (G1 & G2 & G3). split; [unfold lenN; lia|]. split; assumption.
Qed.

Lemma vec_u8_of_vec_u8 bs : vec_u8_of (vec_u8 bs) = Some bs.
Proof.
  unfold vec_u8, vec_u8_of.
  set (g := fun x acc => match x, acc with SU8 b, Some t => Some (b :: t) | _, _ => None end).
  assert (G : fold_right g (Some []) (map SU8 bs) = Some bs).
  { induction bs as [|b bs IH]; [reflexivity|]. cbn [map fold_right]. rewrite IH. reflexivity. }
  rewrite G, N.eqb_refl; reflexivity.
Qed.
Lemma yields_vec_u8 c : yields c (de_vec c de_u8) (fun bs => vec_u8_ok c (vec_u8 bs) = true).
Proof.
  eapply yields_weaken; [apply yields_vec, yields_byte|]. intros bs [Hl Hb].
  unfold vec_u8_ok. rewrite vec_u8_of_vec_u8. unfold buf_ok, usize_ok.
  apply andb_true_intro; split; [apply bytes_okb_ok, Hb|apply N.ltb_lt, Hl].
Qed.
Lemma arith_s_add c z y : arith_s c 32 z = Some y -> negb (overflow_checks c) || in_s 32 z = true.
Proof. unfold arith_s; destruct (in_s 32 z), (overflow_checks c); try discriminate; reflexivity. Qed.
Lemma strkeys_map (m : list (list N * sval)) :
  strkeys (map (fun kv => (SStr (fst kv), snd kv)) m) = Some m.
Proof. induction m as [|[k v] m IH]; [reflexivity|]. cbn [map strkeys strkey fst snd]. rewrite IH; reflexivity. Qed.
Lemma Forall2_Forall_r {A B} (R : A -> B -> Prop) l m :
  Forall2 R l m -> Forall2 (fun (P : B -> Prop) b => P b) (map R l) m.
Proof. induction 1; constructor; assumption. Qed.

Lemma wide_part c f (l : list (string * dty)) nf : usize_bits c = 64 \/ existsb (fun nf => occurs f (snd nf)) l = false -> In nf l ->
  usize_bits c = 64 \/ occurs f (snd nf) = false.
Proof.
  intros [H|H] Hin; [auto|right]. destruct (occurs f (snd nf)) eqn:E; [|reflexivity].
  rewrite (proj2 (existsb_exists _ _)) in H; [discriminate|]. exists nf. split; assumption.
Qed.
Lemma wide_part2 c f (l : list (vkind * dty)) nf : usize_bits c = 64 \/ existsb (fun nf => occurs f (snd nf)) l = false -> In nf l ->
  usize_bits c = 64 \/ occurs f (snd nf) = false.
Proof.
  intros [H|H] Hin; [auto|right]. destruct (occurs f (snd nf)) eqn:E; [|reflexivity].
  rewrite (proj2 (existsb_exists _ _)) in H; [discriminate|]. exists nf. split; assumption.
Qed.
Lemma wide_part1 c f (l : list dty) d : usize_bits c = 64 \/ existsb (occurs f) l = false -> In d l -> usize_bits c = 64 \/ occurs f d = false.
Proof.
  intros [H|H] Hin; [auto|right]. destruct (occurs f d) eqn:E; [|reflexivity].
  rewrite (proj2 (existsb_exists _ _)) in H; [discriminate|]. exists d. split; assumption.
Qed.
(** Without byte buffers, or with 64 bits, what is read is a value of the type. *)
Lemma typed_de_any c d : wf_cfg c -> 4096 <= heap_limit c -> wf_dty d = true -> usize_bits c = 64 \/ occurs is_buf d = false ->
  yields c (de c d) (fun v => has_ty c d v = true).
Proof.
  intros Hw Hh. induction d using dty_ind2; cbn [wf_dty de occurs is_buf orb]; intros Hwf Hc; try discriminate.
  - eapply yields_pmap with (P := fun _ => True); [intros s a r _ _; exact I|reflexivity].
  - eapply yields_pmap with (P := fun z => in_s 8 z = true); [|auto].
    eapply yields_pmap; [apply yields_byte|]. intros a _. apply as_i_in; lia.
  - eapply yields_pmap; [apply yields_i16|]. intros a Ha; exact Ha.
  - eapply yields_pmap; [apply yields_i32|]. intros a Ha; exact Ha.
  - eapply yields_pmap; [apply yields_i64|]. intros a Ha; exact Ha.
  - eapply yields_pmap; [apply yields_byte|]. intros a Ha; apply N.ltb_lt; exact Ha.
  - eapply yields_pmap; [apply yields_u16|]. intros a Ha; apply N.ltb_lt; exact Ha.
  - eapply yields_pmap; [apply yields_u32|]. intros a Ha; apply N.ltb_lt; exact Ha.
  - eapply yields_pmap; [apply yields_u64|]. intros a Ha; apply N.ltb_lt; exact Ha.
  - eapply yields_pmap with (P := fun z => in_s (usize_bits c) z = true); [|auto].
    eapply yields_bind; [apply yields_i64|]. intros z _. destruct (in_s (usize_bits c) z) eqn:E; [apply yields_Ret, E|apply yields_Fail].
  - eapply yields_pmap with (P := fun n => usize_ok c n = true); [|auto].
    eapply yields_bind; [apply yields_u64|]. intros z _. unfold usize_ok. destruct (z <? 2 ^ usize_bits c) eqn:E; [apply yields_Ret, E|apply yields_Fail].
  - eapply yields_pmap; [apply yields_float|]. intros a Ha; apply N.ltb_lt; exact Ha.
  - eapply yields_pmap; [apply yields_float|]. intros a Ha; apply N.ltb_lt; exact Ha.
  - eapply yields_pmap with (P := fun ch => is_scalar ch = true); [|auto].
    eapply yields_bind; [apply yields_string, Hw|]. intros s [Hs _].
    destruct (next_char s) as [ch|] eqn:E; [apply yields_Ret|apply yields_Fail].
    destruct s as [|b s]; [discriminate|]. apply valid_inv in Hs as (c' & t & Hsc & Es & _).
    rewrite Es, next_char_utf8 in E by exact Hsc. injection E as <-. apply is_scalar_iff, Hsc.
  - eapply yields_pmap; [apply yields_string, Hw|]. intros bs [H1 H2]; cbn [has_ty]. unfold str_ok, usize_ok.
    rewrite H1; cbn [andb]. apply N.ltb_lt, H2.
  - intros s v r Hs H. pose proof H as H'. apply run_pmap_ok in H as (bs & H & ->).
    cbn [has_ty]. unfold buf_ok, usize_ok. apply andb_true_intro; split.
    + apply bytes_okb_ok. eapply yields_byte_buf; eassumption.
    + destruct Hc as [Hc|Hc]; [|discriminate]. apply N.ltb_lt. eapply (yields_byte_buf_len c); eassumption.
  - eapply yields_pmap with (P := fun o => match o with Some v => has_ty c d v = true | None => True end).
    + eapply yields_bind with (P := fun _ => True); [intros s a r _ _; exact I|].
      intros [|] _; [eapply yields_pmap; [apply IHd; assumption|auto]|apply yields_Ret; exact I].
    + intros [v|]; auto.
  - apply yields_Ret; reflexivity.
  - apply yields_Ret; reflexivity.
  - eapply yields_pmap; [apply IHd; assumption|auto].
  - eapply yields_pmap; [apply yields_vec, IHd; assumption|]. intros l [Hl HF]. cbn [has_ty].
    rewrite N.eqb_refl. unfold usize_ok. apply N.ltb_lt in Hl; rewrite Hl. cbn [andb].
    apply forallb_forall. rewrite Forall_forall in HF. exact HF.
  - (* tuple *) eapply yields_pmap with (P := Forall2 (fun d v => has_ty c d v = true) ds).
    + rewrite forallb_forall in Hwf.
      assert (HF : Forall2 (yields c) (map (de c) ds) (map (fun d v => has_ty c d v = true) ds)).
      { assert (H' : Forall (fun d => yields c (de c d) (fun v => has_ty c d v = true)) ds).
        { rewrite Forall_forall in H |- *. intros d Hd. apply (H d Hd); [apply Hwf, Hd|exact (wide_part1 c is_buf ds d Hc Hd)]. }
        clear - H'. induction H'; cbn [map]; constructor; assumption. }
      eapply yields_weaken; [apply yields_sequence, HF|]. intros l Hl.
      clear - Hl. revert l Hl; induction ds as [|d ds IH]; cbn [map]; intros l Hl; inversion Hl; subst; constructor; auto.
    + intros l Hl; cbn [has_ty]. apply forall2b_Forall2, Hl.
  - (* tuple struct *) eapply yields_pmap with (P := Forall2 (fun d v => has_ty c d v = true) ds).
    + rewrite forallb_forall in Hwf.
      assert (HF : Forall2 (yields c) (map (de c) ds) (map (fun d v => has_ty c d v = true) ds)).
      { assert (H' : Forall (fun d => yields c (de c d) (fun v => has_ty c d v = true)) ds).
        { rewrite Forall_forall in H |- *. intros d Hd. apply (H d Hd); [apply Hwf, Hd|exact (wide_part1 c is_buf ds d Hc Hd)]. }
        clear - H'. induction H'; cbn [map]; constructor; assumption. }
      eapply yields_weaken; [apply yields_sequence, HF|]. intros l Hl.
      clear - Hl. revert l Hl; induction ds as [|d ds IH]; cbn [map]; intros l Hl; inversion Hl; subst; constructor; auto.
    + intros l Hl; cbn [has_ty]. apply forall2b_Forall2, Hl.
  - (* map *) eapply yields_pmap; [apply yields_map; [exact Hw|apply IHd; assumption]|].
    intros m (Hl & Hs & HF). cbn [has_ty]. rewrite strkeys_map, lenN_map, N.eqb_refl. unfold usize_ok at 1.
    apply N.ltb_lt in Hl; rewrite Hl, Hs. cbn [andb]. apply forallb_forall; intros kv Hkv.
    rewrite Forall_forall in HF. specialize (HF kv Hkv) as [H1 H2]. rewrite H1, H2; reflexivity.
  - (* struct *)
    apply andb_prop in Hwf as [Hwf Hfs]. rewrite forallb_forall in Hfs.
    set (R := fun (nf : string * dty) v => has_ty c (snd nf) v = true).
    eapply yields_pmap with (P := Forall2 R fs).
    + eapply yields_bind with (P := Forall2 (fun nf s => match s with Some a => R nf a | None => True end) fs).
      * apply yields_struct_loop.
        -- assert (H' : Forall (fun nf => yields c (de c (snd nf)) (R nf)) fs).
           { rewrite Forall_forall in H |- *. intros nf Hd. apply (H nf Hd); [apply Hfs, Hd|exact (wide_part c is_buf fs nf Hc Hd)]. }
           clear - H'. induction H'; cbn [map]; constructor; assumption.
        -- clear. induction fs as [|nf fs IH]; cbn [map]; constructor; [exact I|exact IH].
      * intros slots Hs. apply yields_fill_missing; [|exact Hs].
        clear. induction fs as [|[n d] fs IH]; cbn [map]; constructor; [|exact IH].
        cbn [snd]. unfold missing. destruct d; try exact I. reflexivity.
    + intros l Hl. cbn [has_ty]. apply forall2b_Forall2.
      clear - Hl. induction Hl as [|nf v fs l Hv Hl IH]; cbn [map combine]; constructor; [|exact IH].
      cbn [fst snd]. rewrite String.eqb_refl. exact Hv.
  - (* enum *)
    apply andb_prop in Hwf as [Hn Hvs]. rewrite forallb_forall in Hvs. rewrite Forall_forall in H.
    eapply yields_bind with (P := fun _ => True); [intros s a r _ _; exact I|]. intros i _.
    rewrite pickN_map. destruct (pickN vs i) as [[k dp]|] eqn:E; [|apply yields_Fail]. cbn [option_map fst snd].
    apply pickN_some in E as Hin. destruct Hin as [Hin _].
    specialize (Hvs _ Hin). cbn [fst snd] in Hvs. apply andb_prop in Hvs as [Hv1 Hv2].
    eapply yields_pmap; [apply (H _ Hin); [exact Hv2|exact (wide_part2 c is_buf vs _ Hc Hin)]|]. cbn [snd]. intros v Hv.
    destruct k; cbn [payload_shape] in Hv1.
    + destruct dp; try discriminate. destruct v; try discriminate. cbn [variant_sval has_ty]. cbv zeta. rewrite pickN_map, E. reflexivity.
    + assert (Ev : variant_sval KNewtype i v = SNewtypeVariant i v) by (destruct v; reflexivity).
      rewrite Ev. cbn [has_ty]. cbv zeta. rewrite pickN_map, E. exact Hv.
    + destruct dp; try discriminate. destruct v; try discriminate. cbn [variant_sval].
      change (has_ty c (DEnum vs) (STupleVariant i l)) with
        (match pickN (map (fun kd => match match fst kd with KTuple => Some (STuple l) | _ => None end with Some x => has_ty c (snd kd) x | None => false end) vs) i
         with Some b => b | None => false end).
      rewrite pickN_map, E. exact Hv.
    + destruct dp; try discriminate. destruct v; try discriminate. cbn [variant_sval].
      change (has_ty c (DEnum vs) (SStructVariant i l)) with
        (match pickN (map (fun kd => match match fst kd with KStruct => Some (SStruct l) | _ => None end with Some x => has_ty c (snd kd) x | None => false end) vs) i
         with Some b => b | None => false end).
      rewrite pickN_map, E. exact Hv.
  - eapply yields_pmap; [apply yields_vec_u8|]. intros bs Hb; exact Hb.
  - eapply yields_pmap; [apply yields_vec_u8|]. intros bs Hb; exact Hb.
  - eapply yields_pmap with (P := fun p => has_ty c DBigDecimal (big_decimal_sval (fst p) (snd p)) = true); [|auto].
    eapply yields_bind; [apply yields_vec_u8|]. intros [|b bs] Hb; [apply yields_Ret; reflexivity|].
    eapply yields_bind; [apply yields_i64|]. intros z Hz; apply yields_Ret. cbn [fst snd big_decimal_sval].
    unfold has_ty. change (match vec_u8 (b :: bs) with SU8 0 => vec_u8_ok c (vec_u8 (b :: bs)) | _ => vec_u8_ok c (vec_u8 (b :: bs)) end) with (vec_u8_ok c (vec_u8 (b :: bs))).
    unfold vec_u8 at 1. cbv iota beta. fold (vec_u8 (b :: bs)). rewrite Hb, Hz. reflexivity.
  - (* date *)
    eapply yields_pmap with (P := fun p => has_ty c DDate (date_sval c (fst p) (snd p)) = true); [|auto].
    eapply yields_bind; [apply yields_i32|]. intros y0 Hy0.
    destruct (arith_s c 32 (y0 + YEAR_OFFSET)) as [y|] eqn:Ey; cbn [or_overflow bind]; [|apply yields_Crash].
    eapply yields_bind; [apply yields_u16|]. intros o0 Ho0.
    destruct (arith_u c 16 (Z.of_N o0 + Z.of_N ORDINAL_OFFSET)) as [o|] eqn:Eo; cbn [or_overflow bind]; [|apply yields_Crash].
    apply yields_Ret. cbn [fst snd]. unfold date_sval.
    rewrite (arith_s_inv _ _ _ Hy0 Ey), (arith_u_inv _ _ _ Ho0 Eo). cbn [has_ty]. rewrite Hy0.
    apply N.ltb_lt in Ho0 as Ho1. rewrite Ho1. cbn [andb].
    apply arith_s_add in Ey. destruct (overflow_checks c) eqn:Eov; [|reflexivity]. cbn [negb orb] in *. rewrite Ey. cbn [andb].
    apply N.ltb_lt. unfold arith_u in Eo. rewrite Eov in Eo. unfold ORDINAL_OFFSET in *.
    change (2 ^ Z.of_N 16)%Z with 65536%Z in Eo. change (2 ^ 16) with 65536 in *.
    destruct ((0 <=? Z.of_N o0 + Z.of_N 1) && (Z.of_N o0 + Z.of_N 1 <? 65536))%Z eqn:E2; [lia|discriminate].
  - eapply yields_pmap with (P := fun p => in_s 64 (fst p) = true /\ snd p < 2 ^ 32).
    + eapply yields_bind; [apply yields_i64|]. intros t Ht. eapply yields_bind; [apply yields_u32|]. intros n Hn.
      apply yields_Ret; auto.
    + intros [t n] [Ht Hn]; cbn [fst snd] in *. unfold date_time_sval. cbn [has_ty]. rewrite !String.eqb_refl, Ht. cbn [andb].
      apply N.ltb_lt, Hn.
Qed.
Lemma typed_de c d : wf_cfg c -> usize_bits c = 64 -> 4096 <= heap_limit c -> wf_dty d = true ->
  yields c (de c d) (fun v => has_ty c d v = true).
Proof. intros Hw Hc Hh Hd. exact (typed_de_any c d Hw Hh Hd (or_introl Hc)). Qed.
