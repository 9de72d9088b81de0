(** * Proofs for PropCalls.v. *)
From Coq Require Import String.
From Verif Require Import Base BaseFacts Varint VarintFacts Utf8 Serde SerdeFacts Header HeaderFacts Body BodyFacts Big Time Derive DeriveFacts DeriveDe Rec RecFacts Std StdFacts ArchFacts PrimFacts SerdeProps SpecCalls.
Local Open Scope list_scope.
Local Open Scope N_scope.

(** [spends c k j p]: a successful run of [p] makes at least [k] calls fewer and at most [j] calls
    more than two for each byte. *)
Definition spends {A} (c : cfg) (k j : N) (p : prog A) : Prop :=
  forall s, match run c p s with
            | OOk _ r => reader_calls c p s + k + 2 * lenN r <= 2 * lenN s + j
            | _ => reader_calls c p s <= 2 * lenN s + 1 + j
            end.
Notation thrifty c := (spends c 0 0).

Lemma calls_bind {A B} c (p : prog A) (f : A -> prog B) s :
  reader_calls c (bind p f) s = reader_calls c p s + match run c p s with OOk a r => reader_calls c (f a) r | _ => 0 end.
Proof.
  revert s. induction p as [a|e|q|n e k IH|n e k IH|n k IH]; intros s; cbn [bind reader_calls run]; try lia.
  - destruct (lenN s <? n); [lia|]. rewrite IH. lia.
  - rewrite IH. lia.
  - destruct (alloc_result c n); [lia|]. apply IH.
Qed.
Lemma spends_bind {A B} c k1 j1 k2 j2 k j (p : prog A) (f : A -> prog B) : spends c k1 j1 p -> (forall a, spends c k2 j2 (f a)) ->
  k + j1 + j2 <= j + k1 + k2 -> j1 <= j -> j1 + j2 <= j + k1 -> spends c k j (bind p f).
Proof.
  intros Hp Hf H1 H2 H3 s. rewrite calls_bind, run_bind. specialize (Hp s). destruct (run c p s) as [a r|e|q]; cbn [obind]; [|lia|lia].
  specialize (Hf a r). destruct (run c (f a) r); lia.
Qed.
Lemma thrifty_bind {A B} c (p : prog A) (f : A -> prog B) : thrifty c p -> (forall a, thrifty c (f a)) -> thrifty c (bind p f).
Proof. intros Hp Hf. eapply spends_bind; [exact Hp|exact Hf|lia|lia|lia]. Qed.
Lemma saves_bind {A B} c (p : prog A) (f : A -> prog B) : spends c 1 0 p -> (forall a, spends c 0 1 (f a)) -> thrifty c (bind p f).
Proof. intros Hp Hf. eapply spends_bind; [exact Hp|exact Hf|lia|lia|lia]. Qed.
Lemma spends_ret {A} c (a : A) : thrifty c (Ret a).
Proof. intros s. cbn. lia. Qed.
Lemma spends_fail {A} c j e : spends c 0 j (@Fail A e).
Proof. intros s. cbn. lia. Qed.
Lemma spends_crash {A} c j q : spends c 0 j (@Crash A q).
Proof. intros s. cbn. lia. Qed.
Lemma spends_weaken {A} c k j k' j' (p : prog A) : spends c k j p -> k' <= k -> j <= j' -> spends c k' j' p.
Proof. intros H Hk Hj s. specialize (H s). destruct (run c p s); lia. Qed.
Lemma thrifty_saves {A} c (p : prog A) : spends c 1 0 p -> thrifty c p.
Proof. intros H. eapply spends_weaken; [exact H|lia|lia]. Qed.
Lemma spends_alloc {A} c k j n (p : prog A) : spends c k j p -> spends c k j (Alloc n p).
Proof. intros H s. cbn [run reader_calls]. destruct (alloc_result c n); [lia|]. apply H. Qed.
Lemma spends_pmap {A B} c k j (f : A -> B) (p : prog A) : spends c k j p -> spends c k j (pmap f p).
Proof. intros H. eapply spends_bind; [exact H|intros a; apply spends_ret|lia|lia|lia]. Qed.

Lemma lenN_dropN n (s : list N) : lenN (dropN n s) = lenN s - n.
Proof.
  unfold dropN. destruct (lenN s <=? n) eqn:E; [unfold lenN in *; cbn [length]; lia|].
  unfold lenN in *. rewrite skipn_length. lia.
Qed.
(** A read_exact of one byte or more saves a call. *)
Lemma spends_exact {A} c n e (k : list N -> prog A) : 1 <= n -> (forall b, thrifty c (k b)) -> spends c 1 0 (ReadExact n e k).
Proof.
  intros Hn H s. cbn [run reader_calls]. destruct (lenN s <? n) eqn:E; [lia|].
  specialize (H (takeN n s) (dropN n s)). rewrite lenN_dropN in H. destruct (run c (k (takeN n s)) (dropN n s)); lia.
Qed.
Lemma costs_exact {A} c n e (k : list N -> prog A) : (forall b, thrifty c (k b)) -> spends c 0 1 (ReadExact n e k).
Proof.
  intros H s. cbn [run reader_calls]. destruct (lenN s <? n) eqn:E; [lia|].
  specialize (H (takeN n s) (dropN n s)). rewrite lenN_dropN in H. destruct (run c (k (takeN n s)) (dropN n s)); lia.
Qed.
Lemma costs_limit {A} c n e (k : list N -> prog A) : (forall b, thrifty c (k b)) -> spends c 0 1 (ReadLimit n e k).
Proof.
  intros H s. cbn [run reader_calls].
  specialize (H (takeN n s) (dropN n s)). rewrite lenN_dropN in H. destruct (run c (k (takeN n s)) (dropN n s)); lia.
Qed.

Ltac one_read := apply spends_exact; [lia|intros ?; apply spends_ret].
Ltac varint_calls := intros; unfold dec_u8, dec_u16, dec_u32, dec_u64, dec_prefix; cbn [bind]; apply spends_exact; [lia|]; intros p; cbv zeta;
  repeat match goal with |- context [if ?b then _ else _] => destruct b end; first [apply spends_ret | apply thrifty_saves; one_read].
Lemma calls_u8 c e : spends c 1 0 (dec_u8 e). Proof. varint_calls. Qed.
Lemma calls_u16 c e : spends c 1 0 (dec_u16 e). Proof. varint_calls. Qed.
Lemma calls_u32 c e : spends c 1 0 (dec_u32 e). Proof. varint_calls. Qed.
Lemma calls_u64 c e : spends c 1 0 (dec_u64 e). Proof. varint_calls. Qed.
Lemma calls_byte c : spends c 1 0 de_byte. Proof. one_read. Qed.
Lemma calls_bool c : thrifty c de_bool.
Proof.
  unfold de_bool. apply thrifty_bind; [apply thrifty_saves, calls_byte|]. intros b.
  repeat match goal with |- context [if ?b then _ else _] => destruct b end; first [apply spends_ret | apply spends_fail].
Qed.

Lemma calls_string c : thrifty c (de_string c).
Proof.
  unfold de_string. apply saves_bind; [apply calls_u64|]. intros len. destruct (len <? STR_MAX).
  - apply costs_exact. intros b. destruct (utf8_valid b); [apply spends_ret|apply spends_fail].
  - apply costs_limit. intros b. destruct (utf8_valid b); [|apply spends_fail]. destruct (lenN b =? as_usize c len); [apply spends_ret|apply spends_fail].
Qed.
Lemma calls_char c : thrifty c (de_char c).
Proof. unfold de_char. apply thrifty_bind; [apply calls_string|]. intros s. destruct (next_char s); [apply spends_ret|apply spends_fail]. Qed.

(** Loops, with an invariant of the state. *)
Definition keeps {A} (c : cfg) (P : A -> Prop) (p : prog A) : Prop := forall s a r, run c p s = OOk a r -> P a.
Lemma fold_pos_inv {S} c (P : S -> Prop) n (st : S -> prog S) :
  (forall s, P s -> thrifty c (st s) /\ keeps c P (st s)) -> forall s, P s -> thrifty c (fold_pos n st s) /\ keeps c P (fold_pos n st s).
Proof.
  intros H.
  assert (B : forall (p : prog S) (f : S -> prog S), thrifty c p /\ keeps c P p -> (forall a, P a -> thrifty c (f a) /\ keeps c P (f a)) ->
     thrifty c (bind p f) /\ keeps c P (bind p f)).
  { intros p f [Hp Kp] Hf. split.
    - intros s. rewrite calls_bind, run_bind. specialize (Hp s). specialize (Kp s). destruct (run c p s) as [a r|e|q]; cbn [obind]; [|lia|lia].
      destruct (Hf a (Kp a r eq_refl)) as [Ha _]. specialize (Ha r). destruct (run c (f a) r); lia.
    - intros s a r. rewrite run_bind. specialize (Kp s). destruct (run c p s) as [a' r'|e|q]; cbn [obind]; [|discriminate|discriminate].
      apply (proj2 (Hf a' (Kp a' r' eq_refl))). }
  induction n as [m IH|m IH|]; intros s Hs; cbn [fold_pos].
  - apply B; [apply H, Hs|]. intros a Ha. apply B; [apply IH, Ha|apply IH].
  - apply B; [apply IH, Hs|apply IH].
  - apply H, Hs.
Qed.
Lemma thrifty_foldN {S} c n (st : S -> prog S) s : (forall s, thrifty c (st s)) -> thrifty c (foldN n st s).
Proof.
  intros H. destruct n; cbn [foldN]; [apply spends_ret|].
  apply (fold_pos_inv c (fun _ => True)); [|exact I]. intros x _. split; [apply H|]. intros ? ? ? _. exact I.
Qed.
Lemma thrifty_repeatN {A} c n (p : prog A) : thrifty c p -> thrifty c (repeatN n p).
Proof.
  intros H. apply thrifty_bind; [|intros; apply spends_ret]. apply thrifty_foldN. intros acc. apply thrifty_bind; [exact H|intros; apply spends_ret].
Qed.
Lemma thrifty_sequence {A} c (ps : list (prog A)) : Forall (fun p => thrifty c p) ps -> thrifty c (sequence ps).
Proof.
  induction 1 as [|p t H _ IH]; cbn [sequence]; [apply spends_ret|]. apply thrifty_bind; [exact H|]. intros a.
  apply thrifty_bind; [exact IH|]. intros l; apply spends_ret.
Qed.
Lemma as_usize_le c n : as_usize c n <= n.
Proof. unfold as_usize. apply N.mod_le. apply N.pow_nonzero. discriminate. Qed.
Lemma calls_byte_buf c : thrifty c (de_byte_buf c).
Proof.
  unfold de_byte_buf. apply saves_bind; [apply calls_u64|]. intros len. destruct (BUF_MAX <? len).
  - apply spends_alloc. apply (spends_weaken c 0 0); [|lia|lia].
    apply thrifty_bind; [|intros [?|?]; [apply spends_crash|apply spends_ret]].
    set (P := fun st : buf_state + list N => match st with inl (_, rlen, pos) => rlen = pos | inr _ => True end).
    assert (St : forall st, P st -> thrifty c (buf_step c len st) /\ keeps c P (buf_step c len st)).
    { intros [[[acc rlen] pos]|r] Hst; cbn [buf_step]; [|split; [apply spends_ret|intros s a r' E; cbn [run] in E; injection E as <- _; exact I]].
      cbn in Hst. subst rlen. destruct (pos <? as_usize c len) eqn:E; cbv zeta.
      - split.
        + apply thrifty_saves, spends_exact; [|intros b; apply spends_ret]. pose proof (as_usize_le c len). unfold BUF_MAX. lia.
        + intros s a r. cbn [run]. destruct (lenN s <? N.min BUF_MAX (len - pos)); [discriminate|]. intros H. injection H as <- _. reflexivity.
      - split; [apply spends_ret|]. intros s a r' H. cbn [run] in H. injection H as <- _. exact I. }
    destruct (len / BUF_MAX + 2); cbn [foldN]; [apply spends_ret|].
    apply (fold_pos_inv c P); [exact St|reflexivity].
  - apply spends_alloc, costs_exact. intros b; apply spends_ret.
Qed.

Lemma calls_option {A} c (p : prog A) : thrifty c p -> thrifty c (de_option p).
Proof. intros H. unfold de_option. apply thrifty_bind; [apply calls_bool|]. intros [|]; [apply spends_pmap, H|apply spends_ret]. Qed.
Lemma calls_vec {A} c (p : prog A) : thrifty c p -> thrifty c (de_vec c p).
Proof. intros H. unfold de_vec. apply thrifty_bind; [apply thrifty_saves, calls_u64|]. intros n. apply thrifty_repeatN, H. Qed.
Lemma calls_map_n {A} c n (p : prog A) : thrifty c p -> thrifty c (de_map_n c n p).
Proof.
  intros H. unfold de_map_n. apply thrifty_foldN. intros m. apply thrifty_bind; [apply calls_string|]. intros k.
  apply thrifty_bind; [exact H|]. intros v; apply spends_ret.
Qed.
Lemma calls_map {A} c (p : prog A) : thrifty c p -> thrifty c (de_map c p).
Proof. intros H. unfold de_map. apply thrifty_bind; [apply thrifty_saves, calls_u64|]. intros n. apply calls_map_n, H. Qed.
Lemma calls_loop {A} c keys (fs : list (string * prog A)) slots :
  Forall (fun f => thrifty c (snd f)) fs -> thrifty c (struct_loop keys fs slots).
Proof.
  intros H. revert slots. induction keys as [|key t IH]; intros slots; cbn [struct_loop]; [apply spends_ret|].
  assert (F : forall i p, find_field key fs = Some (i, p) -> thrifty c p).
  { clear -H. induction H as [|[n q] fs Hq _ IH]; cbn [find_field]; [discriminate|]. intros i p. destruct (String.eqb key n).
    - intros E. injection E as _ <-. exact Hq.
    - destruct (find_field key fs) as [[j x]|]; [|discriminate]. intros E. injection E as _ <-. exact (IH j x eq_refl). }
  destruct (find_field key fs) as [[i p]|]; [|apply spends_crash].
  destruct (nth_error slots i) as [[a|]|]; [apply spends_fail| |apply spends_fail].
  apply thrifty_bind; [exact (F i p eq_refl)|]. intros a; apply IH.
Qed.
Lemma calls_missing {A} c (miss slots : list (option A)) : thrifty c (fill_missing miss slots).
Proof.
  revert slots. induction miss as [|m ms IH]; intros [|s ss]; cbn [fill_missing]; try apply spends_ret.
  destruct s, m; try apply spends_fail; (apply thrifty_bind; [apply IH|intros l; apply spends_ret]).
Qed.
Lemma calls_struct {A} c keys (fs : list (string * prog A)) miss : Forall (fun f => thrifty c (snd f)) fs -> thrifty c (de_struct keys fs miss).
Proof. intros H. unfold de_struct. apply thrifty_bind; [apply calls_loop, H|]. intros l; apply calls_missing. Qed.
Lemma calls_pick {A} c (l : list (prog A)) i p : Forall (fun p => thrifty c p) l -> pickN l i = Some p -> thrifty c p.
Proof.
  intros H. revert i. induction H as [|q t Hq _ IH]; intros i; cbn [pickN]; [discriminate|].
  destruct (i =? 0); [intros E; injection E as <-; exact Hq|apply IH].
Qed.
Lemma calls_big c : thrifty c (de_big c).
Proof. apply calls_vec, thrifty_saves, calls_byte. Qed.
Lemma calls_i64 c : thrifty c de_i64.
Proof. apply spends_pmap, thrifty_saves, calls_u64. Qed.
Lemma calls_i32 c : thrifty c de_i32.
Proof. apply spends_pmap, thrifty_saves, calls_u32. Qed.
Lemma calls_big_decimal c : thrifty c (de_big_decimal c).
Proof.
  unfold de_big_decimal. apply thrifty_bind; [apply calls_big|]. intros [|b bs]; [apply spends_ret|].
  apply thrifty_bind; [apply calls_i64|intros; apply spends_ret].
Qed.
Lemma calls_or {A} c (o : option A) : thrifty c (or_overflow o).
Proof. destruct o; [apply spends_ret|apply spends_crash]. Qed.
Lemma calls_date c : thrifty c (de_date c).
Proof.
  unfold de_date. apply thrifty_bind; [apply calls_i32|intros y0]. apply thrifty_bind; [apply calls_or|intros y].
  apply thrifty_bind; [apply thrifty_saves, calls_u16|intros o0]. apply thrifty_bind; [apply calls_or|intros o]. apply spends_ret.
Qed.
Lemma calls_date_time c : thrifty c de_date_time.
Proof.
  unfold de_date_time. apply thrifty_bind; [apply calls_i64|intros t]. apply thrifty_bind; [apply thrifty_saves, calls_u32|intros n]. apply spends_ret.
Qed.
Ltac prim_calls := first
  [ apply spends_ret | apply spends_fail | apply spends_crash
  | apply calls_bool | apply calls_i64 | apply calls_i32 | apply calls_string | apply calls_char | apply calls_byte_buf
  | apply calls_big | apply calls_big_decimal | apply calls_date | apply calls_date_time
  | apply thrifty_saves; first [apply calls_byte | apply calls_u16 | apply calls_u32 | apply calls_u64 | apply calls_u8]
  | apply thrifty_saves; one_read
  | apply spends_pmap, thrifty_saves; first [apply calls_byte | apply calls_u16 | apply calls_u32 | apply calls_u64 ] ].


Lemma calls_usize c : thrifty c (de_usize c).
Proof. unfold de_usize. apply thrifty_bind; [prim_calls|]. intros n. destruct (n <? _); prim_calls. Qed.
Lemma calls_isize c : thrifty c (de_isize c).
Proof. unfold de_isize. apply thrifty_bind; [prim_calls|]. intros n. destruct (in_s _ n); prim_calls. Qed.
Lemma calls_enum c (alts : list (N -> prog sval)) : Forall (fun a => forall i, thrifty c (a i)) alts -> thrifty c (de_enum alts).
Proof.
  intros H. unfold de_enum. apply thrifty_bind; [prim_calls|]. intros i. generalize i at 2. intros j. revert i.
  induction H as [|a t Ha _ IH]; intros i; cbn [pickN]; [apply spends_fail|]. destruct (i =? 0); [apply Ha|apply IH].
Qed.
Theorem calls_de c d : thrifty c (de c d).
Proof.
  induction d using dty_ind2; cbn [de];
    try (apply spends_pmap; first [apply calls_usize | apply calls_isize | prim_calls]); try prim_calls.
  - apply spends_pmap, calls_option, IHd.
  - apply spends_pmap, IHd.
  - apply spends_pmap, calls_vec, IHd.
  - apply spends_pmap, thrifty_sequence. induction H; cbn [map]; constructor; assumption.
  - apply spends_pmap, thrifty_sequence. induction H; cbn [map]; constructor; assumption.
  - apply spends_pmap, calls_map, IHd.
  - apply spends_pmap, calls_struct. induction H; cbn [map]; constructor; assumption.
  - apply calls_enum. induction H; cbn [map]; constructor; [intros i; apply spends_pmap; assumption|assumption].
Qed.

Theorem calls_bde c h : thrifty c (bde c h).
Proof.
  apply (header_ind2 (fun h => thrifty c (bde c h))); clear h.
  - intros []; try exact I; cbn [bde]; try (apply spends_pmap; prim_calls); prim_calls.
  - intros h IHh. cbn [bde]. apply spends_pmap, calls_option, IHh.
  - intros h IHh. cbn [bde]. apply thrifty_bind; [prim_calls|]. intros n. apply spends_alloc, spends_pmap, thrifty_repeatN, IHh.
  - intros h IHh. cbn [bde]. apply thrifty_bind; [prim_calls|]. intros n. apply spends_pmap, calls_map_n, IHh.
  - intros hs H. cbn [bde]. apply spends_alloc, spends_pmap, thrifty_sequence. induction H; cbn [map]; constructor; assumption.
  - intros hs H. cbn [bde]. apply thrifty_bind; [prim_calls|]. intros i.
    assert (F : Forall (fun p => thrifty c p) (map (bde c) hs)) by (induction H; cbn [map]; constructor; assumption).
    destruct (pickN (map (bde c) hs) (as_usize c i)) eqn:E; [|apply spends_fail]. apply spends_pmap. exact (calls_pick c _ _ _ F E).
Qed.

Theorem calls_hde c depth : thrifty c (hde c depth).
Proof.
  induction depth as [|d IH]; cbn [hde]; [apply spends_crash|]. apply thrifty_saves, spends_exact; [lia|]. intros b. cbv zeta.
  assert (V : forall mk : list header -> header, thrifty c (size <- dec_u16 EIo ;; Alloc (size * size_of_header c) (pmap mk (repeatN size (hde c d))))).
  { intros mk. apply thrifty_bind; [prim_calls|]. intros n. apply spends_alloc, spends_pmap, thrifty_repeatN, IH. }
  repeat match goal with |- context [if ?b then _ else _] => destruct b end;
    first [apply spends_ret | apply spends_pmap, IH | apply V | apply spends_fail].
Qed.

(** Derived types. *)
Lemma calls_seq_fields c fs : Forall (fun f => thrifty c (df_read f)) fs -> thrifty c (seq_fields fs).
Proof.
  induction 1 as [|f t Hf _ IH]; cbn [seq_fields]; [apply spends_ret|].
  destruct (serde_skips_de (df_attrs f)); [apply thrifty_bind; [exact IH|intros l; apply spends_ret]|].
  apply thrifty_bind; [exact Hf|]. intros v. apply thrifty_bind; [exact IH|intros l; apply spends_ret].
Qed.
Lemma calls_fill c fs slots : thrifty c (fill_fields fs slots).
Proof.
  revert slots. induction fs as [|f t IH]; intros slots; cbn [fill_fields]; [apply spends_ret|].
  destruct (serde_skips_de (df_attrs f)); [apply thrifty_bind; [apply IH|intros l; apply spends_ret]|].
  destruct slots as [|[v|] s]; [apply spends_fail| |].
  - apply thrifty_bind; [apply IH|intros l; apply spends_ret].
  - destruct (df_miss f); [|apply spends_fail]. apply thrifty_bind; [apply IH|intros l; apply spends_ret].
Qed.
Lemma calls_members c k fs : Forall (fun f => thrifty c (df_read f)) fs -> thrifty c (members_de k fs).
Proof.
  intros H. destruct k; cbn [members_de]; [|apply calls_seq_fields, H|apply spends_ret].
  unfold map_fields. apply thrifty_bind; [|intros l; apply calls_fill]. apply calls_loop.
  unfold kept. induction H as [|f t Hf _ IH]; cbn [filter map]; [constructor|].
  destruct (negb (serde_skips_de (df_attrs f))); [cbn [map]; constructor; assumption|exact IH].
Qed.
Lemma calls_leaf c l : thrifty c (leaf_de c l).
Proof.
  destruct l; cbn [leaf_de]; try (apply spends_pmap; prim_calls); try prim_calls.
  - apply spends_pmap, spends_pmap, calls_big.
  - apply spends_pmap, spends_pmap, calls_big.
  - apply spends_pmap. unfold fmt_de_bigdecimal. apply thrifty_bind; [apply calls_big|]. intros bs. cbv zeta.
    destruct (from_signed_bytes_le bs =? 0)%Z; [apply spends_ret|]. apply thrifty_bind; [apply calls_i64|intros; apply spends_ret].
  - apply spends_pmap. unfold fmt_de_date. apply thrifty_bind; [apply calls_i32|intros y0]. apply thrifty_bind; [apply calls_or|intros y].
    apply thrifty_bind; [prim_calls|intros o0]. apply thrifty_bind; [apply calls_or|intros o].
    destruct (from_ordinal_date y o); prim_calls.
  - apply spends_pmap. unfold fmt_de_datetime. apply thrifty_bind; [apply calls_i64|intros ts]. apply thrifty_bind; [prim_calls|intros ns].
    destruct (from_unix_timestamp ts) as [t|]; [|prim_calls]. destruct (odt_add_ns t ns); prim_calls.
Qed.
Theorem calls_rde c dflt t : thrifty c (rde c dflt t).
Proof.
  assert (L : forall fs : list (attrs * (string * rty)), Forall (fun f => thrifty c (rde c dflt (snd (snd f)))) fs ->
    Forall (fun f => thrifty c (df_read f))
      (map (fun f => DField (fst f) (fst (snd f)) (dflt (snd (snd f))) (is_option (snd (snd f))) (rde c dflt (snd (snd f)))) fs)).
  { induction 1 as [|f fs Hf _ IH]; cbn [map]; constructor; [exact Hf|exact IH]. }
  induction t using rty_ind2; cbn [rde]; try (apply spends_fail).
  - apply calls_leaf.
  - apply spends_pmap, calls_option, IHt.
  - apply spends_pmap, calls_vec, IHt.
  - apply spends_pmap, calls_map, IHt.
  - apply spends_pmap, calls_map, IHt.
  - apply spends_pmap, thrifty_sequence. induction H; cbn [map]; constructor; assumption.
  - apply spends_pmap, calls_members, L, H.
  - apply thrifty_bind; [prim_calls|]. intros i.
    match goal with |- spends _ _ _ (match pickN (enum_alts _ ?x) ?i with _ => _ end) => assert (F : forall n, Forall (fun p => thrifty c p) (enum_alts n x)) end.
    { induction H as [|v vs Hv _ IH]; intros n; cbn [map enum_alts]; [constructor|].
      destruct (serde_skips_de (fst v)); [apply IH|]. constructor; [|apply IH]. apply spends_pmap, calls_members, L, Hv. }
    match goal with |- spends _ _ _ (match ?x with _ => _ end) => destruct x eqn:E end; [|apply spends_fail]. exact (calls_pick c _ _ _ (F 0) E).
Qed.

(** Recursive types. *)
Theorem calls_item c items depth i : thrifty c (item_de c items depth i).
Proof.
  revert i. induction depth as [|d IH]; intros i; cbn [item_de]; [apply spends_crash|].
  destruct (nth_error items i) as [t|]; [|apply spends_crash]. clear i.
  induction t using xty_ind2; cbn [xde].
  - apply calls_de.
  - apply spends_pmap, calls_option, IHt.
  - apply spends_pmap, IHt.
  - apply spends_pmap, calls_vec, IHt.
  - apply spends_pmap, calls_map, IHt.
  - apply spends_pmap, thrifty_sequence. induction H; cbn [map]; constructor; assumption.
  - apply spends_pmap, thrifty_sequence. induction H; cbn [map]; constructor; assumption.
  - apply spends_pmap, calls_struct. induction H; cbn [map]; constructor; assumption.
  - apply calls_enum. induction H; cbn [map]; constructor; [intros i; apply spends_pmap; assumption|assumption].
  - apply IH.
Qed.

(** The standard library's types. *)
Lemma calls_octets c n : thrifty c (octets_de n).
Proof. apply thrifty_sequence, Forall_forall. intros p Hp. apply repeat_spec in Hp. subst p. prim_calls. Qed.
Lemma calls_std_enum c alts : Forall (fun p => thrifty c p) alts -> thrifty c (std_enum alts).
Proof.
  intros H. unfold std_enum. apply thrifty_bind; [prim_calls|]. intros i. destruct (pickN alts i) eqn:E; [|prim_calls]. exact (calls_pick c _ _ _ H E).
Qed.
Lemma calls_duration c a b : thrifty c (duration_de a b).
Proof.
  unfold duration_de. apply thrifty_bind; [apply calls_struct; repeat constructor; prim_calls|].
  intros [|x [|y [|z l]]]; try prim_calls. destruct (_ <? _); prim_calls.
Qed.
Lemma calls_range c p miss mk : thrifty c p -> thrifty c (range_de p miss mk).
Proof.
  intros H. unfold range_de. apply thrifty_bind; [apply calls_struct; repeat constructor; exact H|].
  intros [|x [|y [|z l]]]; prim_calls.
Qed.
Lemma calls_sock c n (mk : list N -> N -> stdval) : thrifty c (l <- octets_de n ;; port <- de_u16 ;; Ret (mk l port)).
Proof. apply thrifty_bind; [apply calls_octets|intros l]. apply thrifty_bind; [prim_calls|intros q; apply spends_ret]. Qed.
Lemma calls_user_enum c (alts : list (N -> prog stdval)) : Forall (fun a => forall i, thrifty c (a i)) alts -> thrifty c (user_enum alts).
Proof.
  intros H. unfold user_enum. apply thrifty_bind; [prim_calls|]. intros i. generalize i at 2. intros j. revert i.
  induction H as [|a t Ha _ IH]; intros i; cbn [pickN]; [apply spends_fail|]. destruct (i =? 0); [apply Ha|apply IH].
Qed.
Theorem calls_std c t : thrifty c (std_de c t).
Proof.
  induction t using stdty_ind2; cbn [std_de].
  - apply spends_pmap, calls_de.
  - apply thrifty_bind; [apply calls_de|]. intros v. destruct (is_zero v); prim_calls.
  - apply spends_pmap, calls_option, IHt.
  - apply spends_pmap, calls_vec, IHt.
  - apply spends_pmap, calls_vec, IHt.
  - apply spends_pmap, thrifty_sequence, Forall_forall. intros p Hp. apply repeat_spec in Hp. subst p. exact IHt.
  - apply spends_pmap, thrifty_sequence. induction H; cbn [map]; constructor; assumption.
  - apply calls_range, IHt.
  - apply calls_range, IHt.
  - apply calls_std_enum. repeat constructor; first [prim_calls | apply spends_pmap, IHt].
  - apply calls_std_enum. repeat constructor; apply spends_pmap; assumption.
  - apply spends_pmap, calls_duration.
  - apply thrifty_bind; [apply calls_duration|]. intros p. destruct (fst p <? 2 ^ 63); prim_calls.
  - apply thrifty_bind; [prim_calls|]. intros bs. destruct (existsb (N.eqb 0) bs); prim_calls.
  - apply calls_std_enum. constructor; [apply spends_pmap, calls_big|constructor; [prim_calls|constructor]].
  - apply spends_pmap; prim_calls.
  - apply spends_pmap, calls_octets.
  - apply spends_pmap, calls_octets.
  - apply calls_std_enum. constructor; [|constructor; [|constructor]]; apply spends_pmap, spends_pmap, calls_octets.
  - apply (calls_sock c 4).
  - apply (calls_sock c 16 (fun l q => XSock6 l q 0 0)).
  - apply calls_std_enum. constructor; [|constructor; [|constructor]];
      [apply (calls_sock c 4 (fun l q => XV4 (XSock4 l q)))|apply (calls_sock c 16 (fun l q => XV6 (XSock6 l q 0 0)))].
  - apply spends_pmap, calls_map, IHt.
  - apply spends_pmap, calls_struct. induction H; cbn [map]; constructor; assumption.
  - apply calls_user_enum. induction H as [|v vs Hv _ IH]; cbn [map]; constructor; [intros i; apply spends_pmap, Hv|exact IH].
Qed.

Lemma two_per {A} c (p : prog A) : thrifty c p -> forall s, two_per_byte (run c p s) s (reader_calls c p s).
Proof. intros H s. specialize (H s). unfold two_per_byte. destruct (run c p s); lia. Qed.

(** ** Bytes one by one, and in chunks *)
Section Bytes.
  Context {A : Type} (c : cfg) (one : prog A).
  Hypothesis one_ok : forall s, 1 <= lenN s -> exists a r, run c one s = OOk a r /\ lenN r + 1 = lenN s /\ reader_calls c one s = 1.
  Notation step := (fun acc => a <- one ;; Ret (a :: acc)).
  Lemma calls_each (p : positive) acc s : N.pos p <= lenN s ->
    exists acc' r, run c (fold_pos p step acc) s = OOk acc' r /\ lenN r + N.pos p = lenN s /\
      reader_calls c (fold_pos p step acc) s = N.pos p.
  Proof.
    assert (One : forall acc s, 1 <= lenN s -> exists acc' r, run c (step acc) s = OOk acc' r /\ lenN r + 1 = lenN s /\ reader_calls c (step acc) s = 1).
    { clear acc s. intros acc s H. destruct (one_ok s H) as (a & r & E & L & C). exists (a :: acc), r. rewrite run_bind, calls_bind, E, C.
      cbn [obind run reader_calls]. split; [reflexivity|lia]. }
    revert acc s. induction p as [m IH|m IH|]; intros acc s H; cbn [fold_pos].
    - destruct (One acc s ltac:(lia)) as (a1 & r1 & E1 & L1 & C1). destruct (IH a1 r1 ltac:(lia)) as (a2 & r2 & E2 & L2 & C2).
      destruct (IH a2 r2 ltac:(lia)) as (a3 & r3 & E3 & L3 & C3). exists a3, r3.
      rewrite run_bind, E1, calls_bind, E1, C1. cbn [obind]. rewrite run_bind, E2, calls_bind, E2, C2. cbn [obind]. rewrite E3, C3.
      split; [reflexivity|lia].
    - destruct (IH acc s ltac:(lia)) as (a2 & r2 & E2 & L2 & C2).
      destruct (IH a2 r2 ltac:(lia)) as (a3 & r3 & E3 & L3 & C3). exists a3, r3.
      rewrite run_bind, E2, calls_bind, E2, C2. cbn [obind]. rewrite E3, C3. split; [reflexivity|lia].
    - apply One, H.
  Qed.
  Lemma calls_ones n s : n <= lenN s -> reader_calls c (repeatN n one) s = n.
  Proof.
    intros H. unfold repeatN. rewrite calls_bind. destruct n as [|p]; cbn [foldN]; [reflexivity|].
    destruct (calls_each p [] s H) as (a & r & E & _ & C). rewrite E, C. cbn [reader_calls]. lia.
  Qed.
End Bytes.
Lemma calls_bytes c n s : n <= lenN s -> reader_calls c (repeatN n de_u8) s = n.
Proof.
  apply calls_ones. intros s' H. unfold de_u8, de_byte. cbn [run reader_calls]. replace (lenN s' <? 1) with false by lia.
  eexists _, _. split; [reflexivity|]. rewrite lenN_dropN. lia.
Qed.
Lemma calls_svals c n s : n <= lenN s -> reader_calls c (repeatN n (pmap SU8 de_u8)) s = n.
Proof.
  apply calls_ones. intros s' H. unfold pmap, de_u8, de_byte. cbn [bind run reader_calls]. replace (lenN s' <? 1) with false by lia.
  eexists _, _. split; [reflexivity|]. rewrite lenN_dropN. lia.
Qed.
Lemma calls_u64_range c e s : 1 <= reader_calls c (dec_u64 e) s <= 2.
Proof.
  unfold dec_u64, dec_prefix. cbn [bind reader_calls]. destruct (lenN s <? 1); [lia|]. cbv zeta.
  repeat match goal with |- context [if ?b then _ else _] => match b with (lenN _ <? _) => fail 1 | _ => destruct b end end;
    cbn [reader_calls]; repeat match goal with |- context [if ?b then _ else _] => destruct b end; lia.
Qed.
Lemma word_64 c n : wf_cfg c -> n < 2 ^ usize_bits c -> n < 2 ^ 64 /\ as_usize c n = n.
Proof.
  intros Hw H. split; [|apply N.mod_small, H]. eapply N.lt_le_trans; [exact H|]. apply N.pow_le_mono_r; [discriminate|].
  destruct (usize_bits_cases c Hw) as [->| ->]; lia.
Qed.
Lemma run_len c n s : n < 2 ^ 64 -> run c (dec_u64 ERead) (enc_u64 n ++ s) = OOk n s.
Proof. intros H. rewrite enc_u64_spec by exact H. apply run_u64_bytes, H. Qed.
Lemma lenN_app {A} (l m : list A) : lenN (l ++ m) = lenN l + lenN m.
Proof. unfold lenN. rewrite app_length. lia. Qed.
Lemma calls_vec_u8 c bs rest : wf_cfg c -> lenN bs < 2 ^ usize_bits c ->
  lenN bs + 1 <= reader_calls c (de_vec c de_u8) (enc_u64 (lenN bs) ++ bs ++ rest) <= lenN bs + 2.
Proof.
  intros Hw Hb. destruct (word_64 c _ Hw Hb) as [H64 Hu]. unfold de_vec. rewrite calls_bind, run_len by exact H64. rewrite Hu.
  rewrite calls_bytes by (rewrite lenN_app; lia). pose proof (calls_u64_range c ERead (enc_u64 (lenN bs) ++ bs ++ rest)). lia.
Qed.

(** Chunks still to come. *)
Definition chunks (len pos : N) : N := (len - pos + 4095) / 4096.
Lemma chunks_step len pos : pos < len -> chunks len (pos + N.min 4096 (len - pos)) + 1 <= chunks len pos.
Proof.
  intros H. unfold chunks. destruct (N.le_gt_cases (len - pos) 4096) as [L|L].
  - rewrite N.min_r by exact L. replace (len - (pos + (len - pos)) + 4095) with 4095 by lia. change (4095 / 4096) with 0.
    apply N.div_le_lower_bound; lia.
  - rewrite N.min_l by lia. replace (len - pos + 4095) with (len - (pos + 4096) + 4095 + 1 * 4096) by lia. rewrite N.div_add by discriminate. lia.
Qed.
Definition left_over (len : N) (st : buf_state + list N) : N := match st with inl (_, _, pos) => chunks len pos | inr _ => 0 end.
Lemma calls_chunks c len n : forall st, match st with inl (_, rlen, pos) => rlen = pos | inr _ => True end ->
  forall s, match run c (fold_pos n (buf_step c len) st) s with
            | OOk st' _ => reader_calls c (fold_pos n (buf_step c len) st) s + left_over len st' <= left_over len st /\
                           match st' with inl (_, rlen, pos) => rlen = pos | inr _ => True end
            | _ => reader_calls c (fold_pos n (buf_step c len) st) s <= left_over len st
            end.
Proof.
  set (P := fun st : buf_state + list N => match st with inl (_, rlen, pos) => rlen = pos | inr _ => True end).
  set (Q := fun (p : prog (buf_state + list N)) (st : buf_state + list N) => forall s, match run c p s with
            | OOk st' _ => reader_calls c p s + left_over len st' <= left_over len st /\ P st'
            | _ => reader_calls c p s <= left_over len st end).
  enough (G : forall st, P st -> Q (fold_pos n (buf_step c len) st) st) by exact G.
  assert (B : forall p f st, Q p st -> (forall st', P st' -> Q (f st') st') -> Q (bind p f) st).
  { intros p f st Hp Hf s. rewrite calls_bind, run_bind. specialize (Hp s). destruct (run c p s) as [a r|e|q]; cbn [obind]; [|lia|lia].
    destruct Hp as [Hp Ha]. specialize (Hf a Ha r). destruct (run c (f a) r) as [b r'|e|q]; [|lia|lia]. destruct Hf as [Hf Hb]. split; [lia|exact Hb]. }
  assert (St : forall st, P st -> Q (buf_step c len st) st).
  { intros [[[acc rlen] pos]|r] Hst s; cbn [buf_step]; [|cbn; split; [lia|exact I]]. cbn in Hst. subst rlen.
    destruct (pos <? as_usize c len) eqn:E; [|cbn; split; [lia|exact I]]. cbv zeta. pose proof (as_usize_le c len) as Hle.
    pose proof (chunks_step len pos ltac:(lia)) as Hc. change BUF_MAX with 4096. cbn [run reader_calls left_over].
    destruct (lenN s <? N.min 4096 (len - pos)); [lia|]. cbn [left_over]. split; [lia|reflexivity]. }
  induction n as [m IH|m IH|]; intros st Hst; cbn [fold_pos].
  - apply B; [apply St, Hst|]. intros a Ha. apply B; [apply IH, Ha|apply IH].
  - apply B; [apply IH, Hst|apply IH].
  - apply St, Hst.
Qed.
Lemma calls_buffer c bs rest : wf_cfg c -> lenN bs < 2 ^ usize_bits c ->
  reader_calls c (de_byte_buf c) (enc_u64 (lenN bs) ++ bs ++ rest) <= lenN bs / 4096 + 3.
Proof.
  intros Hw Hb. destruct (word_64 c _ Hw Hb) as [H64 Hu]. unfold de_byte_buf. rewrite calls_bind, run_len by exact H64.
  pose proof (calls_u64_range c ERead (enc_u64 (lenN bs) ++ bs ++ rest)) as Hr. set (len := lenN bs) in *. clearbody len.
  enough (G : reader_calls c (if BUF_MAX <? len then Alloc BUF_MAX (st <- foldN (len / BUF_MAX + 2) (buf_step c len) (inl ([], 0, 0)) ;; match st with inr r => Ret r | inl _ => Crash PStack end)
     else Alloc len (ReadExact len ERead (fun b => Ret b))) (bs ++ rest) <= len / 4096 + 1) by lia.
  destruct (BUF_MAX <? len); cbn [reader_calls].
  - destruct (alloc_result c BUF_MAX); [lia|]. rewrite calls_bind.
    destruct (len / BUF_MAX + 2) as [|n]; cbn [foldN]; [cbn; lia|].
    pose proof (calls_chunks c len n (inl ([], 0, 0)) eq_refl (bs ++ rest)) as H. cbn [left_over] in H.
    assert (chunks len 0 <= len / 4096 + 1).
    { unfold chunks. rewrite N.sub_0_r. replace (len / 4096 + 1) with ((len + 1 * 4096) / 4096) by (rewrite N.div_add by discriminate; reflexivity).
      apply N.div_le_mono; lia. }
    destruct (run c _ (bs ++ rest)) as [[st|r] rest'|e|q]; cbn [reader_calls]; lia.
  - destruct (alloc_result c len); [lia|]. destruct (lenN (bs ++ rest) <? len); lia.
Qed.

(** ** Writing *)
Definition lean (w : wprog) : Prop := lenN (writer_calls w) <= 2 * lenN (wbytes w).
Lemma lenN_cons {A} (a : A) l : lenN (a :: l) = lenN l + 1.
Proof. unfold lenN. cbn [length]. lia. Qed.
Lemma lean_seq a b : lean a -> lean b -> lean (wseq a b).
Proof.
  intros Ha Hb. unfold lean in *.
  enough (G : lenN (writer_calls (wseq a b)) + 2 * lenN (wbytes a) <= 2 * lenN (wbytes (wseq a b)) + lenN (writer_calls a)) by lia.
  clear Ha. induction a as [|e|p|bs k IH]; cbn [wseq writer_calls wbytes]; try (unfold lenN in *; cbn [length]; lia).
  rewrite !lenN_cons, !lenN_app. lia.
Qed.
Lemma lean_wr bs : bs <> [] -> lean (wr bs).
Proof. intros H. destruct bs as [|b t]; [contradiction|]. unfold lean, wr. cbn [writer_calls wbytes]. rewrite !lenN_app, !lenN_cons. unfold lenN. cbn [length]. lia. Qed.
Lemma lean_done : lean WDone. Proof. unfold lean. cbn. lia. Qed.
Lemma lean_fail e : lean (WFail e). Proof. unfold lean. cbn. lia. Qed.
Lemma lean_panic p : lean (WPanic p). Proof. unfold lean. cbn. lia. Qed.
Lemma lean_concat l : Forall lean l -> lean (wconcat l).
Proof. induction 1; [apply lean_done|]. apply lean_seq; assumption. Qed.
Ltac nonempty := intros; unfold enc_u16, enc_u32, enc_u64; cbv zeta; repeat match goal with |- context [if ?b then _ else _] => destruct b end; discriminate.
Lemma enc_u16_some n : enc_u16 n <> []. Proof. nonempty. Qed.
Lemma enc_u32_some n : enc_u32 n <> []. Proof. nonempty. Qed.
Lemma enc_u64_some n : enc_u64 n <> []. Proof. nonempty. Qed.
Lemma lean_str bs : lean (ser_str bs).
Proof.
  unfold ser_str, ser_u64, wr, lean. cbn [wseq writer_calls wbytes]. rewrite !lenN_app, !lenN_cons.
  pose proof (enc_u64_some (lenN bs)) as H. destruct (enc_u64 (lenN bs)); [contradiction|]. rewrite lenN_cons. unfold lenN. cbn [length]. lia.
Qed.
Lemma lean_len o : lean (ser_len o).
Proof. destruct o; [apply lean_wr, enc_u64_some|apply lean_done]. Qed.
Lemma lean_key k : lean (ser_key k).
Proof. destruct k; first [apply lean_fail | apply lean_panic | apply lean_str]. Qed.
Theorem lean_ser v : lean (ser v).
Proof.
  apply (sval_ind2 (fun v => lean (ser v))); clear v; cbn [ser].
  - intros []; try exact I; cbn [ser];
      first [ apply lean_fail | apply lean_panic | apply lean_done | apply lean_str
            | apply lean_wr; first [discriminate | apply enc_u16_some | apply enc_u32_some | apply enc_u64_some] ].
  - intros v H. apply lean_seq; [apply lean_wr; discriminate|exact H].
  - intros v H. exact H.
  - intros i v H. apply lean_seq; [apply lean_wr, enc_u32_some|exact H].
  - intros n l H. apply lean_seq; [apply lean_len|]. apply lean_concat. induction H; cbn [map]; constructor; assumption.
  - intros l H. apply lean_concat. induction H; cbn [map]; constructor; assumption.
  - intros l H. apply lean_concat. induction H; cbn [map]; constructor; assumption.
  - intros i l H. apply lean_seq; [apply lean_wr, enc_u32_some|]. apply lean_concat. induction H; cbn [map]; constructor; assumption.
  - intros n l H. apply lean_seq; [apply lean_len|]. apply lean_concat.
    induction H as [|kv l [_ Hv] _ IH]; cbn [map]; constructor; [apply lean_seq; [apply lean_key|exact Hv]|exact IH].
  - intros l H. apply lean_concat. induction H; cbn [map]; constructor; assumption.
  - intros i l H. apply lean_seq; [apply lean_wr, enc_u32_some|]. apply lean_concat. induction H; cbn [map]; constructor; assumption.
Qed.
Theorem lean_hser h : lean (hser h).
Proof.
  apply (header_ind2 (fun h => lean (hser h))); clear h.
  - intros []; try exact I; cbn [hser]; apply lean_wr; discriminate.
  - intros h H. cbn [hser]. apply lean_seq; [apply lean_wr; discriminate|exact H].
  - intros h H. cbn [hser]. apply lean_seq; [apply lean_wr; discriminate|exact H].
  - intros h H. cbn [hser]. apply lean_seq; [apply lean_wr; discriminate|exact H].
  - intros hs H. cbn [hser]. apply lean_seq; [apply lean_wr; discriminate|]. apply lean_seq; [apply lean_wr, enc_u16_some|].
    apply lean_concat. induction H; cbn [map]; constructor; assumption.
  - intros hs H. cbn [hser]. apply lean_seq; [apply lean_wr; discriminate|]. apply lean_seq; [apply lean_wr, enc_u16_some|].
    apply lean_concat. induction H; cbn [map]; constructor; assumption.
Qed.

Lemma calls_pmap {A B} c (f : A -> B) (p : prog A) s : reader_calls c (pmap f p) s = reader_calls c p s.
Proof. unfold pmap. rewrite calls_bind. destruct (run c p s); cbn [reader_calls]; lia. Qed.
Lemma calls_vec_map {B} c bs rest (f : list sval -> B) : wf_cfg c -> lenN bs < 2 ^ usize_bits c ->
  lenN bs + 1 <= reader_calls c (pmap f (de_vec c (pmap SU8 de_u8))) (enc_u64 (lenN bs) ++ bs ++ rest) <= lenN bs + 2.
Proof.
  intros Hw Hb. rewrite calls_pmap. destruct (word_64 c _ Hw Hb) as [H64 Hu]. unfold de_vec. rewrite calls_bind, run_len by exact H64. rewrite Hu.
  rewrite calls_svals by (rewrite lenN_app; lia). pose proof (calls_u64_range c ERead (enc_u64 (lenN bs) ++ bs ++ rest)). lia.
Qed.
Lemma calls_big_map {B} c bs rest (f : list N -> B) : wf_cfg c -> lenN bs < 2 ^ usize_bits c ->
  lenN bs + 1 <= reader_calls c (pmap f (de_big c)) (enc_u64 (lenN bs) ++ bs ++ rest) <= lenN bs + 2.
Proof. intros Hw Hb. rewrite calls_pmap. apply calls_vec_u8; assumption. Qed.
Lemma calls_buf_map {B} c bs rest (f : list N -> B) : wf_cfg c -> lenN bs < 2 ^ usize_bits c ->
  reader_calls c (pmap f (de_byte_buf c)) (enc_u64 (lenN bs) ++ bs ++ rest) <= lenN bs / 4096 + 3.
Proof. intros Hw Hb. rewrite calls_pmap. apply calls_buffer; assumption. Qed.
Lemma ser_bytes_bytes bs : wbytes (ser (SBytes bs)) = enc_u64 (lenN bs) ++ bs.
Proof. cbn [ser]. unfold ser_bytes, ser_u64, wr. cbn [wseq wbytes]. rewrite app_nil_r. reflexivity. Qed.
