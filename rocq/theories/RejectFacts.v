(** * Proofs: the decoders reject exactly as specified. *)
From Coq Require Import String Sorted.
From Verif Require Import Base BaseFacts SpecVarint Varint VarintFacts ZigZagFacts SpecUtf8 Utf8 Utf8Facts Serde Typing
  PrimFacts SerdeFacts SerdeMore SerdeSize SerdeProps SpecMap MapFacts TextFacts ArchFacts Header SpecHeader HeaderFacts Body SpecBody BodyFacts
  SpecAccept AcceptFacts SpecReject.
Local Open Scope list_scope.
Local Open Scope N_scope.

(** [fails c p F]: p stops with x exactly when F s x. *)
Definition fails {A} (c : cfg) (p : prog A) (F : list N -> fault -> Prop) : Prop :=
  forall s x, bytes_ok s -> (run c p s = stop x <-> F s x).

Lemma stop_inj {A} x y : @stop A x = stop y -> x = y.
Proof. destruct x, y; cbn; congruence. Qed.
Lemma stop_err {A} x e : @OErr A e = stop x -> x = inl e.
Proof. destruct x; cbn; congruence. Qed.
Lemma stop_pan {A} x q : @OPanic A q = stop x -> x = inr q.
Proof. destruct x; cbn; congruence. Qed.
Lemma stop_ok {A} x (a : A) r : OOk a r <> stop x.
Proof. destruct x; discriminate. Qed.
Lemma run_cases {A} c (p : prog A) s : (exists a r, run c p s = OOk a r) \/ (exists x, run c p s = stop x).
Proof. destruct (run c p s) as [a r|e|q]; [left; eauto|right; exists (inl e); reflexivity|right; exists (inr q); reflexivity]. Qed.

Lemma fails_ext {A} c (p : prog A) (F G : list N -> fault -> Prop) :
  fails c p F -> (forall s x, bytes_ok s -> (F s x <-> G s x)) -> fails c p G.
Proof. intros Hp H s x Hs. rewrite (Hp s x Hs). apply H, Hs. Qed.
Lemma fails_run {A} c (p q : prog A) F : (forall s, bytes_ok s -> run c p s = run c q s) -> fails c q F -> fails c p F.
Proof. intros H Hq s x Hs. rewrite H by exact Hs. apply Hq, Hs. Qed.
Lemma fails_Ret {A} c (a : A) : fails c (Ret a) (fun _ _ => False).
Proof. intros s x _. split; [intros H; destruct (stop_ok _ _ _ H)|intros []]. Qed.
Lemma fails_Fail {A} c e : @fails A c (Fail e) (fun _ x => x = inl e).
Proof. intros s x _. cbn [run]. split; [intros H; exact (stop_err _ _ H)|intros ->; reflexivity]. Qed.
Lemma fails_Crash {A} c q : @fails A c (Crash q) (fun _ x => x = inr q).
Proof. intros s x _. cbn [run]. split; [intros H; exact (stop_pan _ _ H)|intros ->; reflexivity]. Qed.
Lemma fails_bind {A B} c (p : prog A) (f : A -> prog B) R F (G : A -> list N -> fault -> Prop) :
  lang c p R -> fails c p F -> (forall a u, bytes_ok u -> R u a -> fails c (f a) (G a)) ->
  fails c (bind p f) (fun s x => F s x \/ exists u r a, s = u ++ r /\ R u a /\ G a r x).
Proof.
  intros Hl Hp Hf s x Hs. rewrite run_bind. destruct (run_cases c p s) as [(a & r & E)|(y & E)]; rewrite E; cbn [obind].
  - pose proof (run_rest _ _ _ _ _ Hs E) as Hr. pose proof (proj1 (Hl s a r Hs) E) as (u & -> & Hu).
    pose proof (proj1 (proj1 (Forall_app _ _ _) Hs)) as Hub. rewrite (Hf a u Hub Hu r x Hr). split.
    + intros H. right. exists u, r, a. auto.
    + intros [H|(u' & r' & a' & E' & Hu' & H)]; [apply (Hp _ x Hs) in H; rewrite E in H; destruct (stop_ok _ _ _ H)|].
      assert (X : run c p (u ++ r) = OOk a' r') by (apply (Hl _ a' r' Hs); eauto). rewrite E in X. injection X as <- <-. exact H.
  - assert (X : @obind A B (stop y) (fun a r => run c (f a) r) = stop y) by (destruct y; reflexivity). rewrite X. split.
    + intros H. apply stop_inj in H as ->. left. apply (Hp s x Hs), E.
    + intros [H|(u & r & a & -> & Hu & H)].
      * apply (Hp s x Hs) in H. rewrite E in H. apply stop_inj in H as ->. reflexivity.
      * assert (X' : run c p (u ++ r) = OOk a r) by (apply (Hl _ a r Hs); eauto). rewrite E in X'. symmetry in X'. destruct (stop_ok _ _ _ X').
Qed.
Lemma fails_pmap {A B} c (f : A -> B) (p : prog A) F : fails c p F -> fails c (pmap f p) F.
Proof.
  intros Hp s x Hs. rewrite run_pmap, <- (Hp s x Hs). destruct (run c p s) as [a r|e|q]; destruct x; cbn; split; congruence.
Qed.
Lemma fails_ReadExact {A} c n e (k : list N -> prog A) G :
  (forall bs, bytes_ok bs -> lenN bs = n -> fails c (k bs) (G bs)) ->
  fails c (ReadExact n e k) (fun s x => (lenN s < n /\ x = inl e) \/ exists u r, s = u ++ r /\ lenN u = n /\ G u r x).
Proof.
  intros Hk s x Hs. cbn [run]. destruct (N.ltb_spec (lenN s) n) as [H|H].
  - split.
    + intros E. left. split; [exact H|]. exact (stop_err _ _ E).
    + intros [[_ ->]|(u & r & -> & Hu & _)]; [reflexivity|]. rewrite lenN_app in H. lia.
  - assert (Hl : lenN (takeN n s) = n) by (rewrite lenN_takeN; lia).
    rewrite (Hk _ (Forall_takeN _ n s Hs) Hl _ x (Forall_dropN _ n s Hs)). split.
    + intros E. right. exists (takeN n s), (dropN n s). split; [symmetry; apply take_drop|]. auto.
    + intros [[H' _]|(u & r & -> & Hu & E)]; [lia|]. rewrite takeN_app_n, dropN_app_n by exact Hu. exact E.
Qed.
Lemma fails_Alloc {A} c n (k : prog A) F : fails c k F ->
  fails c (Alloc n k) (fun s x => (exists q, alloc_result c n = Some q /\ x = inr q) \/ (alloc_result c n = None /\ F s x)).
Proof.
  intros Hk s x Hs. cbn [run]. destruct (alloc_result c n) as [q|].
  - split.
    + intros H. left. exists q. split; [reflexivity|]. exact (stop_pan _ _ H).
    + intros [(q' & E & ->)|[E _]]; [injection E as <-; reflexivity|discriminate].
  - rewrite (Hk s x Hs). split; [auto|]. intros [(q & E & _)|[_ H]]; [discriminate|exact H].
Qed.

(** ** Varints *)
Lemma fails_varint c (p : prog N) m : (forall s, bytes_ok s -> run c p s = varint_run m ERead s) ->
  fails c p (fun s x => short m s /\ x = read_error).
Proof.
  intros H s x Hs. rewrite (H s Hs). split.
  - destruct s as [|q t]; cbn [varint_run].
    + intros E. split; [left; reflexivity|]. exact (stop_err _ _ E).
    + destruct (N.ltb_spec (lenN t) (N.of_nat (varint_extra m q))) as [E|E]; [|intros X; destruct (stop_ok _ _ _ X)].
      intros X. split; [right; exists q, t; split; [reflexivity|unfold lenN in E; lia]|].
      exact (stop_err _ _ X).
  - intros [[->|(q & t & -> & Hl)] ->]; cbn [varint_run]; [reflexivity|].
    destruct (N.ltb_spec (lenN t) (N.of_nat (varint_extra m q))) as [E|E]; [reflexivity|unfold lenN in E; lia].
Qed.
Lemma fails_u16 c : fails c (dec_u16 ERead) (fun s x => short 2 s /\ x = read_error).
Proof. apply fails_varint. intros s Hs. apply dec_u16_run, bytes_guard, Hs. Qed.
Lemma fails_u32 c : fails c (dec_u32 ERead) (fun s x => short 4 s /\ x = read_error).
Proof. apply fails_varint. intros s Hs. apply dec_u32_run, bytes_guard, Hs. Qed.
Lemma fails_u64 c : fails c (dec_u64 ERead) (fun s x => short 8 s /\ x = read_error).
Proof. apply fails_varint. intros s Hs. apply dec_u64_run, bytes_guard, Hs. Qed.
Lemma fails_i16 c : fails c de_i16 (fun s x => short 2 s /\ x = read_error).
Proof. apply fails_pmap, fails_u16. Qed.
Lemma fails_i32 c : fails c de_i32 (fun s x => short 4 s /\ x = read_error).
Proof. apply fails_pmap, fails_u32. Qed.
Lemma fails_i64 c : fails c de_i64 (fun s x => short 8 s /\ x = read_error).
Proof. apply fails_pmap, fails_u64. Qed.
Lemma fails_fixed {A} c n (f : list N -> A) : fails c (ReadExact n ERead (fun b => Ret (f b))) (fun s x => lenN s < n /\ x = read_error).
Proof.
  eapply fails_ext; [apply fails_ReadExact with (G := fun _ _ _ => False); intros; apply fails_Ret|].
  cbv beta. intros s x _. split; [intros [H|(u & r & _ & _ & [])]; exact H|auto].
Qed.
Lemma fails_byte c : fails c de_byte (fun s x => s = [] /\ x = read_error).
Proof.
  eapply fails_ext; [apply fails_fixed|]. cbv beta. intros s x _. destruct s as [|b s]; rewrite ?lenN_nil, ?lenN_cons.
  - split; intros [_ H]; (split; [lia || reflexivity|exact H]).
  - split; [intros [H _]; lia|intros [H _]; discriminate].
Qed.
Lemma fails_bool c : fails c de_bool (fun s x => no_bool s /\ x = read_error).
Proof.
  eapply fails_ext.
  - apply fails_bind with (R := fun u b => u = [b]) (F := fun s x => s = [] /\ x = read_error) (G := fun n _ x => 1 < n /\ x = read_error);
      [apply lang_byte|apply fails_byte|].
    intros n u _ _. destruct (N.eqb_spec n 0) as [->|H0]; [|destruct (N.eqb_spec n 1) as [->|H1]].
    + eapply fails_ext; [apply fails_Ret|]. cbv beta. intros s x _. split; [intros []|intros [H _]; lia].
    + eapply fails_ext; [apply fails_Ret|]. cbv beta. intros s x _. split; [intros []|intros [H _]; lia].
    + eapply fails_ext; [apply fails_Fail|]. cbv beta. intros s x _. split; [intros ->; split; [lia|reflexivity]|intros [_ H]; exact H].
  - cbv beta. unfold no_bool. intros s x _. split.
    + intros [[-> ->]|(u & r & a & -> & -> & H & ->)]; [auto|]. split; [right; exists a, r; auto|reflexivity].
    + intros [[->|(b & t & -> & H)] ->]; [auto|]. right. exists [b], t, b. auto.
Qed.

(** ** Strings and bytes *)
Section Bits64.
Variable c : cfg.
Hypothesis Hw : wf_cfg c.
Hypothesis H64 : usize_bits c = 64.
Hypothesis Hh : 4096 <= heap_limit c.

Lemma fails_str_body n : n < 2 ^ 64 -> fails c (de_str_body c n)
  (fun s x => (lenN s < n \/ exists bs r, s = bs ++ r /\ lenN bs = n /\ ~ wellformed bs) /\ x = read_error).
Proof.
  intros Hn s x Hs. rewrite str_body_run by (apply usize_64; assumption). split.
  - destruct (N.ltb_spec (lenN s) n) as [H|H]; cbn [orb].
    + intros E. split; [left; exact H|]. exact (stop_err _ _ E).
    + destruct (utf8_valid (takeN n s)) eqn:E; cbn [negb]; [intros X; destruct (stop_ok _ _ _ X)|].
      intros X. split; [right|exact (stop_err _ _ X)].
      exists (takeN n s), (dropN n s). split; [symmetry; apply take_drop|]. split; [rewrite lenN_takeN; lia|].
      intros V. apply utf8_valid_iff in V. congruence.
  - intros [[H|(bs & r & -> & Hl & Hv)] ->].
    + apply N.ltb_lt in H. rewrite H. reflexivity.
    + rewrite takeN_app_n by exact Hl. destruct (utf8_valid bs) eqn:E; [exfalso; apply Hv, utf8_valid_iff, E|].
      rewrite orb_true_r. reflexivity.
Qed.
Lemma fails_buf_body n : n < 2 ^ 64 -> fails c (de_buf_body c n) (fun s x => lenN s < n /\ x = read_error).
Proof.
  intros Hn s x Hs. rewrite buf_body_run, buf_total_exact by (try assumption; apply usize_64; assumption).
  destruct (N.ltb_spec (lenN s) n) as [H|H].
  - split; [|intros [_ ->]; reflexivity]. intros E. split; [exact H|]. exact (stop_err _ _ E).
  - split; [intros E; destruct (stop_ok _ _ _ E)|lia].
Qed.
Lemma fails_string : fails c (de_string c) (fun s x => no_text s /\ x = read_error).
Proof.
  rewrite de_string_unfold. eapply fails_ext.
  - apply fails_bind; [apply lang_u64|apply fails_u64|]. intros n u Hu Hn. apply fails_str_body. eapply code8_bound; eassumption.
  - cbv beta. unfold no_text, no_block. intros s x _. split.
    + intros [[H ->]|(l & r & n & -> & Hl & [H|(bs & t & -> & <- & Hv)] & ->)]; (split; [|reflexivity]).
      * auto.
      * left. right. exists l, n, r. auto.
      * right. exists (l ++ bs), bs, t. split; [apply app_assoc|]. split; [exists l; auto|exact Hv].
    + intros [[[H|(l & n & r & -> & Hl & H)]|(u & bs & r & -> & (l & -> & Hl) & Hv)] ->].
      * auto.
      * right. exists l, r, n. auto.
      * right. exists l, (bs ++ r), (lenN bs). split; [symmetry; apply app_assoc|]. split; [exact Hl|]. split; [|reflexivity].
        right. exists bs, r. auto.
Qed.
Lemma fails_byte_buf : fails c (de_byte_buf c) (fun s x => no_block s /\ x = read_error).
Proof.
  rewrite de_byte_buf_unfold. eapply fails_ext.
  - apply fails_bind; [apply lang_u64|apply fails_u64|]. intros n u Hu Hn. apply fails_buf_body. eapply code8_bound; eassumption.
  - cbv beta. unfold no_block. intros s x _. split.
    + intros [[H ->]|(l & r & n & -> & Hl & H & ->)]; (split; [|reflexivity]); [auto|]. right. exists l, n, r. auto.
    + intros [[H|(l & n & r & -> & Hl & H)] ->]; [auto|]. right. exists l, r, n. auto.
Qed.
Lemma fails_char : fails c (de_char c) (fun s x => (no_text s /\ x = read_error) \/ (exists l r, s = l ++ r /\ code 8 l 0 /\ x = inl ECharSize)).
Proof.
  unfold de_char. eapply fails_ext.
  - apply fails_bind with (G := fun bs _ x => bs = [] /\ x = inl ECharSize); [apply (lang_string c); assumption|apply fails_string|].
    intros bs u _ [_ (cs & Hcs & ->)]. destruct Hcs as [|ch cs Hc Hcs]; cbn [map concat].
    + eapply fails_ext; [apply fails_Fail|]. cbv beta. intros s x _. intuition congruence.
    + rewrite next_char_utf8 by exact Hc. eapply fails_ext; [apply fails_Ret|]. cbv beta. intros s x _. split; [intros []|].
      intros [E _]. exfalso. apply (f_equal next_char) in E. rewrite next_char_utf8 in E by exact Hc. discriminate.
  - cbv beta. intros s x _. split.
    + intros [[H ->]|(u & r & bs & -> & [(l & -> & Hl) _] & -> & ->)]; [auto|]. right. rewrite app_nil_r. exists l, r. auto.
    + intros [[H ->]|(l & r & -> & Hl & ->)]; [auto|]. right. exists l, r, []. split; [reflexivity|]. split; [|auto].
      split; [exists l; rewrite app_nil_r; auto|exists []; split; [constructor|reflexivity]].
Qed.

(** ** Sequences *)
Lemma fails_rep {A} (p : prog A) R F n : lang c p R -> fails c p F ->
  fails c (rep n p) (fun s x => exists u l r, s = u ++ r /\ many R u l /\ (length l < n)%nat /\ F r x).
Proof.
  intros Hl Hp. induction n as [|n IH]; cbn [rep].
  - eapply fails_ext; [apply fails_Ret|]. cbv beta. intros s x _. split; [intros []|]. intros (u & l & r & _ & _ & H & _). lia.
  - eapply fails_ext; [apply fails_bind with (R := R) (F := F); [exact Hl|exact Hp|]; intros a u _ _;
      eapply fails_bind; [apply (lang_rep c p R n Hl)|exact IH|intros; apply fails_Ret]|].
    cbv beta. intros s x _. split.
    + intros [H|(u & r & a & -> & Ha & [(w & l & r' & -> & Hm & Hlt & H)|(_ & _ & _ & _ & _ & [])])].
      * exists [], [], s. split; [reflexivity|]. split; [constructor|]. split; [cbn; lia|exact H].
      * exists (u ++ w), (a :: l), r'. split; [apply app_assoc|]. split; [constructor; assumption|]. split; [cbn [length]; lia|exact H].
    + intros (u & l & r & -> & Hm & Hlt & H). destruct Hm as [|u a w l Ha Hm]; [left; exact H|]. right.
      exists u, (w ++ r), a. split; [symmetry; apply app_assoc|]. split; [exact Ha|]. left. exists w, l, r.
      split; [reflexivity|]. split; [exact Hm|]. split; [cbn [length] in Hlt; lia|exact H].
Qed.
Lemma fails_vec {A} (p : prog A) R F : lang c p R -> fails c p F ->
  fails c (de_vec c p) (fun s x => (short 8 s /\ x = read_error) \/
    exists y n u l r, s = y ++ u ++ r /\ code 8 y n /\ many R u l /\ lenN l < n /\ F r x).
Proof.
  intros Hl Hp. unfold de_vec. eapply fails_ext.
  - apply fails_bind; [apply lang_u64|apply fails_u64|]. intros n u Hu Hn. rewrite (usize_64 c) by (try assumption; eapply code8_bound; eassumption).
    eapply fails_run; [intros; apply run_repeatN|]. apply (fails_rep p R F (N.to_nat n) Hl Hp).
  - cbv beta. intros s x _. split.
    + intros [H|(y & z & n & -> & Hy & u & l & r & -> & Hm & Hlt & H)]; [auto|]. right. exists y, n, u, l, r.
      repeat (split; [first [reflexivity|assumption|unfold lenN; lia]|]). exact H.
    + intros [H|(y & n & u & l & r & -> & Hy & Hm & Hlt & H)]; [auto|]. right. exists y, (u ++ r), n.
      split; [reflexivity|]. split; [exact Hy|]. exists u, l, r. split; [reflexivity|]. split; [exact Hm|]. split; [unfold lenN in Hlt; lia|exact H].
Qed.
Lemma fails_big : fails c (de_big c) (fun s x => no_block s /\ x = read_error).
Proof.
  eapply fails_ext; [apply fails_vec; [apply lang_byte|apply fails_byte]|]. cbv beta. unfold no_block. intros s x _. split.
  - intros [[H ->]|(y & n & u & l & r & -> & Hy & Hm & Hlt & -> & ->)]; (split; [|reflexivity]); [auto|].
    right. apply many_bytes in Hm as ->. rewrite app_nil_r. exists y, n, l. auto.
  - intros [[H|(l & n & r & -> & Hl & H)] ->]; [auto|]. right. exists l, n, r, r, []. rewrite app_nil_r.
    split; [reflexivity|]. split; [exact Hl|]. split; [apply many_bytes; reflexivity|]. auto.
Qed.
Lemma fails_map {A} (p : prog A) R F : lang c p R -> fails c p F ->
  fails c (de_map c p) (fun s x => (short 8 s /\ x = read_error) \/
    exists y n u es r, s = y ++ u ++ r /\ code 8 y n /\
      many (fun u kv => exists a b, u = a ++ b /\ wellformed (fst kv) /\ block a (fst kv) /\ R b (snd kv)) u es /\ lenN es < n /\
      ((no_text r /\ x = read_error) \/ exists k bs r', r = k ++ r' /\ wellformed bs /\ block k bs /\ F r' x)).
Proof.
  intros Hl Hp. unfold de_map, de_map_n.
  pose (q := k <- de_string c ;; v <- p ;; Ret (k, v)).
  assert (Hq : lang c q (fun u kv => exists a b, u = a ++ b /\ wellformed (fst kv) /\ block a (fst kv) /\ R b (snd kv))).
  { unfold q. eapply lang_ext; [apply lang_bind; [apply (lang_string c); assumption|]; intros k u _ _; apply lang_bind; [exact Hl|]; intros v w _ _; apply lang_Ret|].
    cbv beta. intros u [k v] _. cbn [fst snd]. split.
    - intros (x & y & k' & -> & [Hb Hv] & z & w & v' & -> & Hr & -> & E). injection E as -> ->. exists x, z. rewrite app_nil_r. auto.
    - intros (a & b & -> & Hv & Hb & Hr). exists a, b, k. split; [reflexivity|]. split; [auto|]. exists b, [], v. rewrite app_nil_r. auto. }
  assert (Fq : fails c q (fun r x => (no_text r /\ x = read_error) \/ exists k bs r', r = k ++ r' /\ wellformed bs /\ block k bs /\ F r' x)).
  { unfold q. eapply fails_ext; [apply fails_bind; [apply (lang_string c); assumption|apply fails_string|]; intros k u _ _;
      eapply fails_bind; [exact Hl|exact Hp|intros; apply fails_Ret]|].
    cbv beta. intros s x _. split.
    - intros [H|(u & r & k & -> & [Hb Hv] & [H|(_ & _ & _ & _ & _ & [])])]; [auto|]. right. exists u, k, r. auto.
    - intros [H|(k & bs & r & -> & Hv & Hb & H)]; [auto|]. right. exists k, r, bs. auto. }
  eapply fails_ext.
  - apply fails_bind; [apply lang_u64|apply fails_u64|]. intros n u Hu Hn. rewrite (usize_64 c) by (try assumption; eapply code8_bound; eassumption).
    eapply fails_run with (q := pmap (fun es => insert_all es []) (rep (N.to_nat n) q)).
    + intros s _. rewrite run_foldN, (iter_insert c _ q), run_pmap; [reflexivity|]. intros m i. unfold q.
      rewrite !run_bind, obind_obind. apply obind_ext; intros k r. rewrite !run_bind, obind_obind. reflexivity.
    + apply fails_pmap. apply (fails_rep q _ _ (N.to_nat n) Hq Fq).
  - cbv beta. intros s x _. split.
    + intros [H|(y & z & n & -> & Hy & u & l & r & -> & Hm & Hlt & H)]; [auto|]. right. exists y, n, u, l, r.
      repeat (split; [first [reflexivity|assumption|unfold lenN; lia]|]). exact H.
    + intros [H|(y & n & u & l & r & -> & Hy & Hm & Hlt & H)]; [auto|]. right. exists y, (u ++ r), n.
      split; [reflexivity|]. split; [exact Hy|]. exists u, l, r. split; [reflexivity|]. split; [exact Hm|]. split; [unfold lenN in Hlt; lia|exact H].
Qed.
Lemma fails_option {A} (p : prog A) F : fails c p F ->
  fails c (de_option p) (fun s x => (no_bool s /\ x = read_error) \/ exists t, s = 1 :: t /\ F t x).
Proof.
  intros Hp. unfold de_option. eapply fails_ext.
  - apply fails_bind with (G := fun b s x => b = true /\ F s x); [apply lang_bool|apply fails_bool|].
    intros [|] u _ _.
    + eapply fails_ext; [apply fails_pmap, Hp|]. cbv beta. intros s x _. intuition.
    + eapply fails_ext; [apply fails_Ret|]. cbv beta. intros s x _. intuition congruence.
  - cbv beta. intros s x _. split.
    + intros [H|(u & r & b & -> & -> & -> & H)]; [auto|]. right. exists r. auto.
    + intros [H|(t & -> & H)]; [auto|]. right. exists [1], t, true. auto.
Qed.
Lemma fails_date : fails c (de_date c) (no_date c).
Proof.
  unfold de_date. eapply fails_ext.
  - apply fails_bind with (G := fun y0 s x => (arith_s c 32 (y0 + 2000) = None /\ x = inr POverflow) \/
      (arith_s c 32 (y0 + 2000) <> None /\ ((short 2 s /\ x = read_error) \/
        exists k o r, s = k ++ r /\ code 2 k o /\ arith_u c 16 (Z.of_N o + 1) = None /\ x = inr POverflow)));
      [apply lang_i32|apply fails_i32|].
    intros y0 u _ _. change YEAR_OFFSET with 2000%Z. change (Z.of_N ORDINAL_OFFSET) with 1%Z.
    destruct (arith_s c 32 (y0 + 2000)) as [y|]; cbn [or_overflow bind].
    + eapply fails_ext.
      * apply fails_bind with (G := fun o (s : list N) x => arith_u c 16 (Z.of_N o + 1) = None /\ x = inr POverflow); [apply lang_u16|apply fails_u16|].
        intros o w _ _. destruct (arith_u c 16 (Z.of_N o + 1)) as [o'|]; cbn [or_overflow bind].
        -- eapply fails_ext; [apply fails_Ret|]. cbv beta. intros s x _. intuition congruence.
        -- eapply fails_ext; [apply fails_Crash|]. cbv beta. intros s x _. intuition congruence.
      * cbv beta. intros s x _. split.
        -- intros [H|(k & r & o & -> & H)]; right; (split; [discriminate|]); [auto|]. right. exists k, o, r. auto.
        -- intros [[H _]|[_ [H|(k & o & r & -> & H)]]]; [discriminate|auto|]. right. exists k, r, o. auto.
    + eapply fails_ext; [apply fails_Crash|]. cbv beta. intros s x _. split; [intros ->; auto|]. intros [[_ H]|[H _]]; [exact H|congruence].
  - cbv beta. unfold no_date. intros s x Hs. cbv zeta.
    assert (Ey : forall l y, bytes_ok l -> code 4 l y -> (arith_s c 32 (unzigzag y + 2000) = None <-> overflow_checks c = true /\ (2 ^ 31 <= unzigzag y + 2000)%Z)).
    { intros l y Hb Hy. assert (Hin : in_s 32 (unzigzag y) = true) by (apply unzigzag_in; [lia|exact (code4_bound _ _ Hb Hy)]).
      unfold arith_s. apply in_s_iff in Hin. change (2 ^ (Z.of_N 32 - 1))%Z with 2147483648%Z in Hin. change (2 ^ 31)%Z with 2147483648%Z.
      destruct (in_s 32 (unzigzag y + 2000)) eqn:E.
      - apply in_s_iff in E. change (2 ^ (Z.of_N 32 - 1))%Z with 2147483648%Z in E. split; [discriminate|]. intros [_ H]. lia.
      - assert (2147483648 <= unzigzag y + 2000)%Z.
        { destruct (Z.leb_spec 2147483648 (unzigzag y + 2000)); [assumption|]. exfalso. rewrite <- not_true_iff_false in E. apply E, in_s_iff.
          change (2 ^ (Z.of_N 32 - 1))%Z with 2147483648%Z. lia. }
        destruct (overflow_checks c); split; try discriminate; intuition congruence. }
    assert (Eo : forall k o, bytes_ok k -> code 2 k o -> (arith_u c 16 (Z.of_N o + 1) = None <-> overflow_checks c = true /\ o + 1 = 2 ^ 16)).
    { intros k o Hb Ho. apply code2_bound in Ho; [|exact Hb]. unfold arith_u. change (2 ^ 16) with 65536 in *. change (2 ^ Z.of_N 16)%Z with 65536%Z.
      destruct ((0 <=? Z.of_N o + 1) && (Z.of_N o + 1 <? 65536))%Z eqn:E.
      - split; [discriminate|]. intros [_ H]. lia.
      - destruct (overflow_checks c); split; try discriminate; [|tauto|intros [H _]; discriminate].
        intros _. split; [reflexivity|lia]. }
    split.
    + intros [H|(l & r & a & -> & (y & Hy & ->) & H)]; [auto|]. right. apply Forall_app in Hs as [Hbl Hbr].
      specialize (Ey l y Hbl Hy). exists l, y, r. split; [reflexivity|]. split; [exact Hy|].
      destruct H as [[H ->]|[H [[H2 ->]|(k & o & r' & -> & Ho & H2 & ->)]]].
      * left. split; [apply Ey, H|reflexivity].
      * right. left. rewrite <- Ey. auto.
      * right. right. rewrite <- Ey. split; [exact H|]. apply Forall_app in Hbr as [Hbk _]. apply (Eo k o Hbk Ho) in H2 as [H2 H3].
        exists k, o, r'. auto.
    + intros [H|(l & y & r & -> & Hy & H)]; [auto|]. right. apply Forall_app in Hs as [Hbl Hbr].
      specialize (Ey l y Hbl Hy). exists l, r, (unzigzag y). split; [reflexivity|]. split; [eauto|].
      destruct H as [[H ->]|[[H [H2 ->]]|[H (k & o & r' & -> & Ho & H2 & H3 & ->)]]].
      * left. split; [apply Ey, H|reflexivity].
      * right. rewrite <- Ey in H. auto.
      * right. rewrite <- Ey in H. split; [exact H|]. right. apply Forall_app in Hbr as [Hbk _]. exists k, o, r'.
        split; [reflexivity|]. split; [exact Ho|]. split; [apply (Eo k o Hbk Ho); auto|reflexivity].
Qed.
Lemma fails_date_time : fails c de_date_time (fun s x => no_date_time s /\ x = read_error).
Proof.
  unfold de_date_time. eapply fails_ext; [eapply fails_bind; [apply lang_i64|apply fails_i64|]; intros t u _ _;
    eapply fails_bind; [apply lang_u32|apply fails_u32|intros; apply fails_Ret]|].
  cbv beta. unfold no_date_time. intros s x _. split.
  - intros [[H ->]|(l & r & a & -> & (t & Ht & ->) & [[H ->]|(_ & _ & _ & _ & _ & [])])]; (split; [|reflexivity]); [auto|].
    right. exists l, t, r. auto.
  - intros [[H|(l & t & r & -> & Ht & H)] ->]; [auto|]. right. exists l, r, (unzigzag t). eauto 8.
Qed.
Lemma fails_decimal : fails c (de_big_decimal c) (fun s x => no_decimal s /\ x = read_error).
Proof.
  unfold de_big_decimal. eapply fails_ext.
  - apply fails_bind with (G := fun bs s x => bs <> [] /\ short 8 s /\ x = read_error); [apply (lang_big c); assumption|apply fails_big|].
    intros [|b bs] u _ _.
    + eapply fails_ext; [apply fails_Ret|]. cbv beta. intros s x _. intuition congruence.
    + eapply fails_ext; [eapply fails_bind; [apply lang_i64|apply fails_i64|intros; apply fails_Ret]|].
      cbv beta. intros s x _. split; [intros [H|(_ & _ & _ & _ & _ & [])]; split; [discriminate|exact H]|]. intros [_ H]; auto.
  - cbv beta. unfold no_decimal. intros s x _. split.
    + intros [[H ->]|(u & r & bs & -> & Hb & Hne & H & ->)]; (split; [|reflexivity]); [auto|]. right. exists u, bs, r. auto.
    + intros [[H|(u & bs & r & -> & Hb & Hne & H)] ->]; [auto|]. right. exists u, r, bs. auto.
Qed.

(** ** Every type *)
Ltac rj_leaf := intros s x _; split; [intros [H ->]; constructor; exact H|intros H; inversion H; subst; auto].
Lemma fails_all ds : Forall (fun d => lang c (de c d) (accepts c d)) ds -> Forall (fun d => fails c (de c d) (rejects c d)) ds ->
  fails c (sequence (map (de c) ds)) (rejects_one c ds).
Proof.
  intros Hl Hf. induction ds as [|d ds IH]; cbn [map sequence].
  - eapply fails_ext; [apply fails_Ret|]. cbv beta. intros s x _. split; [intros []|intros H; inversion H].
  - inversion Hl as [|? ? Ld Lds]; subst. inversion Hf as [|? ? Fd Fds]; subst.
    eapply fails_ext; [eapply fails_bind; [exact Ld|exact Fd|]; intros a u _ _;
      eapply fails_bind; [apply (lang_all c); exact Lds|exact (IH Lds Fds)|intros; apply fails_Ret]|].
    cbv beta. intros s x _. split.
    + intros [H|(u & r & a & -> & Ha & [H|(_ & _ & _ & _ & _ & [])])]; [apply ro_here, H|eapply ro_later; eassumption].
    + intros H; inversion H; subst; [auto|]. right. do 3 eexists. split; [reflexivity|]. split; [eassumption|auto].
Qed.
(** Where the loop over the keys stops. *)
Definition loop_stops (fs : list (string * dty)) (read : list (string * sval)) (keys : list string) (s : list N) (x : fault) : Prop :=
  exists ks k rest ds u vs r, keys = ks ++ k :: rest /\ s = u ++ r /\ NoDup ks /\ (forall k, In k ks -> ~ In k (map fst read)) /\
    Forall2 (field_type fs) ks ds /\ accepts_all c ds u vs /\
    ((~ In k (map fst fs) /\ x = inr PTodo) \/
     (In k (map fst fs) /\ (In k ks \/ In k (map fst read)) /\ x = inl EMsg) \/
     (~ In k ks /\ ~ In k (map fst read) /\ exists d, field_type fs k d /\ rejects c d r x)).
Lemma fails_struct_loop fs : NoDup (map fst fs) -> (forall k d, In (k, d) fs -> lang c (de c d) (accepts c d)) ->
  (forall k d, In (k, d) fs -> fails c (de c d) (rejects c d)) -> forall keys read,
  fails c (struct_loop keys (map (fun nf => (fst nf, de c (snd nf))) fs) (slots_of fs read)) (loop_stops fs read keys).
Proof.
  intros Hn HL HF keys. induction keys as [|k keys IH]; intros read; cbn [struct_loop].
  - eapply fails_ext; [apply fails_Ret|]. intros s x _. split; [intros []|]. intros (ks & k & rest & ds & u & vs & r & E & _). destruct ks; discriminate.
  - destruct (find_field k (map (fun nf => (fst nf, de c (snd nf))) fs)) as [[i p]|] eqn:E.
    + apply find_field_in in E. rewrite nth_error_map in E. destruct (nth_error fs i) as [[k' d]|] eqn:Ei; [|discriminate].
      cbn [option_map fst snd] in E. injection E as -> <-. pose proof (nth_error_In _ _ Ei) as Hin.
      assert (Hkn : In k (map fst fs)) by (apply in_map_iff; exists (k, d); auto).
      assert (Huniq : forall d', field_type fs k d' -> d' = d).
      { intros d' Hd'. unfold field_type in Hd'. apply (proj2 (assoc_in k fs d' Hn)) in Hd'. apply (proj2 (assoc_in k fs d Hn)) in Hin. congruence. }
      rewrite (slots_nth fs read i k d Ei). destruct (assoc k read) as [a|] eqn:Ea.
      * assert (Hkr : In k (map fst read)).
        { assert (assoc k read <> None) as X by congruence. rewrite assoc_none in X. destruct (in_dec string_dec k (map fst read)); [assumption|contradiction]. }
        eapply fails_ext; [apply fails_Fail|]. cbv beta. intros s x _. split.
        -- intros ->. exists [], k, keys, [], [], [], s. split; [reflexivity|]. split; [reflexivity|]. split; [constructor|]. split; [intros k0 []|].
           split; [constructor|]. split; [constructor|]. right. left. auto.
        -- intros (ks & k0 & rest & ds & u & vs & r & Ek & -> & Hnd & Hdis & HFt & HA & H). destruct ks as [|k1 ks].
           ++ injection Ek as <- <-. destruct H as [[H _]|[(_ & _ & ->)|(_ & H & _)]]; [contradiction|reflexivity|contradiction].
           ++ injection Ek as <- _. destruct (Hdis k (or_introl eq_refl) Hkr).
      * apply assoc_none in Ea as Ea'. eapply fails_ext.
        -- apply fails_bind with (F := rejects c d); [apply (HL k d Hin)|apply (HF k d Hin)|]. intros a w _ _. rewrite (slots_set fs read i k d a Hn Ei Ea). apply IH.
        -- cbv beta. intros s x _. split.
           ++ intros [H|(w & r0 & a & -> & Ha & ks & k0 & rest & ds & u & vs & r & -> & -> & Hnd & Hdis & HFt & HA & H)].
              ** exists [], k, keys, [], [], [], s. split; [reflexivity|]. split; [reflexivity|]. split; [constructor|]. split; [intros k0 []|].
                 split; [constructor|]. split; [constructor|]. right. right. split; [intros []|]. split; [exact Ea'|]. exists d. auto.
              ** assert (Hk : ~ In k ks). { intros Hk. apply (Hdis k Hk). rewrite map_app. apply in_or_app. right. left. reflexivity. }
                 exists (k :: ks), k0, rest, (d :: ds), (w ++ u), (a :: vs), r. split; [reflexivity|]. split; [apply app_assoc|].
                 split; [constructor; assumption|]. split.
                 { intros k1 [<-|H1]; [exact Ea'|]. intros X. apply (Hdis k1 H1). rewrite map_app. apply in_or_app. left. exact X. }
                 split; [constructor; assumption|]. split; [constructor; assumption|]. rewrite map_app in H. cbn [map fst] in H.
                 destruct H as [H|[(H1 & H2 & H3)|(H1 & H2 & H3)]]; [auto|right; left|right; right].
                 --- split; [exact H1|]. split; [|exact H3]. destruct H2 as [H2|H2]; [left; right; exact H2|].
                     apply in_app_or in H2 as [H2|[H2|[]]]; [auto|left; left; exact H2].
                 --- split; [intros [H4|H4]; [apply H2, in_or_app; right; left; exact H4|exact (H1 H4)]|].
                     split; [intros H4; apply H2, in_or_app; left; exact H4|exact H3].
           ++ intros (ks & k0 & rest & ds & u & vs & r & Ek & -> & Hnd & Hdis & HFt & HA & H). destruct ks as [|k1 ks].
              ** injection Ek as <- <-. inversion HFt; subst. inversion HA; subst. cbn [app].
                 destruct H as [[H _]|[(_ & [[]|H] & _)|(_ & _ & d' & Hd' & H)]]; [contradiction|contradiction|].
                 left. rewrite <- (Huniq d' Hd'). exact H.
              ** injection Ek as <- ->. inversion HFt as [|? d' ? ds' Hd' HFt']; subst. inversion HA as [|? ? x1 y1 a l Ha HA']; subst.
                 rewrite (Huniq d' Hd') in Ha. inversion Hnd as [|? ? Hk Hnd']; subst. right. exists x1, (y1 ++ r), a.
                 split; [symmetry; apply app_assoc|]. split; [exact Ha|].
                 exists ks, k0, rest, ds', y1, l, r. split; [reflexivity|]. split; [reflexivity|]. split; [exact Hnd'|]. rewrite map_app. cbn [map fst]. split.
                 { intros k1 H1 X. apply in_app_or in X as [X|[X|[]]]; [exact (Hdis k1 (or_intror H1) X)|]. congruence. }
                 split; [exact HFt'|]. split; [exact HA'|].
                 destruct H as [H|[(H1 & H2 & H3)|(H1 & H2 & H3)]]; [auto|right; left|right; right].
                 --- split; [exact H1|]. split; [|exact H3]. destruct H2 as [[H2|H2]|H2]; [right; apply in_or_app; right; left; exact H2|auto|].
                     right. apply in_or_app. left. exact H2.
                 --- split; [intros H4; apply H1; right; exact H4|]. split; [|exact H3].
                     intros H4. apply in_app_or in H4 as [H4|[H4|[]]]; [exact (H2 H4)|]. apply H1. left. exact H4.
    + apply find_none in E. rewrite map_map in E. cbn [fst] in E. change (map (fun x : string * dty => fst x) fs) with (map fst fs) in E.
      eapply fails_ext; [apply fails_Crash|]. cbv beta. intros s x _. split.
      * intros ->. exists [], k, keys, [], [], [], s. split; [reflexivity|]. split; [reflexivity|]. split; [constructor|]. split; [intros k0 []|].
        split; [constructor|]. split; [constructor|]. left. auto.
      * intros (ks & k0 & rest & ds & u & vs & r & Ek & -> & Hnd & Hdis & HFt & HA & H). destruct ks as [|k1 ks].
        -- injection Ek as <- <-. destruct H as [[_ H]|[(H & _)|(_ & _ & d & H & _)]]; [exact H|contradiction|].
           exfalso. apply E, in_map_iff. exists (k, d). auto.
        -- injection Ek as <- _. inversion HFt as [|? d ? ds' Hd _]; subst. exfalso. apply E, in_map_iff. exists (k, d). auto.
Qed.
Lemma fails_struct keys fs : NoDup (map fst fs) -> (forall k d, In (k, d) fs -> lang c (de c d) (accepts c d)) ->
  (forall k d, In (k, d) fs -> fails c (de c d) (rejects c d)) -> fails c (de c (DStruct keys fs)) (rejects c (DStruct keys fs)).
Proof.
  intros Hn HL HF. cbn [de]. unfold de_struct. eapply fails_ext.
  - apply fails_pmap. rewrite map_map. change (map (fun _ : string * dty => None) fs) with (slots_of fs (@nil (string * sval))).
    apply fails_bind with (G := fun sl (r : list N) x => fill_missing (map (fun nf => missing (snd nf)) fs) sl = Fail EMsg /\ x = inl EMsg);
      [apply (lang_struct_loop c fs Hn HL keys [])|apply (fails_struct_loop fs Hn HL HF keys [])|].
    intros sl u _ (ds & vs & Hnd & _ & HFt & HA & ->). cbn [app]. pose proof (accepts_all_length c _ _ _ HA) as Hlen. pose proof (Forall2_length _ _ _ HFt) as Hlen2.
    destruct (fill_missing_cases fs (combine keys vs)) as [(ws & -> & _)|(-> & _)]; [rewrite map_fst_combine by congruence; exact Hnd| |].
    + eapply fails_ext; [apply fails_Ret|]. cbv beta. intros y l _. intuition congruence.
    + eapply fails_ext; [apply fails_Fail|]. cbv beta. intros y l _. intuition congruence.
  - cbv beta. intros s x _. split.
    + intros [(ks & k & rest & ds & u & vs & r & -> & -> & Hnd & _ & HFt & HA & H)|(u & r & sl & -> & (ds & vs & Hnd & _ & HFt & HA & ->) & E & ->)].
      * destruct H as [[H ->]|[(_ & [H|[]] & ->)|(H & _ & d & Hd & Hx)]].
        -- eapply rj_struct_unknown; eassumption.
        -- eapply rj_struct_repeated; eassumption.
        -- eapply rj_struct_field; eassumption.
      * cbn [app] in E. pose proof (accepts_all_length c _ _ _ HA) as Hlen. pose proof (Forall2_length _ _ _ HFt) as Hlen2.
        assert (Hk : map fst (combine keys vs) = keys) by (apply map_fst_combine; congruence).
        destruct (fill_missing_cases fs (combine keys vs)) as [(ws & E' & _)|(_ & _ & k & d & H1 & H2 & H3)]; [rewrite Hk; exact Hnd|congruence|].
        rewrite Hk in H2. eapply rj_struct_missing; eassumption.
    + assert (N1 : forall ks : list string, forall k, In k ks -> ~ In k (map fst (@nil (string * sval)))) by (intros ks k _ []).
      intros H. inversion H as [| | | | | | | | | | | | | | | | | | | | | | | | | | |
        ks k rest fs' ds u vs r Hnd HFt HA Hk|ks k rest fs' ds u vs r Hnd HFt HA Hk|ks k rest fs' ds d u vs r y Hnd HFt HA Hk Hd Hx
        |ks fs' ds u vs r k d Hnd HFt HA Hd Hk Ho| | | | | | | | | | | | | |]; subst.
      * left. exists ks, k, rest, ds, u, vs, r. split; [reflexivity|]. split; [reflexivity|]. split; [exact Hnd|]. split; [apply N1|].
        split; [exact HFt|]. split; [exact HA|]. left. auto.
      * left. exists ks, k, rest, ds, u, vs, r. split; [reflexivity|]. split; [reflexivity|]. split; [exact Hnd|]. split; [apply N1|].
        split; [exact HFt|]. split; [exact HA|]. right. left. split; [|auto].
        clear - HFt Hk. induction HFt as [|k0 d0 ks ds Hd0 _ IH]; [destruct Hk|]. destruct Hk as [->|Hk]; [|exact (IH Hk)].
        apply in_map_iff. exists (k, d0). auto.
      * left. exists ks, k, rest, ds, u, vs, r. split; [reflexivity|]. split; [reflexivity|]. split; [exact Hnd|]. split; [apply N1|].
        split; [exact HFt|]. split; [exact HA|]. right. right. split; [exact Hk|]. split; [intros []|]. eauto.
      * right. exists u, r, (slots_of fs (combine keys vs)). split; [reflexivity|].
        split; [exists ds, vs; split; [exact Hnd|]; split; [apply N1|]; auto|]. split; [|reflexivity].
        pose proof (accepts_all_length c _ _ _ HA) as Hlen. pose proof (Forall2_length _ _ _ HFt) as Hlen2.
        assert (Hm : map fst (combine keys vs) = keys) by (apply map_fst_combine; congruence).
        destruct (fill_missing_cases fs (combine keys vs)) as [(ws & _ & _ & X)|(E' & _)]; [rewrite Hm; exact Hnd| |exact E'].
        rewrite Hm in X. destruct (X k d Hd Hk) as [d' ->]. destruct (Ho d' eq_refl).
Qed.
Theorem fails_de d : shaped d = true -> fails c (de c d) (rejects c d).
Proof.
  induction d using dty_ind2; intros Hwf; pose proof (lang_de c Hw H64 Hh) as HL; cbn [de];
    try (eapply fails_ext; [first [apply fails_Fail|apply fails_Crash]|intros s x _; split; [intros ->; constructor|intros H; inversion H; reflexivity]]).
  - eapply fails_ext; [apply fails_pmap, fails_bool|]. rj_leaf.
  - eapply fails_ext; [apply fails_pmap, fails_pmap, fails_byte|]. intros s x _; split; [intros [-> ->]; constructor|intros H; inversion H; auto].
  - eapply fails_ext; [apply fails_pmap, fails_i16|]. rj_leaf.
  - eapply fails_ext; [apply fails_pmap, fails_i32|]. rj_leaf.
  - eapply fails_ext; [apply fails_pmap, fails_i64|]. rj_leaf.
  - eapply fails_ext; [apply fails_pmap, fails_byte|]. intros s x _; split; [intros [-> ->]; constructor|intros H; inversion H; auto].
  - eapply fails_ext; [apply fails_pmap, fails_u16|]. rj_leaf.
  - eapply fails_ext; [apply fails_pmap, fails_u32|]. rj_leaf.
  - eapply fails_ext; [apply fails_pmap, fails_u64|]. rj_leaf.
  - (* isize *)
    eapply fails_ext.
    + apply fails_pmap. unfold de_isize. apply fails_bind with (G := fun _ _ _ => False); [apply lang_i64|apply fails_i64|].
      intros z u Hu (n & Hn & ->). rewrite H64, unzigzag_in by (try lia; eapply code8_bound; eassumption). apply fails_Ret.
    + cbv beta. intros s x _. split.
      * intros [[H ->]|(_ & _ & _ & _ & _ & [])]. constructor; exact H.
      * intros H; inversion H; subst. auto.
  - (* usize *)
    eapply fails_ext.
    + apply fails_pmap. unfold de_usize. apply fails_bind with (G := fun _ _ _ => False); [apply lang_u64|apply fails_u64|].
      intros n u Hu Hn. apply code8_bound in Hn; [|exact Hu]. rewrite H64. apply N.ltb_lt in Hn. rewrite Hn. apply fails_Ret.
    + cbv beta. intros s x _. split.
      * intros [[H ->]|(_ & _ & _ & _ & _ & [])]. constructor; exact H.
      * intros H; inversion H; subst. auto.
  - eapply fails_ext; [apply fails_pmap, fails_fixed|]. intros s x _; split; [intros [H ->]; constructor; unfold lenN in H; lia|].
    intros H; inversion H; subst. split; [unfold lenN; lia|reflexivity].
  - eapply fails_ext; [apply fails_pmap, fails_fixed|]. intros s x _; split; [intros [H ->]; constructor; unfold lenN in H; lia|].
    intros H; inversion H; subst. split; [unfold lenN; lia|reflexivity].
  - eapply fails_ext; [apply fails_pmap, fails_char|]. cbv beta. intros s x _; split.
    + intros [[H ->]|(l & r & -> & Hl & ->)]; constructor; assumption.
    + intros H; inversion H; subst; [auto|]. right. eauto.
  - eapply fails_ext; [apply fails_pmap, fails_string|]. rj_leaf.
  - eapply fails_ext; [apply fails_pmap, fails_byte_buf|]. rj_leaf.
  - eapply fails_ext; [apply fails_pmap, fails_option, IHd, Hwf|]. cbv beta. intros s x _; split.
    + intros [[H ->]|(t & -> & H)]; constructor; exact H.
    + intros H; inversion H; subst; [auto|]. right. eauto.
  - eapply fails_ext; [apply fails_Ret|]. intros s x _; split; [intros []|intros H; inversion H].
  - eapply fails_ext; [apply fails_Ret|]. intros s x _; split; [intros []|intros H; inversion H].
  - eapply fails_ext; [apply fails_pmap, IHd, Hwf|]. intros s x _; split; [intros H; constructor; exact H|intros H; inversion H; auto].
  - (* vec *)
    eapply fails_ext; [apply fails_pmap, fails_vec; [apply HL, Hwf|apply IHd, Hwf]|]. cbv beta. intros s x _; split.
    + intros [[H ->]|(y & n & u & l & r & -> & Hy & Hm & Hlt & H)]; [constructor; exact H|].
      eapply rj_vec; [exact Hy|apply (many_all c), Hm|exact Hlt|exact H].
    + intros H; inversion H; subst; [auto|]. right. do 5 eexists. split; [reflexivity|]. split; [eassumption|].
      split; [apply (many_all c); eassumption|auto].
  - (* tuple *)
    cbn [shaped] in Hwf. rewrite forallb_forall in Hwf. rewrite Forall_forall in H.
    eapply fails_ext; [apply fails_pmap, fails_all; apply Forall_forall; intros d Hd; [apply HL, Hwf, Hd|apply (H d Hd), Hwf, Hd]|].
    cbv beta. intros s x _; split; [intros E; constructor; exact E|intros E; inversion E; auto].
  - cbn [shaped] in Hwf. rewrite forallb_forall in Hwf. rewrite Forall_forall in H.
    eapply fails_ext; [apply fails_pmap, fails_all; apply Forall_forall; intros d Hd; [apply HL, Hwf, Hd|apply (H d Hd), Hwf, Hd]|].
    cbv beta. intros s x _; split; [intros E; constructor; exact E|intros E; inversion E; auto].
  - (* map *)
    eapply fails_ext; [apply fails_pmap, fails_map; [apply HL, Hwf|apply IHd, Hwf]|]. cbv beta. intros s x _; split.
    + intros [[H ->]|(y & n & u & es & r & -> & Hy & Hm & Hlt & [[H ->]|(k & bs & r' & -> & Hv & Hb & H)])].
      * constructor; exact H.
      * eapply rj_map_key; [exact Hy|apply (many_entries c), Hm|exact Hlt|exact H].
      * eapply rj_map_value; [exact Hy|apply (many_entries c), Hm|exact Hlt|exact Hv|exact Hb|exact H].
    + intros H; inversion H; subst; [auto| |].
      * right. do 5 eexists. split; [reflexivity|]. split; [eassumption|]. split; [apply (many_entries c); eassumption|auto].
      * right. do 5 eexists. split; [reflexivity|]. split; [eassumption|]. split; [apply (many_entries c); eassumption|]. split; [assumption|].
        right. do 3 eexists. split; [reflexivity|]. eauto.
  - (* struct *)
    cbn [shaped] in Hwf. apply andb_prop in Hwf as [Hnd Hfs]. apply nodupb_NoDup in Hnd. rewrite forallb_forall in Hfs. rewrite Forall_forall in H.
    apply fails_struct; [exact Hnd|intros k d Hd; exact (HL d (Hfs (k, d) Hd))|intros k d Hd; exact (H (k, d) Hd (Hfs (k, d) Hd))].
  - (* enum *)
    cbn [shaped] in Hwf. rewrite forallb_forall in Hwf. rewrite Forall_forall in H. unfold de_enum. eapply fails_ext.
    + apply fails_bind with (G := fun i s x => (lenN vs <= i /\ x = inl EMsg) \/ exists k d, pickN vs i = Some (k, d) /\ rejects c d s x); [apply lang_u16|apply fails_u16|].
      intros i u _ _. rewrite pickN_map. destruct (pickN vs i) as [[k d]|] eqn:E; cbn [option_map fst snd].
      * pose proof (proj1 (pickN_some _ _ _ E)) as Hin. pose proof (proj2 (pickN_some _ _ _ E)) as Hlt.
        pose proof (Hwf _ Hin) as Hd. apply andb_prop in Hd as [_ Hd]. cbn [snd] in Hd.
        eapply fails_ext; [apply fails_pmap, (H _ Hin), Hd|]. cbv beta. intros s x _; split; [eauto|].
        intros [[H1 _]|(k' & d' & E' & H1)]; [lia|]. injection E' as <- <-. exact H1.
      * eapply fails_ext; [apply fails_Fail|]. cbv beta. apply pickN_none in E. intros s x _; split; [intros ->; auto|].
        intros [[_ ->]|(k' & d' & E' & H1)]; [reflexivity|discriminate].
    + cbv beta. intros s x _; split.
      * intros [[H1 ->]|(l & r & i & -> & Hl & [[H1 ->]|(k & d & E & H1)])]; [constructor; exact H1|apply rj_enum_unknown with (i := i); assumption|eapply rj_enum; eassumption].
      * intros E; inversion E; subst; [auto| |]; right; do 3 eexists; (split; [reflexivity|]); (split; [eassumption|]); eauto.
  - eapply fails_ext; [apply fails_pmap, fails_big|]. rj_leaf.
  - eapply fails_ext; [apply fails_pmap, fails_big|]. rj_leaf.
  - eapply fails_ext; [apply fails_pmap, fails_decimal|]. rj_leaf.
  - eapply fails_ext; [apply fails_pmap, fails_date|]. intros s x _; split; [intros H; constructor; exact H|intros H; inversion H; subst; assumption].
  - eapply fails_ext; [apply fails_pmap, fails_date_time|]. rj_leaf.
Qed.

(** ** Bodies *)
Lemma no_room_alloc n q : no_room c n q <-> alloc_result c (n * size_of_body c) = Some q.
Proof.
  unfold no_room, alloc_result, isize_max. cbv zeta. rewrite H64. change (2 ^ (64 - 1)) with 9223372036854775808.
  generalize (n * size_of_body c); intros m.
  destruct (N.ltb_spec (9223372036854775808 - 1) m) as [H|H]; [|destruct (N.ltb_spec (heap_limit c) m) as [H'|H']].
  - split; [intros [[_ ->]|[H1 _]]; [reflexivity|lia]|]. intros E; injection E as <-. left. split; [lia|reflexivity].
  - split; [intros [[H1 _]|[_ [_ ->]]]; [lia|reflexivity]|]. intros E; injection E as <-. right. split; [lia|auto].
  - split; [intros [[H1 _]|[_ [H1 _]]]; lia|discriminate].
Qed.
Lemma room_alloc n : (forall q, ~ no_room c n q) <-> alloc_result c (n * size_of_body c) = None.
Proof.
  split.
  - intros H. destruct (alloc_result c (n * size_of_body c)) as [q|] eqn:E; [|reflexivity]. exfalso. apply (H q), no_room_alloc, E.
  - intros E q H. apply no_room_alloc in H. congruence.
Qed.
Lemma fails_bodies hs : Forall (fun h => fails c (bde c h) (body_rejects c h)) hs ->
  fails c (sequence (map (bde c) hs)) (bodies_reject c hs).
Proof.
  intros Hf. induction hs as [|h hs IH]; cbn [map sequence].
  - eapply fails_ext; [apply fails_Ret|]. cbv beta. intros s x _. split; [intros []|intros H; inversion H].
  - inversion Hf as [|? ? Fd Fds]; subst. pose proof (lang_bde c Hw H64 Hh) as HL.
    eapply fails_ext; [eapply fails_bind; [apply HL|exact Fd|]; intros a u _ _;
      eapply fails_bind; [apply (lang_bodies c), Forall_forall; intros; apply HL|exact (IH Fds)|intros; apply fails_Ret]|].
    cbv beta. intros s x _. split.
    + intros [H|(u & r & a & -> & Ha & [H|(_ & _ & _ & _ & _ & [])])]; [apply brs_here, H|eapply brs_later; eassumption].
    + intros H; inversion H; subst; [auto|]. right. do 3 eexists. split; [reflexivity|]. split; [eassumption|auto].
Qed.
Theorem fails_bde h : fails c (bde c h) (body_rejects c h).
Proof.
  pose proof (lang_bde c Hw H64 Hh) as HL.
  apply (header_ind2 (fun h => fails c (bde c h) (body_rejects c h))); clear h.
  - intros h. destruct h; try exact I; cbn [bde].
    + eapply fails_ext; [apply fails_Ret|]. intros s x _; split; [intros []|intros H; inversion H].
    + eapply fails_ext; [apply fails_pmap, fails_bool|]. rj_leaf.
    + eapply fails_ext; [apply fails_pmap, fails_byte|]. intros s x _; split; [intros [-> ->]; constructor|intros H; inversion H; auto].
    + eapply fails_ext; [apply fails_pmap, fails_u16|]. rj_leaf.
    + eapply fails_ext; [apply fails_pmap, fails_u32|]. rj_leaf.
    + eapply fails_ext; [apply fails_pmap, fails_u64|]. rj_leaf.
    + eapply fails_ext; [apply fails_pmap, fails_pmap, fails_byte|]. intros s x _; split; [intros [-> ->]; constructor|intros H; inversion H; auto].
    + eapply fails_ext; [apply fails_pmap, fails_i16|]. rj_leaf.
    + eapply fails_ext; [apply fails_pmap, fails_i32|]. rj_leaf.
    + eapply fails_ext; [apply fails_pmap, fails_i64|]. rj_leaf.
    + eapply fails_ext; [apply fails_pmap, fails_fixed|]. intros s x _; split; [intros [H ->]; constructor; unfold lenN in H; lia|].
      intros H; inversion H; subst. split; [unfold lenN; lia|reflexivity].
    + eapply fails_ext; [apply fails_pmap, fails_fixed|]. intros s x _; split; [intros [H ->]; constructor; unfold lenN in H; lia|].
      intros H; inversion H; subst. split; [unfold lenN; lia|reflexivity].
    + eapply fails_ext; [apply fails_pmap, fails_big|]. rj_leaf.
    + eapply fails_ext; [apply fails_pmap, fails_big|]. rj_leaf.
    + eapply fails_ext; [apply fails_pmap, fails_decimal|]. rj_leaf.
    + eapply fails_ext; [apply fails_pmap, fails_string|]. rj_leaf.
    + eapply fails_ext; [apply fails_pmap, fails_byte_buf|]. rj_leaf.
    + eapply fails_ext; [apply fails_pmap, fails_date|]. intros s x _; split; [intros H; constructor; exact H|intros H; inversion H; subst; assumption].
    + eapply fails_ext; [apply fails_pmap, fails_date_time|]. rj_leaf.
  - intros h IH. cbn [bde]. eapply fails_ext; [apply fails_pmap, fails_option, IH|]. cbv beta. intros s x _; split.
    + intros [[H ->]|(t & -> & H)]; constructor; exact H.
    + intros H; inversion H; subst; [auto|]. right. eauto.
  - (* array *)
    intros h IH. cbn [bde]. eapply fails_ext.
    + apply fails_bind; [apply lang_u64|apply fails_u64|]. intros n u Hu Hn. apply fails_Alloc, fails_pmap.
      eapply fails_run; [intros; apply run_repeatN|]. apply (fails_rep (bde c h) _ _ (N.to_nat n) (HL h) IH).
    + cbv beta. intros s x Hs; split.
      * intros [[H ->]|(l & r & n & -> & Hl & H)]; [apply br_array_count; exact H|]. apply Forall_app in Hs as [Hbl _].
        rewrite (usize_64 c H64) in H by exact (code8_bound _ _ Hbl Hl).
        destruct H as [(q & Hq & ->)|[Hr (u & vs & t & -> & Hm & Hlt & H)]].
        -- eapply br_array_room; [exact Hl|apply no_room_alloc, Hq].
        -- eapply br_array; [exact Hl|apply room_alloc, Hr|apply (many_bodies c), Hm|unfold lenN; lia|exact H].
      * intros H; inversion H as [| | | | | | | | | | | | | | | | | |h' s' Hsh|h' l n s' q Hl Hq|h' l n u bs s' x' Hl Hr Hm Hlt Hx| | | | | | | | | |]; subst; [auto| |].
        -- apply Forall_app in Hs as [Hbl _]. right. exists l, s', n. rewrite (usize_64 c H64) by exact (code8_bound _ _ Hbl Hl).
           split; [reflexivity|]. split; [exact Hl|]. left. exists q. split; [apply no_room_alloc, Hq|reflexivity].
        -- apply Forall_app in Hs as [Hbl _]. right. exists l, (u ++ s'), n. rewrite (usize_64 c H64) by exact (code8_bound _ _ Hbl Hl).
           split; [reflexivity|]. split; [exact Hl|]. right. split; [apply room_alloc, Hr|]. exists u, bs, s'.
           split; [reflexivity|]. split; [apply (many_bodies c), Hm|]. split; [unfold lenN in Hlt; lia|exact Hx].
  - (* map *)
    intros h IH. eapply fails_run; [intros s Hs; exact (bde_map_eq c h s H64 Hs)|].
    eapply fails_ext; [apply fails_pmap, fails_map; [apply HL|exact IH]|]. cbv beta. intros s x _; split.
    + intros [[H ->]|(y & n & u & es & r & -> & Hy & Hm & Hlt & [[H ->]|(k & bs & r' & -> & Hv & Hb & H)])].
      * constructor; exact H.
      * eapply br_map_key; [exact Hy|apply (many_body_entries c), Hm|exact Hlt|exact H].
      * eapply br_map_value; [exact Hy|apply (many_body_entries c), Hm|exact Hlt|exact Hv|exact Hb|exact H].
    + intros H; inversion H; subst; [auto| |].
      * right. do 5 eexists. split; [reflexivity|]. split; [eassumption|]. split; [apply (many_body_entries c); eassumption|auto].
      * right. do 5 eexists. split; [reflexivity|]. split; [eassumption|]. split; [apply (many_body_entries c); eassumption|]. split; [assumption|].
        right. do 3 eexists. split; [reflexivity|]. eauto.
  - (* tuple *)
    intros hs IH. cbn [bde]. eapply fails_ext; [apply fails_Alloc, fails_pmap, fails_bodies, IH|]. cbv beta. intros s x _; split.
    + intros [(q & Hq & ->)|[Hr H]]; [apply br_tuple_room, no_room_alloc, Hq|apply br_tuple; [apply room_alloc, Hr|exact H]].
    + intros H; inversion H; subst.
      * left. eexists. split; [apply no_room_alloc; eassumption|reflexivity].
      * right. split; [apply room_alloc; assumption|assumption].
  - (* enum *)
    intros hs IH. cbn [bde]. eapply fails_ext.
    + apply fails_bind with (G := fun i s x => (lenN hs <= i /\ x = read_error) \/ exists h, pickN hs i = Some h /\ body_rejects c h s x); [apply lang_u32|apply fails_u32|].
      intros i u Hu Hi. rewrite (usize_64 c H64) by (pose proof (code4_bound _ _ Hu Hi); lia). rewrite pickN_map.
      destruct (pickN hs i) as [h|] eqn:E; cbn [option_map].
      * pose proof (proj2 (pickN_some _ _ _ E)) as Hlt.
        eapply fails_ext; [apply fails_pmap; exact (proj1 (Forall_forall _ _) IH h (proj1 (pickN_some _ _ _ E)))|]. cbv beta. intros s x _; split; [eauto|].
        intros [[H1 _]|(h' & E' & H1)]; [lia|]. injection E' as <-. exact H1.
      * eapply fails_ext; [apply fails_Fail|]. cbv beta. apply pickN_none in E. intros s x _; split; [intros ->; auto|].
        intros [[_ ->]|(h' & E' & H1)]; [reflexivity|discriminate].
    + cbv beta. intros s x _; split.
      * intros [[H1 ->]|(l & r & i & -> & Hl & [[H1 ->]|(h & E & H1)])]; [apply br_enum_index; exact H1|apply br_enum_unknown with (i := i); assumption|eapply br_enum; eassumption].
      * intros E; inversion E; subst; [auto| |]; right; do 3 eexists; (split; [reflexivity|]); (split; [eassumption|]); eauto.
Qed.
End Bits64.

(** ** Headers *)
Lemma header_u16 c s : bytes_ok s ->
  (exists l n r, s = l ++ r /\ code 2 l n /\ n < 65536 /\ run c (dec_u16 EIo) s = OOk n r) \/ (short 2 s /\ run c (dec_u16 EIo) s = OErr EIo).
Proof.
  intros Hs. rewrite dec_u16_run by apply bytes_guard, Hs. destruct s as [|p t]; cbn [varint_run]; [right; split; [left|]; reflexivity|].
  destruct (N.ltb_spec (lenN t) (N.of_nat (varint_extra 2 p))) as [H|H].
  - right. split; [right; exists p, t; split; [reflexivity|unfold lenN in H; lia]|reflexivity].
  - left. set (k := N.of_nat (varint_extra 2 p)) in *. exists (p :: takeN k t), (varint_value 2 p (takeN k t)), (dropN k t).
    split; [cbn [app]; f_equal; symmetry; apply take_drop|].
    assert (Hc : code 2 (p :: takeN k t) (varint_value 2 p (takeN k t))).
    { exists p, (takeN k t). split; [reflexivity|]. split; [|reflexivity]. pose proof (lenN_takeN k t) as E. unfold lenN in E, H. unfold k in *. lia. }
    split; [exact Hc|]. split; [|reflexivity]. apply (code2_bound (p :: takeN k t)); [|exact Hc].
    inversion Hs; subst. constructor; [assumption|apply Forall_takeN; assumption].
Qed.
Lemma header_u16_code c l n r : bytes_ok (l ++ r) -> code 2 l n -> run c (dec_u16 EIo) (l ++ r) = OOk n r.
Proof.
  intros Hs (p & t & -> & Hl & ->). rewrite dec_u16_run by apply bytes_guard, Hs. cbn [app varint_run].
  destruct (N.ltb_spec (lenN (t ++ r)) (N.of_nat (varint_extra 2 p))) as [E|_]; [rewrite lenN_app in E; unfold lenN in E; lia|].
  rewrite takeN_app_n, dropN_app_n by (unfold lenN; congruence). reflexivity.
Qed.
Lemma header_u16_short c s : bytes_ok s -> short 2 s -> run c (dec_u16 EIo) s = OErr EIo.
Proof.
  intros Hs H. rewrite dec_u16_run by apply bytes_guard, Hs. destruct H as [->|(p & t & -> & H)]; [reflexivity|]. cbn [varint_run].
  destruct (N.ltb_spec (lenN t) (N.of_nat (varint_extra 2 p))) as [E|E]; [reflexivity|unfold lenN in E; lia].
Qed.
Lemma hde_err c : forall d s e, bytes_ok s -> run c (hde c d) s = OErr e -> header_rejects s e.
Proof.
  induction d as [|d IH]; intros s e Hs H; [rewrite run_hde_O in H; discriminate|].
  assert (Hrep : forall n s, bytes_ok s -> run c (rep n (hde c d)) s = OErr e ->
    exists u hs r, s = u ++ r /\ headers_wire false u hs /\ (length hs < n)%nat /\ header_rejects r e).
  { clear s Hs H. induction n as [|n IHn]; intros s Hs H; cbn [rep run] in H; [discriminate|]. rewrite run_bind in H.
    destruct (run c (hde c d) s) as [h r|e'|q] eqn:E; cbn [obind] in H; [| |discriminate].
    - pose proof (run_rest _ _ _ _ _ Hs E) as Hr. apply hde_wire in E as (u1 & -> & W1); [|exact Hs]. rewrite run_bind in H.
      destruct (run c (rep n (hde c d)) r) as [l r2|e'|q] eqn:E2; cbn [obind run] in H; try discriminate. injection H as ->.
      apply IHn in E2 as (u & hs & r' & -> & W & Hl & Hj); [|exact Hr]. exists (u1 ++ u), (h :: hs), r'.
      split; [apply app_assoc|]. split; [constructor; assumption|]. split; [cbn [length]; lia|exact Hj].
    - injection H as ->. exists [], [], s. split; [reflexivity|]. split; [constructor|]. split; [cbn; lia|]. apply IH; assumption. }
  destruct s as [|b s]; [rewrite run_hde_nil in H; injection H as <-; constructor|]. rewrite run_hde_S in H.
  inversion Hs as [|? ? Hb Hs']; subst. destruct (lookup_code code_table b) as [[h'|f|f]|] eqn:Ek; cbn [hde_kind run] in H; [discriminate| | |].
  - apply code_in in Ek. rewrite run_pmap in H. destruct (run c (hde c d) s) as [h r|e'|q] eqn:E; cbn [obind] in H; try discriminate.
    injection H as ->. eapply hr_box; [exact Ek|]. apply IH; assumption.
  - apply code_in in Ek. unfold hde_members in H. rewrite run_bind in H.
    destruct (header_u16 c s Hs') as [(l & n & r & -> & Hc & _ & E)|[Hsh E]]; rewrite E in H; cbn [obind] in H.
    + cbn [run] in H. destruct (alloc_result c _); [discriminate|]. rewrite run_pmap, run_repeatN in H.
      destruct (run c (rep (N.to_nat n) (hde c d)) r) as [l2 r2|e'|q] eqn:E2; cbn [obind] in H; try discriminate. injection H as ->.
      apply Hrep in E2 as (u & hs & r' & -> & W & Hl & Hj); [|apply Forall_app in Hs'; tauto].
      eapply hr_member; [exact Ek|exact Hc|exact W|unfold lenN; lia|exact Hj].
    + injection H as <-. eapply hr_count; eassumption.
  - injection H as <-. apply hr_unknown. intros k Hk. apply code_in in Hk. congruence.
Qed.
Lemma rep_reject c d n u hs s e : room c -> headers_wire false u hs -> bytes_ok (u ++ s) -> (length (u ++ s) < d)%nat ->
  (length hs < n)%nat -> run c (hde c d) s = OErr e -> run c (rep n (hde c d)) (u ++ s) = OErr e.
Proof.
  intros Hroom W. revert n. induction W as [|u h v hs W1 W2 IH]; intros n Hs Hd Hl H.
  - destruct n as [|n]; [cbn in Hl; lia|]. cbn [rep app]. rewrite run_bind, H. reflexivity.
  - destruct n as [|n]; [cbn in Hl; lia|]. cbn [rep]. rewrite <- app_assoc in *. rewrite run_bind.
    rewrite (proj2 (hde_accepts c d (u ++ v ++ s) h (v ++ s) Hroom Hs Hd)) by eauto. cbn [obind]. rewrite run_bind.
    apply Forall_app in Hs as [_ Hs]. rewrite app_length in Hd. rewrite IH; [reflexivity|exact Hs|lia|cbn [length] in Hl; lia|exact H].
Qed.
Lemma hde_rejects c d s e : room c -> bytes_ok s -> (length s < d)%nat -> (run c (hde c d) s = OErr e <-> header_rejects s e).
Proof.
  intros Hroom Hs Hd. split; [apply hde_err, Hs|]. intros H. revert d Hs Hd.
  induction H as [|b s Hk|b f s e Hk _ IH|b f s Hk Hsh|b f l n u hs s e Hk Hc W Hl _ IH]; intros d Hs Hd; (destruct d as [|d]; [lia|]).
  - apply run_hde_nil.
  - rewrite run_hde_S. destruct (lookup_code code_table b) as [k|] eqn:E; [|reflexivity]. apply code_in in E. destruct (Hk k E).
  - rewrite run_hde_S. apply code_in in Hk. rewrite Hk. cbn [hde_kind]. rewrite run_pmap. inversion Hs; subst.
    rewrite IH; [reflexivity|assumption|cbn [length] in Hd; lia].
  - rewrite run_hde_S. apply code_in in Hk. rewrite Hk. cbn [hde_kind]. unfold hde_members. inversion Hs; subst.
    rewrite run_bind, header_u16_short by assumption. reflexivity.
  - rewrite run_hde_S. apply code_in in Hk. rewrite Hk. cbn [hde_kind]. unfold hde_members. inversion Hs as [|? ? _ Hs']; subst.
    rewrite run_bind, (header_u16_code c l n) by assumption. cbn [obind run length] in *. apply Forall_app in Hs' as [Hbl Hs'].
    rewrite HeaderFacts.room_alloc by (try assumption; pose proof (code2_bound _ _ Hbl Hc) as X; change (2 ^ 16) with 65536 in X; lia).
    rewrite run_pmap, run_repeatN. rewrite app_length in Hd.
    rewrite (rep_reject c d (N.to_nat n) u hs s e); [reflexivity|assumption..|lia|unfold lenN in Hl; lia|].
    apply Forall_app in Hs' as [_ Hs']. apply IH; [exact Hs'|]. rewrite app_length in Hd. lia.
Qed.

(** ** Derived structs: the keys are the names of the fields *)
Lemma types_of_names fs : NoDup (map fst fs) -> forall fs' ds, incl fs' fs ->
  (Forall2 (field_type fs) (map fst fs') ds <-> ds = map snd fs').
Proof.
  intros Hn fs'. induction fs' as [|[k d] fs' IH]; intros ds Hi; cbn [map fst snd].
  - split; [intros H; inversion H; reflexivity|intros ->; constructor].
  - assert (Hin : In (k, d) fs) by (apply Hi; left; reflexivity). assert (Hi' : incl fs' fs) by (intros x Hx; apply Hi; right; exact Hx). split.
    + intros H; inversion H as [|? d' ? ds' Hd HF]; subst. apply (IH _ Hi') in HF as ->. f_equal.
      unfold field_type in Hd. apply (assoc_in k fs d' Hn) in Hd. apply (assoc_in k fs d Hn) in Hin. congruence.
    + intros ->. constructor; [exact Hin|apply (IH _ Hi'); reflexivity].
Qed.
Lemma values_of_names (read : list (string * sval)) : NoDup (map fst read) -> forall (fs : list (string * dty)) vs ws, length fs = length vs ->
  incl (combine (map fst fs) vs) read -> (Forall2 (field_value read) fs ws <-> ws = vs).
Proof.
  intros Hn fs. induction fs as [|[k d] fs IH]; intros [|v vs] ws Hl Hi; cbn [length map fst combine] in *; try discriminate.
  - split; [intros H; inversion H; reflexivity|intros ->; constructor].
  - assert (Hin : In (k, v) read) by (apply Hi; left; reflexivity).
    assert (Hi' : incl (combine (map fst fs) vs) read) by (intros x Hx; apply Hi; right; exact Hx). assert (Hl' : length fs = length vs) by lia. split.
    + intros H; inversion H as [|? w ? ws' Hw HF]; subst. apply (IH _ _ Hl' Hi') in HF as ->. f_equal.
      destruct Hw as [Hw|[Hw _]]; cbn [fst] in Hw.
      * apply (assoc_in k read w Hn) in Hw. apply (assoc_in k read v Hn) in Hin. congruence.
      * exfalso. apply Hw, in_map_iff. exists (k, v). auto.
    + intros ->. constructor; [left; exact Hin|apply (IH _ _ Hl' Hi'); reflexivity].
Qed.
Lemma accepts_derived c fs u v : NoDup (map fst fs) ->
  (accepts c (DStruct (map fst fs) fs) u v <-> exists vs, accepts_all c (map snd fs) u vs /\ v = SStruct (combine (map fst fs) vs)).
Proof.
  intros Hn. split.
  - intros H; inversion H as [| | | | | | | | | | | | | | | | | | | | | | | | |ks fs' ds u' vs ws Hnd HF HA HV| | | | | | | | | |]; subst.
    apply (types_of_names fs Hn fs ds (incl_refl _)) in HF as ->. pose proof (accepts_all_length c _ _ _ HA) as Hl. rewrite map_length in Hl.
    apply (values_of_names (combine (map fst fs) vs)) with (vs := vs) in HV as ->; [eauto| |exact Hl|apply incl_refl].
    rewrite map_fst_combine by (rewrite map_length; exact Hl). exact Hn.
  - intros (vs & HA & ->). pose proof (accepts_all_length c _ _ _ HA) as Hl. rewrite map_length in Hl.
    apply ac_struct with (ds := map snd fs) (vs := vs); [exact Hn|apply types_of_names; [exact Hn|apply incl_refl|reflexivity]|exact HA|].
    apply values_of_names with (vs := vs); [rewrite map_fst_combine by (rewrite map_length; exact Hl); exact Hn|exact Hl|apply incl_refl|reflexivity].
Qed.
Lemma rejects_one_split c ds s x : rejects_one c ds s x <->
  exists d1 d d2 u vs r, ds = d1 ++ d :: d2 /\ s = u ++ r /\ accepts_all c d1 u vs /\ rejects c d r x.
Proof.
  split.
  - revert s; induction ds as [|d0 ds IH]; intros s H; inversion H as [? ? ? ? Hr|? ? u v r ? Ha Hr]; subst.
    + exists [], d0, ds, [], [], s. split; [reflexivity|]. split; [reflexivity|]. split; [constructor|exact Hr].
    + apply IH in Hr as (d1 & d & d2 & w & vs & t & -> & -> & HA & Hx). exists (d0 :: d1), d, d2, (u ++ w), (v :: vs), t.
      split; [reflexivity|]. split; [apply app_assoc|]. split; [constructor; assumption|exact Hx].
  - intros (d1 & d & d2 & u & vs & r & -> & -> & HA & Hx). revert u vs HA; induction d1 as [|d0 d1 IH]; intros u vs HA; inversion HA; subst; cbn [app].
    + apply ro_here, Hx.
    + rewrite <- app_assoc. eapply ro_later; [eassumption|]. eapply IH; eassumption.
Qed.
Lemma map_split {A B} (f : A -> B) l l1 b l2 : map f l = l1 ++ b :: l2 ->
  exists m1 a m2, l = m1 ++ a :: m2 /\ l1 = map f m1 /\ b = f a /\ l2 = map f m2.
Proof.
  revert l; induction l1 as [|b1 l1 IH]; intros [|a l] E; cbn [map app] in E; try discriminate; injection E as E1 E2.
  - exists [], a, l. auto.
  - apply IH in E2 as (m1 & a' & m2 & -> & -> & -> & ->). exists (a :: m1), a', m2. subst b1. auto.
Qed.
Lemma rejects_derived c fs s x : NoDup (map fst fs) ->
  (rejects c (DStruct (map fst fs) fs) s x <-> rejects_one c (map snd fs) s x).
Proof.
  intros Hn. rewrite rejects_one_split. split.
  - intros H. inversion H as [| | | | | | | | | | | | | | | | | | | | | | | | | | |
      ks k rest fs' ds u vs r Hnd HFt HA Hk|ks k rest fs' ds u vs r Hnd HFt HA Hk|ks k rest fs' ds d u vs r y Hnd HFt HA Hk Hd Hx
      |ks fs' ds u vs r k d Hnd HFt HA Hd Hk Ho| | | | | | | | | | | | | |].
    + exfalso. apply Hk. match goal with E : _ ++ _ :: _ = map fst fs |- _ => rewrite <- E end. apply in_or_app. right. left. reflexivity.
    + exfalso. match goal with E : _ ++ _ :: _ = map fst fs |- _ => rewrite <- E in Hn end. apply NoDup_remove_2 in Hn. apply Hn, in_or_app. left. exact Hk.
    + match goal with X : _ ++ _ :: _ = map fst fs |- _ => symmetry in X; apply map_split in X; rename X into Ex end.
      destruct Ex as (m1 & [k' d'] & m2 & E & -> & Ek & ->).
      cbn [fst] in Ek. subst k'. assert (Hi : incl m1 fs) by (rewrite E; intros z Hz; apply in_or_app; left; exact Hz).
      apply (types_of_names fs Hn m1 ds Hi) in HFt as ->.
      assert (d' = d) as ->.
      { assert (Hin : In (k, d') fs) by (rewrite E; apply in_or_app; right; left; reflexivity).
        unfold field_type in Hd. apply (assoc_in k fs d Hn) in Hd. apply (assoc_in k fs d' Hn) in Hin. congruence. }
      exists (map snd m1), d, (map snd m2), u, vs, r. split; [rewrite E, map_app; reflexivity|]. auto.
    + exfalso. apply Hk. apply in_map_iff. exists (k, d). auto.
  - intros (d1 & d & d2 & u & vs & r & E & -> & HA & Hx). apply map_split in E as (m1 & [k d'] & m2 & E & -> & Ek & ->). cbn [snd] in Ek. subst d'.
    assert (En : map fst fs = map fst m1 ++ k :: map fst m2) by (rewrite E, map_app; reflexivity). rewrite En.
    assert (Hk : ~ In k (map fst m1 ++ map fst m2)) by (apply NoDup_remove_2; rewrite <- En; exact Hn).
    assert (Hm : NoDup (map fst m1)).
    { rewrite En in Hn. clear - Hn. induction (map fst m1) as [|a l IH]; [constructor|]. inversion Hn as [|? ? Ha Hn']; subst.
      constructor; [|apply IH, Hn']. intros X. apply Ha, in_or_app. left. exact X. }
    apply rj_struct_field with (ds := map snd m1) (d := d) (vs := vs); [exact Hm| |exact HA| | |exact Hx].
    + apply types_of_names; [exact Hn| |reflexivity]. rewrite E. intros z Hz. apply in_or_app. left. exact Hz.
    + intros X. apply Hk, in_or_app. left. exact X.
    + unfold field_type. rewrite E. apply in_or_app. right. left. reflexivity.
Qed.
