(** * Proofs: the outcome of reading, on every target. *)
From Coq Require Import String Sorted.
From Verif Require Import Base BaseFacts SpecVarint Varint VarintFacts ZigZagFacts SpecUtf8 Utf8 Utf8Facts Serde Typing
  PrimFacts SerdeFacts SerdeMore SerdeSize SerdeProps SpecMap MapFacts TextFacts ArchFacts Header SpecHeader HeaderFacts Body SpecBody BodyFacts
  SpecAccept AcceptFacts SpecReject RejectFacts SpecReads.
Local Open Scope list_scope.
Local Open Scope N_scope.

(** [does c p P]: the outcome of p is the one given by P. *)
Definition does {A} (c : cfg) (p : prog A) (P : list N -> outcome A -> Prop) : Prop :=
  forall s, bytes_ok s -> P s (run c p s) /\ forall o, P s o -> run c p s = o.

Lemma does_iff {A} c (p : prog A) P : does c p P -> forall s o, bytes_ok s -> (run c p s = o <-> P s o).
Proof. intros H s o Hs. destruct (H s Hs) as [H1 H2]. split; [intros <-; exact H1|apply H2]. Qed.
Lemma does_run {A} c (p q : prog A) P : (forall s, run c p s = run c q s) -> does c q P -> does c p P.
Proof. intros H Hq s Hs. rewrite H. apply Hq, Hs. Qed.
Lemma does_lang {A} c (p : prog A) R F : lang c p R -> fails c p F ->
  does c p (fun s o => (exists u a r, s = u ++ r /\ R u a /\ o = OOk a r) \/ exists x, F s x /\ o = stop x).
Proof.
  intros HL HF s Hs. split.
  - destruct (run_cases c p s) as [(a & r & E)|(x & E)]; rewrite E.
    + apply HL in E as (u & E & Hu); [|exact Hs]. left. exists u, a, r. auto.
    + apply HF in E; [|exact Hs]. right. eauto.
  - intros o [(u & a & r & E & Hu & ->)|(x & Hx & ->)]; [apply HL; eauto|apply HF; auto].
Qed.
Lemma omap_stop {A B} (f : A -> B) x : omap f (stop x) = stop x.
Proof. destruct x; reflexivity. Qed.
Lemma obind_stop {A B} (f : A -> list N -> outcome B) x : obind (stop x) f = stop x.
Proof. destruct x; reflexivity. Qed.
Lemma obind_omap {A B} (f : A -> B) o : obind o (fun a r => OOk (f a) r) = omap f o.
Proof. destruct o; reflexivity. Qed.
Lemma outcome_cases {A} (o : outcome A) : (exists a r, o = OOk a r) \/ exists x, o = stop x.
Proof. destruct o as [a r|e|q]; [left; eauto|right; exists (inl e); reflexivity|right; exists (inr q); reflexivity]. Qed.
Lemma err_stop {A} e : @OErr A e = stop (inl e).
Proof. reflexivity. Qed.

(** ** Numbers *)
Lemma code_run c l n r : bytes_ok (l ++ r) -> code 8 l n -> run c (dec_u64 ERead) (l ++ r) = OOk n r.
Proof. intros Hs H. apply lang_u64; [exact Hs|]. eauto. Qed.
Lemma short_run c s : bytes_ok s -> short 8 s -> run c (dec_u64 ERead) s = OErr ERead.
Proof. intros Hs H. apply (fails_u64 c s read_error Hs). auto. Qed.
Lemma u64_cases c s : bytes_ok s -> (short 8 s /\ run c (dec_u64 ERead) s = OErr ERead) \/
  exists l n r, s = l ++ r /\ code 8 l n /\ n < 2 ^ 64 /\ run c (dec_u64 ERead) s = OOk n r /\ bytes_ok r.
Proof.
  intros Hs. destruct (run_cases c (dec_u64 ERead) s) as [(n & r & E)|(x & E)].
  - right. pose proof E as E'. apply lang_u64 in E as (l & -> & Hl); [|exact Hs]. apply Forall_app in Hs as [Hl' Hr].
    exists l, n, r. split; [reflexivity|]. split; [exact Hl|]. split; [exact (code8_bound l n Hl' Hl)|auto].
  - left. pose proof E as E'. apply fails_u64 in E as [H ->]; [|exact Hs]. auto.
Qed.
Lemma app_ok_l (l r : list N) : bytes_ok (l ++ r) -> bytes_ok l.
Proof. intros H; apply Forall_app in H; apply H. Qed.
Lemma app_ok_r (l r : list N) : bytes_ok (l ++ r) -> bytes_ok r.
Proof. intros H; apply Forall_app in H; apply H. Qed.

(** A length, then a reader that depends on it. *)
Lemma does_length {A} c (f : N -> prog A) (P : list N -> outcome A -> Prop) (Q : N -> list N -> outcome A -> Prop) :
  (forall n, n < 2 ^ 64 -> does c (f n) (Q n)) ->
  (forall s o, P s o <-> (short 8 s /\ o = OErr ERead) \/ exists l n r, s = l ++ r /\ code 8 l n /\ Q n r o) ->
  does c (bind (dec_u64 ERead) f) P.
Proof.
  intros Hf HP s Hs. rewrite run_bind. split.
  - apply HP. destruct (u64_cases c s Hs) as [[H ->]|(l & n & r & -> & Hl & Hn & -> & Hr)]; cbn [obind]; [auto|].
    right. exists l, n, r. split; [reflexivity|]. split; [exact Hl|]. apply Hf; assumption.
  - intros o H. apply HP in H as [[H ->]|(l & n & r & -> & Hl & H)].
    + rewrite short_run by assumption. reflexivity.
    + rewrite (code_run c l n r Hs Hl). cbn [obind]. apply Hf; [|eapply app_ok_r, Hs|exact H].
      eapply code8_bound; [|exact Hl]. eapply app_ok_l, Hs.
Qed.

(** ** Strings and bytes *)
Lemma window_take n s : exists b r, s = b ++ r /\ window n b r /\ b = takeN n s /\ r = dropN n s.
Proof.
  exists (takeN n s), (dropN n s). split; [symmetry; apply take_drop|]. split; [|auto]. unfold window. rewrite lenN_takeN.
  destruct (N.le_gt_cases n (lenN s)); [left; lia|right]. split; [lia|]. apply dropN_all. lia.
Qed.
Lemma window_unique n b r : window n b r -> takeN n (b ++ r) = b /\ dropN n (b ++ r) = r.
Proof.
  intros [H|[H ->]].
  - split; [apply takeN_app_n, H|apply dropN_app_n, H].
  - rewrite app_nil_r. split; [apply takeN_all; lia|apply dropN_all; lia].
Qed.
Lemma bits_small c n : wf_cfg c -> n < 2 ^ 32 -> as_usize c n = n.
Proof.
  intros [[H|H] _] Hn; apply as_usize_id; rewrite H; first [exact Hn|eapply N.lt_trans; [exact Hn|reflexivity]].
Qed.
Lemma str_body_any c n s : wf_cfg c -> run c (de_str_body c n) s =
  if utf8_valid (takeN n s) && (lenN (takeN n s) =? as_usize c n) then OOk (takeN n s) (dropN n s) else OErr ERead.
Proof.
  intros Hw. unfold de_str_body. destruct (N.ltb_spec n STR_MAX) as [H|H]; cbn [run].
  - unfold STR_MAX in H. rewrite bits_small by first [assumption|eapply N.lt_trans; [exact H|reflexivity]]. rewrite lenN_takeN.
    destruct (N.ltb_spec (lenN s) n) as [Hl|Hl]; destruct (N.eqb_spec (N.min n (lenN s)) n); try lia; destruct (utf8_valid (takeN n s)); reflexivity.
  - destruct (utf8_valid (takeN n s)); [|reflexivity]. destruct (_ =? _); reflexivity.
Qed.
Lemma wellformed_dec b : wellformed b \/ ~ wellformed b.
Proof.
  destruct (utf8_valid b) eqn:E; [left; apply utf8_valid_iff, E|right]. intros H. apply utf8_valid_iff in H. congruence.
Qed.
Lemma does_string c : wf_cfg c -> does c (de_string c) (text_read c).
Proof.
  intros Hw. rewrite de_string_unfold.
  apply does_length with (Q := fun n s o => exists b r, s = b ++ r /\ window n b r /\
    ((lenN b = kept c n /\ wellformed b /\ o = OOk b r) \/ (~ (lenN b = kept c n /\ wellformed b) /\ o = OErr ERead))).
  - intros n Hn s Hs. rewrite str_body_any by exact Hw. split.
    + destruct (window_take n s) as (b & r & E & Hb & -> & ->). exists (takeN n s), (dropN n s). split; [exact E|]. split; [exact Hb|].
      destruct (utf8_valid (takeN n s)) eqn:V; [|right; split; [|reflexivity]; intros [_ X]; apply utf8_valid_iff in X; congruence].
      apply utf8_valid_iff in V. unfold kept. fold (as_usize c n). destruct (N.eqb_spec (lenN (takeN n s)) (as_usize c n)); [left; auto|right; tauto].
    + intros o (b & r & -> & Hb & H). destruct (window_unique n b r Hb) as [-> ->]. unfold kept in H. fold (as_usize c n) in H.
      destruct H as [(H1 & H2 & ->)|[H ->]].
      * apply utf8_valid_iff in H2. rewrite H2, H1, N.eqb_refl. reflexivity.
      * destruct (utf8_valid b) eqn:V; [|reflexivity]. destruct (N.eqb_spec (lenN b) (as_usize c n)); [|reflexivity].
        exfalso. apply H. split; [assumption|apply utf8_valid_iff, V].
  - intros s o. split.
    + intros H; destruct H as [s H|l n b r Hl Hb H1 H2|l n b r Hl Hb H]; [auto| |]; right; exists l, n, (b ++ r); (split; [reflexivity|]);
        (split; [exact Hl|]); exists b, r; (split; [reflexivity|]); auto.
    + intros [[H ->]|(l & n & r0 & -> & Hl & b & r & -> & Hb & [(H1 & H2 & ->)|[H ->]])];
        [constructor; exact H|eapply tr_text; eassumption|eapply tr_other; eassumption].
Qed.
Lemma does_bytes c (f : N -> prog (list N)) (size : N -> N) :
  (forall n s, n < 2 ^ 64 -> run c (f n) s = if lenN s <? size n then OErr ERead else OOk (takeN (size n) s) (dropN (size n) s)) ->
  does c (bind (dec_u64 ERead) f) (bytes_read size).
Proof.
  intros H. apply does_length with (Q := fun n s o => (lenN s < size n /\ o = OErr ERead) \/ exists b r, s = b ++ r /\ lenN b = size n /\ o = OOk b r).
  - intros n Hn s Hs. rewrite H by exact Hn. split.
    + destruct (N.ltb_spec (lenN s) (size n)) as [Hl|Hl]; [auto|]. right. exists (takeN (size n) s), (dropN (size n) s).
      split; [symmetry; apply take_drop|]. split; [rewrite lenN_takeN; lia|reflexivity].
    + intros o [[Hl ->]|(b & r & -> & Hl & ->)].
      * apply N.ltb_lt in Hl. rewrite Hl. reflexivity.
      * rewrite takeN_app_n, dropN_app_n by exact Hl. destruct (N.ltb_spec (lenN (b ++ r)) (size n)) as [X|_]; [rewrite lenN_app in X; lia|reflexivity].
  - intros s o. split.
    + intros X; destruct X as [s X|l n r Hl X|l n b r Hl X]; [auto| |]; right; do 3 eexists; (split; [reflexivity|]); (split; [exact Hl|]); [auto|].
      right. eauto.
    + intros [[X ->]|(l & n & r0 & -> & Hl & [[X ->]|(b & r & -> & X & ->)])]; [constructor; exact X|eapply by_few; eassumption|eapply by_bytes; eassumption].
Qed.
Lemma buffer_size_spec c n : wf_cfg c -> n < 2 ^ 64 -> buf_total c n = buffer_size c n.
Proof.
  intros [Hb _] Hn. unfold buffer_size. destruct (N.ltb_spec n (2 ^ usize_bits c)) as [H|H]; [apply buf_total_exact, as_usize_id, H|].
  destruct Hb as [Hb|Hb]; [|rewrite Hb in H; lia]. unfold kept. rewrite Hb in *.
  rewrite (N.div_mod n (2 ^ 32)) at 1 by discriminate. rewrite (N.mul_comm (2 ^ 32)). apply buf_total_32; [exact Hb| |apply N.mod_lt; discriminate].
  apply N.div_le_lower_bound; [discriminate|]. rewrite N.mul_1_r. exact H.
Qed.
Lemma does_byte_buf c : wf_cfg c -> 4096 <= heap_limit c -> does c (de_byte_buf c) (bytes_read (buffer_size c)).
Proof.
  intros Hw Hh. rewrite de_byte_buf_unfold. apply does_bytes. intros n s Hn. rewrite buf_body_run by assumption.
  rewrite buffer_size_spec by assumption. reflexivity.
Qed.
Lemma rep_bytes c n s : run c (rep n de_byte) s =
  if lenN s <? N.of_nat n then OErr ERead else OOk (takeN (N.of_nat n) s) (dropN (N.of_nat n) s).
Proof.
  revert s; induction n as [|n IH]; intros s; cbn [rep].
  - change (N.of_nat 0) with 0. destruct (N.ltb_spec (lenN s) 0); [lia|]. rewrite takeN_0, dropN_0. reflexivity.
  - rewrite run_bind. unfold de_byte at 1. destruct s as [|b s].
    + cbn [run]. rewrite lenN_nil. destruct (N.ltb_spec 0 (N.of_nat (S n))); [reflexivity|lia].
    + cbn [run]. rewrite lenN_cons. destruct (N.ltb_spec (lenN s + 1) 1); [lia|]. rewrite takeN_firstn, dropN_skipn. change (N.to_nat 1) with 1%nat. cbn [firstn skipn].
      cbn [obind run at_]. rewrite run_bind, IH. destruct (N.ltb_spec (lenN s) (N.of_nat n)); destruct (N.ltb_spec (lenN s + 1) (N.of_nat (S n))); try lia; [reflexivity|].
      cbn [obind run]. rewrite !takeN_firstn, !dropN_skipn, !Nat2N.id. reflexivity.
Qed.
Lemma does_big c : does c (de_big c) (bytes_read (kept c)).
Proof.
  unfold de_big, de_vec. apply does_bytes. intros n s Hn. rewrite run_repeatN. unfold de_u8. rewrite rep_bytes, N2Nat.id. reflexivity.
Qed.
Lemma does_decimal c : does c (de_big_decimal c) (decimal_read c).
Proof.
  intros s Hs. unfold de_big_decimal. rewrite run_bind. destruct (does_big c s Hs) as [HT HS]. split.
  - pose proof (run_rest c (de_big c) s) as HR. change (de_vec c de_u8) with (de_big c). destruct (outcome_cases (run c (de_big c) s)) as [(b & r & E)|(x & E)]; rewrite E in *.
    + specialize (HR _ _ Hs eq_refl). cbn [obind]. destruct b as [|b0 b]; [cbn [run]; apply dr_zero, HT|]. unfold de_i64. rewrite run_bind, run_pmap.
      destruct (u64_cases c r HR) as [[H ->]|(l & n & r' & -> & Hl & Hn & -> & _)]; cbn [obind run].
      * eapply dr_short; [exact HT|discriminate|exact H].
      * rewrite dec_zigzag_spec by (try lia; exact Hn). eapply dr_scale; [exact HT|discriminate|exact Hl].
    + rewrite obind_stop. apply dr_stop, HT.
  - change (de_vec c de_u8) with (de_big c). intros o H. destruct H as [s x H|s r H|s b r H Hb Hr|s b l n r H Hb Hl]; pose proof (HS _ H) as E; rewrite E.
    + apply obind_stop.
    + reflexivity.
    + cbn [obind]. destruct b as [|b0 b]; [congruence|]. unfold de_i64. rewrite run_bind, run_pmap, short_run by (try assumption; eapply run_rest; eassumption). reflexivity.
    + cbn [obind]. destruct b as [|b0 b]; [congruence|]. unfold de_i64. assert (Hr : bytes_ok (l ++ r)) by (eapply run_rest; eassumption).
      rewrite run_bind, run_pmap, (code_run c l n r Hr Hl). cbn [obind run]. rewrite dec_zigzag_spec by (try lia; eapply code8_bound, Hl; eapply app_ok_l, Hr). reflexivity.
Qed.
Lemma does_char c : wf_cfg c -> does c (de c DChar) (reads c DChar).
Proof.
  intros Hw s Hs. cbn [de]. rewrite run_pmap. unfold de_char. rewrite run_bind. destruct (does_string c Hw s Hs) as [HT HS].
  assert (X : forall b, wellformed b -> b = [] \/ exists ch t, scalar ch /\ b = utf8 ch ++ t).
  { intros b (cs & Hcs & ->). destruct Hcs as [|ch cs Hch Hcs]; [auto|]. right. exists ch, (concat (map utf8 cs)). auto. }
  split.
  - destruct (outcome_cases (run c (de_string c) s)) as [(b & r & E)|(x & E)]; rewrite E in *.
    + cbn [obind]. assert (Hb : wellformed b) by (inversion HT; subst; assumption).
      destruct (X b Hb) as [->|(ch & t & Hc & ->)]; [apply rd_char_empty with (r := r), HT|]. rewrite next_char_utf8 by exact Hc. cbn [run obind].
      eapply rd_char; eassumption.
    + rewrite !obind_stop. apply rd_char_stop, HT.
  - intros o H. inversion H; subst; try discriminate; try match goal with H : plain DChar = true |- _ => discriminate H end;
      match goal with H : text_read _ _ _ |- _ => rewrite (HS _ H) end.
    + rewrite !obind_stop. reflexivity.
    + reflexivity.
    + cbn [obind]. rewrite next_char_utf8 by assumption. reflexivity.
Qed.

(** ** Types without lengths *)
Definition wide (c : cfg) : cfg := Cfg (overflow_checks c) 64 (size_of_body c) (size_of_header c) (N.max 4096 (heap_limit c)).
Lemma wide_wf c : wf_cfg c -> wf_cfg (wide c).
Proof. intros [_ H]. split; [right; reflexivity|exact H]. Qed.
Ltac plain_run Hs :=
  rewrite ?run_pmap; unfold de_bool, de_i8, de_u8, de_byte, de_i16, de_i32, de_i64, de_u16, de_u32, de_u64;
  rewrite ?run_pmap, ?run_bind;
  rewrite ?(dec_u16_run (wide _)), ?(dec_u32_run (wide _)), ?(dec_u64_run (wide _)) by (apply bytes_guard, Hs);
  rewrite ?dec_u16_run, ?dec_u32_run, ?dec_u64_run by (apply bytes_guard, Hs).
Lemma run_date_wide c s : bytes_ok s -> run c (de_date c) s = run (wide c) (de_date (wide c)) s.
Proof.
  intros Hs. unfold de_date. rewrite !run_bind. unfold de_i32. rewrite !run_pmap, !dec_u32_run by (apply bytes_guard, Hs).
  destruct (varint_run 4 ERead s) as [n r|e|q] eqn:E; cbn [obind]; [|reflexivity..].
  assert (Hr : bytes_ok r) by (rewrite <- (dec_u32_run c) in E by (apply bytes_guard, Hs); eapply run_rest; eassumption).
  rewrite !run_bind. change (arith_s (wide c)) with (arith_s c). destruct (arith_s c 32 _) as [y|]; cbn [or_overflow run obind]; [|reflexivity].
  rewrite !run_bind. unfold de_u16. rewrite !dec_u16_run by (apply bytes_guard, Hr).
  destruct (varint_run 2 ERead r) as [m r'|e|q]; cbn [obind]; [|reflexivity..]. rewrite !run_bind. change (arith_u (wide c)) with (arith_u c).
  destruct (arith_u c 16 _); reflexivity.
Qed.
Lemma run_date_time_wide c s : bytes_ok s -> run c de_date_time s = run (wide c) de_date_time s.
Proof.
  intros Hs. unfold de_date_time. rewrite !run_bind. unfold de_i64. rewrite !run_pmap, !dec_u64_run by (apply bytes_guard, Hs).
  destruct (varint_run 8 ERead s) as [n r|e|q] eqn:E; cbn [obind]; [|reflexivity..].
  assert (Hr : bytes_ok r) by (rewrite <- (dec_u64_run c) in E by (apply bytes_guard, Hs); eapply run_rest; eassumption).
  rewrite !run_bind. unfold de_u32. rewrite !dec_u32_run by (apply bytes_guard, Hr). destruct (varint_run 4 ERead r); reflexivity.
Qed.
Lemma run_bool_wide c s : run c de_bool s = run (wide c) de_bool s.
Proof. unfold de_bool, de_byte. destruct s as [|b s]; [reflexivity|]. cbn [bind run]. destruct (_ <? _); [reflexivity|]. destruct (_ =? 0); [reflexivity|]. destruct (_ =? 1); reflexivity. Qed.
Lemma plain_run_wide c d s : plain d = true -> bytes_ok s -> run c (de c d) s = run (wide c) (de (wide c) d) s.
Proof.
  intros Hd Hs. destruct d; try discriminate Hd; cbn [de]; try reflexivity; try (plain_run Hs; reflexivity).
  - rewrite !run_pmap, run_bool_wide. reflexivity.
  - rewrite !run_pmap, run_date_wide by exact Hs. reflexivity.
  - rewrite !run_pmap, run_date_time_wide by exact Hs. reflexivity.
Qed.
Lemma plain_accepts_wide c d u v : plain d = true -> (accepts (wide c) d u v <-> accepts c d u v).
Proof. intros Hd. split; intros H; destruct d; try discriminate Hd; inversion H; subst; constructor; assumption. Qed.
Lemma plain_rejects_wide c d s x : plain d = true -> (rejects (wide c) d s x <-> rejects c d s x).
Proof. intros Hd. split; intros H; destruct d; try discriminate Hd; inversion H; subst; constructor; assumption. Qed.
Lemma plain_shaped d : plain d = true -> shaped d = true.
Proof. destruct d; intros H; try discriminate H; reflexivity. Qed.
Lemma does_plain c d : wf_cfg c -> plain d = true -> does c (de c d) (reads c d).
Proof.
  intros Hw Hd. assert (H : does c (de c d) (fun s o => (exists u a r, s = u ++ r /\ accepts c d u a /\ o = OOk a r) \/ exists x, rejects c d s x /\ o = stop x)).
  { apply does_lang.
    - intros s v r Hs. rewrite plain_run_wide by assumption.
      rewrite (lang_de (wide c) (wide_wf c Hw) eq_refl (N.le_max_l _ _) d (plain_shaped d Hd) s v r Hs).
      split; intros (u & E & H); exists u; (split; [exact E|]); apply (plain_accepts_wide c d u v Hd), H.
    - intros s x Hs. rewrite plain_run_wide by assumption.
      rewrite (fails_de (wide c) (wide_wf c Hw) eq_refl (N.le_max_l _ _) d (plain_shaped d Hd) s x Hs). apply plain_rejects_wide, Hd. }
  intros s Hs. destruct (H s Hs) as [HT HS]. split.
  - destruct HT as [(u & a & r & E & Ha & ->)|(x & Hx & ->)]; [rewrite E; apply rd_plain; assumption|apply rd_plain_stop; assumption].
  - intros o Ho. apply HS. destruct Ho; try discriminate Hd; [left|right]; eauto 8.
Qed.

(** ** usize and isize *)
Lemma isize_iff c n : wf_cfg c -> n < 2 ^ 64 -> in_s (usize_bits c) (unzigzag n) = (n <? 2 ^ usize_bits c).
Proof.
  intros Hw Hn. destruct (N.ltb_spec n (2 ^ usize_bits c)) as [H|H].
  - apply unzigzag_in; [destruct Hw as [[-> | ->] _]; lia|exact H].
  - destruct (in_s (usize_bits c) (unzigzag n)) eqn:E; [|reflexivity]. exfalso. apply in_s_iff in E.
    destruct Hw as [[Hb|Hb] _]; rewrite Hb in E, H; [|exact (N.lt_irrefl _ (N.lt_le_trans _ _ _ Hn H))]. change (2 ^ (Z.of_N 32 - 1))%Z with 2147483648%Z in E. change (2 ^ 32) with 4294967296 in H.
    unfold unzigzag in E. pose proof (N.div_mod n 2 ltac:(discriminate)) as D. destruct (N.even n).
    all: pose proof (N.mod_lt n 2 ltac:(discriminate)) as M; revert D E M; generalize (n / 2) (n mod 2); intros; lia.
Qed.
Lemma does_usize c : wf_cfg c -> does c (de c DUsize) (reads c DUsize).
Proof.
  intros Hw s Hs. cbn [de]. unfold de_usize, de_u64. rewrite run_pmap, run_bind. split.
  - destruct (u64_cases c s Hs) as [[H ->]|(l & n & r & -> & Hl & Hn & -> & Hr)]; cbn [obind]; [apply rd_usize_short, H|].
    destruct (N.ltb_spec n (2 ^ usize_bits c)); cbn [run obind]; [apply rd_usize; assumption|eapply rd_usize_big; eassumption].
  - intros o H. inversion H; subst; try match goal with P : plain _ = true |- _ => discriminate P end.
    all: try (rewrite short_run by assumption; reflexivity).
    all: match goal with H1 : code 8 ?l ?n, H2 : bytes_ok (?l ++ ?r) |- _ => rewrite (code_run c l n r H2 H1); cbn [obind]; destruct (N.ltb_spec n (2 ^ usize_bits c)); [reflexivity || lia|reflexivity || lia] end.
Qed.
Lemma does_isize c : wf_cfg c -> does c (de c DIsize) (reads c DIsize).
Proof.
  intros Hw s Hs. cbn [de]. unfold de_isize, de_i64. rewrite run_pmap, run_bind, run_pmap. split.
  - destruct (u64_cases c s Hs) as [[H ->]|(l & n & r & -> & Hl & Hn & -> & Hr)]; cbn [obind]; [apply rd_isize_short, H|].
    rewrite dec_zigzag_spec by (try lia; exact Hn). rewrite isize_iff by assumption.
    destruct (N.ltb_spec n (2 ^ usize_bits c)); cbn [run obind]; [apply rd_isize; assumption|eapply rd_isize_big; eassumption].
  - intros o H. inversion H; subst; try match goal with P : plain _ = true |- _ => discriminate P end.
    all: try (rewrite short_run by assumption; reflexivity).
    all: match goal with H1 : code 8 ?l ?n, H2 : bytes_ok (?l ++ ?r) |- _ => pose proof (code8_bound l n (app_ok_l _ _ H2) H1); rewrite (code_run c l n r H2 H1); cbn [obind];
      rewrite dec_zigzag_spec by (try lia; assumption); rewrite isize_iff by assumption; destruct (N.ltb_spec n (2 ^ usize_bits c)); [reflexivity || lia|reflexivity || lia] end.
Qed.

(** ** Sequences, entries, fields *)
Lemma does_all c ds : Forall (fun d => does c (de c d) (reads c d)) ds -> does c (sequence (map (de c) ds)) (reads_all c ds).
Proof.
  induction 1 as [|d ds Hd _ IH]; intros s Hs; cbn [map sequence].
  - split; [constructor|]. intros o H; inversion H; reflexivity.
  - rewrite run_bind. destruct (Hd s Hs) as [HT HS]. split.
    + destruct (outcome_cases (run c (de c d) s)) as [(v & r & E)|(x & E)]; rewrite E in *.
      * cbn [obind]. rewrite run_bind. cbn [run]. rewrite obind_omap. eapply ra_cons; [exact HT|]. apply IH. eapply run_rest; eassumption.
      * rewrite obind_stop. apply ra_stop, HT.
    + intros o H; inversion H as [|? ? ? x Hx|? ? ? v r o' Hv Ho]; subst.
      * rewrite (HS _ Hx), obind_stop. reflexivity.
      * pose proof (HS _ Hv) as E. rewrite E. cbn [obind]. rewrite run_bind. cbn [run]. rewrite obind_omap. f_equal. apply IH; [eapply run_rest; eassumption|exact Ho].
Qed.
Lemma rep_sequence {A} n (p : prog A) : rep n p = sequence (repeat p n).
Proof. induction n as [|n IH]; cbn [rep repeat sequence]; [reflexivity|]. rewrite IH. reflexivity. Qed.
Lemma map_repeat {A B} (f : A -> B) a n : map f (repeat a n) = repeat (f a) n.
Proof. induction n as [|n IH]; cbn [repeat map]; [reflexivity|]. rewrite IH. reflexivity. Qed.
Lemma does_entries c d n : wf_cfg c -> does c (de c d) (reads c d) ->
  does c (rep n (k <- de_string c ;; v <- de c d ;; Ret (k, v))) (reads_entries c d n).
Proof.
  intros Hw Hd. induction n as [|n IH]; intros s Hs; cbn [rep].
  - split; [constructor|]. intros o H; inversion H; reflexivity.
  - rewrite run_bind, run_bind, obind_obind. destruct (does_string c Hw s Hs) as [HT HS]. split.
    + destruct (outcome_cases (run c (de_string c) s)) as [(k & t & E)|(x & E)]; rewrite E in *.
      * cbn [obind]. rewrite run_bind, obind_obind. assert (Ht : bytes_ok t) by (eapply run_rest; eassumption). destruct (Hd t Ht) as [VT _].
        destruct (outcome_cases (run c (de c d) t)) as [(v & r & E')|(x & E')]; rewrite E' in *.
        -- cbn [obind run]. rewrite run_bind. cbn [run]. rewrite obind_omap. eapply re_cons; [exact HT|exact VT|]. apply IH. eapply run_rest; eassumption.
        -- rewrite obind_stop. eapply re_value; eassumption.
      * rewrite obind_stop. apply re_key, HT.
    + intros o H; inversion H as [|? ? ? x Hx|? ? ? k t x Hk Hx|? ? ? k t v r o' Hk Hv Ho]; subst.
      * rewrite (HS _ Hx), obind_stop. reflexivity.
      * pose proof (HS _ Hk) as E. rewrite E. cbn [obind]. assert (Ht : bytes_ok t) by (eapply run_rest; eassumption).
        rewrite run_bind, obind_obind, (proj2 (Hd t Ht) _ Hx), obind_stop. reflexivity.
      * pose proof (HS _ Hk) as E. rewrite E. cbn [obind]. assert (Ht : bytes_ok t) by (eapply run_rest; eassumption).
        pose proof (proj2 (Hd t Ht) _ Hv) as E'. rewrite run_bind, obind_obind, E'. cbn [obind run]. rewrite run_bind. cbn [run]. rewrite obind_omap.
        f_equal. apply IH; [eapply run_rest; eassumption|exact Ho].
Qed.
Lemma run_map_n {A} c n (p : prog A) s :
  run c (de_map_n c n p) s = omap (fun es => insert_all es []) (run c (rep (N.to_nat n) (k <- de_string c ;; v <- p ;; Ret (k, v))) s).
Proof.
  unfold de_map_n. rewrite run_foldN, (iter_insert c _ (k <- de_string c ;; v <- p ;; Ret (k, v))); [apply obind_omap|].
  intros m i. rewrite !run_bind, obind_obind. apply obind_ext; intros k r. rewrite !run_bind, obind_obind. reflexivity.
Qed.

Lemma run_loop c fs : NoDup (map fst fs) -> (forall k d, In (k, d) fs -> does c (de c d) (reads c d)) -> forall keys seen read s,
  bytes_ok s -> (forall k, In k seen <-> In k (map fst read)) ->
  let res := run c (struct_loop keys (map (fun nf => (fst nf, de c (snd nf))) fs) (slots_of fs read)) s in
  (exists o, reads_fields c fs seen keys s o /\ res = omap (fun new => slots_of fs (read ++ new)) o) /\
  (forall o, reads_fields c fs seen keys s o -> res = omap (fun new => slots_of fs (read ++ new)) o).
Proof.
  intros Hn HD keys. induction keys as [|k keys IH]; intros seen read s Hs Hseen; cbv zeta; cbn [struct_loop].
  - cbn [run]. split; [exists (OOk [] s); split; [constructor|]; cbn [omap]; rewrite app_nil_r; reflexivity|].
    intros o H; inversion H; subst. cbn [omap]. rewrite app_nil_r. reflexivity.
  - destruct (find_field k (map (fun nf => (fst nf, de c (snd nf))) fs)) as [[i p]|] eqn:E.
    + apply find_field_in in E. rewrite nth_error_map in E. destruct (nth_error fs i) as [[k' d]|] eqn:Ei; [|discriminate].
      cbn [option_map fst snd] in E. injection E as -> <-. pose proof (nth_error_In _ _ Ei) as Hin.
      assert (Hkn : In k (map fst fs)) by (apply in_map_iff; exists (k, d); auto).
      assert (Huniq : forall d', field_type fs k d' -> d' = d).
      { intros d' Hd'. unfold field_type in Hd'. apply (proj2 (assoc_in k fs d' Hn)) in Hd'. apply (proj2 (assoc_in k fs d Hn)) in Hin. congruence. }
      rewrite (slots_nth fs read i k d Ei). destruct (assoc k read) as [a|] eqn:Ea.
      * assert (Hkr : In k seen).
        { assert (assoc k read <> None) as X by congruence. rewrite assoc_none in X. apply Hseen. destruct (in_dec string_dec k (map fst read)); [assumption|contradiction]. }
        cbn [run]. split; [exists (OErr EMsg); split; [apply rf_repeated; assumption|reflexivity]|].
        intros o H; inversion H; subst; try contradiction; reflexivity.
      * assert (Hks : ~ In k seen) by (rewrite Hseen; apply assoc_none, Ea). destruct (HD k d Hin s Hs) as [HT HS].
        assert (Hseen' : forall v k0, In k0 (k :: seen) <-> In k0 (map fst (read ++ [(k, v)]))).
        { intros v k0. rewrite map_app, in_app_iff. cbn [map fst In]. rewrite Hseen. tauto. }
        split.
        -- rewrite run_bind. destruct (outcome_cases (run c (de c d) s)) as [(v & r & E)|(x & E)]; rewrite E in *.
           ++ cbn [obind]. rewrite (slots_set fs read i k d v Hn Ei Ea). assert (Hr : bytes_ok r) by (eapply run_rest; eassumption).
              destruct (IH (k :: seen) (read ++ [(k, v)]) r Hr (Hseen' v)) as [(o & Ho & Er) _]. exists (omap (cons (k, v)) o).
              split; [eapply rf_cons; eassumption|]. rewrite Er. destruct o; cbn [omap]; [rewrite <- app_assoc|..]; reflexivity.
           ++ rewrite obind_stop. exists (stop x). split; [eapply rf_stop; eassumption|]. rewrite omap_stop. reflexivity.
        -- intros o H; inversion H as [|? ? ? ? ? Hx|? ? ? ? ? Hx Hx'|? ? ? d' ? ? x Hd' Hx Hv|? ? ? d' ? ? v r o' Hd' Hx Hv Ho]; subst; try contradiction.
           ++ rewrite (Huniq d' Hd') in Hv. rewrite run_bind, (HS _ Hv), obind_stop, omap_stop. reflexivity.
           ++ rewrite (Huniq d' Hd') in Hv. pose proof (HS _ Hv) as E. rewrite run_bind, E. cbn [obind]. rewrite (slots_set fs read i k d v Hn Ei Ea).
              assert (Hr : bytes_ok r) by (eapply run_rest; eassumption). destruct (IH (k :: seen) (read ++ [(k, v)]) r Hr (Hseen' v)) as [_ HI].
              rewrite (HI _ Ho). destruct o'; cbn [omap]; [rewrite <- app_assoc|..]; reflexivity.
    + apply find_none in E. rewrite map_map in E. cbn [fst] in E. change (map (fun x : string * dty => fst x) fs) with (map fst fs) in E.
      cbn [run]. split; [exists (OPanic PTodo); split; [apply rf_unknown, E|reflexivity]|].
      assert (NF : forall d, ~ field_type fs k d) by (intros d Hd; apply E, in_map_iff; exists (k, d); auto).
      intros o H; inversion H as [|? ? ? ? ? Hx|? ? ? ? ? Hx Hx'|? ? ? d' ? ? x Hd' Hx Hv|? ? ? d' ? ? v r o' Hd' Hx Hv Ho]; subst; [reflexivity|contradiction|destruct (NF _ Hd')..].
Qed.
Lemma fields_keys c fs keys : forall seen s read r, reads_fields c fs seen keys s (OOk read r) ->
  map fst read = keys /\ NoDup keys /\ forall k, In k keys -> ~ In k seen.
Proof.
  induction keys as [|k keys IH]; intros seen s read r H; remember (OOk read r) as o0 eqn:E0.
  - inversion H; subst. match goal with E : OOk _ _ = OOk _ _ |- _ => injection E as <- <- end. split; [reflexivity|]. split; [constructor|intros k []].
  - inversion H as [| | |? ? ? ? ? ? x|? ? ? d ? ? v r' o Hd Hx Hv Ho]; subst; try discriminate; [destruct x; discriminate|].
    destruct o as [new r0| |]; try discriminate. match goal with E : omap _ _ = _ |- _ => cbn [omap] in E; injection E as <- <- end.
    destruct (IH _ _ _ _ Ho) as (E & Hn & Hd'). cbn [map fst]. split; [congruence|]. split.
    + constructor; [|exact Hn]. intros X. apply (Hd' k X). left; reflexivity.
    + intros k0 [<-|X]; [exact Hx|]. intros Y. apply (Hd' k0 X). right; exact Y.
Qed.
Lemma does_struct c keys fs : NoDup (map fst fs) -> (forall k d, In (k, d) fs -> does c (de c d) (reads c d)) ->
  does c (de c (DStruct keys fs)) (reads c (DStruct keys fs)).
Proof.
  intros Hn HD s Hs. cbn [de]. unfold de_struct. rewrite run_pmap, run_bind, map_map.
  change (map (fun _ : string * dty => None) fs) with (slots_of fs (@nil (string * sval))).
  destruct (run_loop c fs Hn HD keys [] [] s Hs (fun k => conj (fun H => H) (fun H => H))) as [HT HS]. cbn [app] in HT, HS. split.
  - destruct HT as (o & Ho & ->). destruct (outcome_cases o) as [(read & r & ->)|(x & ->)].
    + cbn [omap obind]. destruct (fields_keys c fs keys [] s read r Ho) as (Ek & Hnk & _).
      destruct (fill_missing_cases fs read) as [(ws & -> & Hws & _)|(-> & _ & k & d & H1 & H2 & H3)]; [rewrite Ek; exact Hnk| |]; cbn [run obind].
      * eapply rd_struct; [exact Ho|]. apply Hws. reflexivity.
      * rewrite Ek in H2. eapply rd_struct_missing; eassumption.
    + rewrite omap_stop, !obind_stop. apply rd_struct_stop, Ho.
  - intros o H. inversion H; subst; try match goal with P : plain _ = true |- _ => discriminate P end;
      match goal with Ho : reads_fields _ _ _ _ _ _ |- _ => rewrite (HS _ Ho) end.
    + rewrite omap_stop, !obind_stop. reflexivity.
    + cbn [omap obind]. match goal with Ho : reads_fields _ _ _ _ _ (OOk ?rd ?rr) |- _ => destruct (fields_keys c fs keys [] s rd rr Ho) as (Ek & Hnk & _); rename rd into read0 end.
      destruct (fill_missing_cases fs read0) as [(ws & _ & _ & X)|(-> & _)]; [rewrite Ek; exact Hnk| |reflexivity].
      rewrite Ek in X. match goal with Hd : field_type fs ?k ?d, Hk : ~ In ?k keys |- _ => destruct (X k d Hd Hk) as [d' ->] end.
      match goal with Hd : forall d'0, DOption d' <> DOption d'0 |- _ => destruct (Hd d' eq_refl) end.
    + cbn [omap obind]. match goal with Ho : reads_fields _ _ _ _ _ (OOk ?rd ?rr) |- _ => destruct (fields_keys c fs keys [] s rd rr Ho) as (Ek & Hnk & _); rename rd into read0 end.
      match goal with HV : Forall2 _ fs ?w |- _ => destruct (fill_missing_cases fs read0) as [(ws' & -> & X & _)|(_ & X & _)]; [rewrite Ek; exact Hnk| |destruct (X _ HV)]; apply X in HV as -> end.
      reflexivity.
Qed.

Ltac not_plain := try match goal with P : plain _ = true |- _ => discriminate P end; try match goal with P : body_plain _ = true |- _ => discriminate P end.
Lemma does_map_of {A} c (f : A -> sval) (p : prog A) d (P : list N -> outcome A -> Prop) : does c p P ->
  (forall s o, P s o -> reads c d s (omap f o)) -> (forall s o, reads c d s o -> exists o', P s o' /\ o = omap f o') ->
  does c (pmap f p) (reads c d).
Proof.
  intros Hp H1 H2 s Hs. rewrite run_pmap, obind_omap. split; [apply H1, Hp, Hs|]. intros o Ho. apply H2 in Ho as (o' & Ho & ->). f_equal. apply Hp; assumption.
Qed.
Lemma bool_cases c s : bytes_ok s -> (no_bool s /\ run c de_bool s = OErr ERead) \/
  exists (b : bool) r, s = (if b then 1 else 0) :: r /\ run c de_bool s = OOk b r.
Proof.
  intros Hs. destruct (run_cases c de_bool s) as [(b & r & E)|(x & E)]; rewrite E.
  - apply lang_bool in E as (u & -> & ->); [|exact Hs]. right. exists b, r. auto.
  - apply fails_bool in E as [H ->]; [|exact Hs]. auto.
Qed.
Lemma no_bool_run c s : bytes_ok s -> no_bool s -> run c de_bool s = OErr ERead.
Proof. intros Hs H. apply (fails_bool c s read_error Hs). auto. Qed.
Lemma bool_run c (b : bool) r : bytes_ok ((if b then 1 else 0) :: r) -> run c de_bool ((if b then 1 else 0) :: r) = OOk b r.
Proof. intros Hs. apply (lang_bool c _ b r Hs). exists [if b then 1 else 0]. auto. Qed.
Lemma u16_cases c s : bytes_ok s -> (short 2 s /\ run c (dec_u16 ERead) s = OErr ERead) \/
  exists l n r, s = l ++ r /\ code 2 l n /\ run c (dec_u16 ERead) s = OOk n r /\ bytes_ok r.
Proof.
  intros Hs. destruct (run_cases c (dec_u16 ERead) s) as [(n & r & E)|(x & E)].
  - right. pose proof E as E'. apply lang_u16 in E as (l & -> & Hl); [|exact Hs]. exists l, n, r. split; [reflexivity|]. split; [exact Hl|]. split; [exact E'|eapply app_ok_r, Hs].
  - left. pose proof E as E'. apply fails_u16 in E as [H ->]; [|exact Hs]. auto.
Qed.
Lemma code_run16 c l n r : bytes_ok (l ++ r) -> code 2 l n -> run c (dec_u16 ERead) (l ++ r) = OOk n r.
Proof. intros Hs H. apply lang_u16; [exact Hs|]. eauto. Qed.
Lemma short_run16 c s : bytes_ok s -> short 2 s -> run c (dec_u16 ERead) s = OErr ERead.
Proof. intros Hs H. apply (fails_u16 c s read_error Hs). auto. Qed.

Theorem does_de c d : wf_cfg c -> 4096 <= heap_limit c -> shaped d = true -> does c (de c d) (reads c d).
Proof.
  intros Hw Hh. induction d using dty_ind2; intros Hwf; try (apply does_plain; [exact Hw|reflexivity]).
  - apply does_isize, Hw.
  - apply does_usize, Hw.
  - apply does_char, Hw.
  - cbn [de]. eapply does_map_of; [apply does_string, Hw|apply rd_string|]. intros s o H; inversion H; subst; not_plain; eauto.
  - cbn [de]. eapply does_map_of; [apply does_byte_buf; assumption|apply rd_buf|]. intros s o H; inversion H; subst; not_plain; eauto.
  - (* option *)
    intros s Hs. cbn [de]. unfold de_option. rewrite run_pmap, run_bind. split.
    + destruct (bool_cases c s Hs) as [[H ->]|(b & r & -> & ->)]; cbn [obind]; [apply rd_option, H|]. inversion Hs as [|? ? _ Hr]; subst.
      destruct b; [|apply rd_none]. rewrite run_pmap, obind_omap. match goal with |- reads _ _ _ ?g => replace g with (omap SSome (run c (de c d) r)) by (destruct (run c (de c d) r); reflexivity) end.
      apply rd_some, IHd; assumption.
    + intros o H; inversion H; subst; not_plain.
      * rewrite no_bool_run by assumption. reflexivity.
      * rewrite (bool_run c false) by exact Hs. reflexivity.
      * rewrite (bool_run c true) by exact Hs. cbn [obind]. inversion Hs as [|? ? _ Hr]; subst. rewrite run_pmap.
        match goal with Ho : reads c d ?t ?o' |- _ => rewrite (proj2 (IHd Hwf t Hr) _ Ho); destruct o'; reflexivity end.
  - cbn [de]. eapply does_map_of; [apply IHd, Hwf|apply rd_newtype|]. intros s o H; inversion H; subst; not_plain; eauto.
  - (* vec *)
    cbn [de]. eapply does_map_of with (P := fun s o => (short 8 s /\ o = OErr ERead) \/ exists l n r, s = l ++ r /\ code 8 l n /\
      reads_all c (repeat d (N.to_nat (kept c n))) r o).
    + unfold de_vec. eapply does_length with (Q := fun n r o => reads_all c (repeat d (N.to_nat (kept c n))) r o); [|intros; reflexivity].
      intros n Hn. eapply does_run; [intros s; apply run_repeatN|]. rewrite rep_sequence, <- (map_repeat (de c)). apply does_all.
      apply Forall_forall. intros d' Hd'. apply repeat_spec in Hd' as ->. apply IHd, Hwf.
    + intros s o [[H ->]|(l & n & r & -> & Hl & H)]; [apply rd_vec_count, H|eapply rd_vec; eassumption].
    + intros s o H; inversion H; subst; not_plain; [exists (OErr ERead); auto|]. eexists; split; [right|reflexivity]. do 3 eexists. eauto.
  - cbn [de]. cbn [shaped] in Hwf. rewrite forallb_forall in Hwf. rewrite Forall_forall in H.
    eapply does_map_of; [apply does_all, Forall_forall; intros d Hd; apply (H d Hd), Hwf, Hd|apply rd_tuple|]. intros s o X; inversion X; subst; not_plain; eauto.
  - cbn [de]. cbn [shaped] in Hwf. rewrite forallb_forall in Hwf. rewrite Forall_forall in H.
    eapply does_map_of; [apply does_all, Forall_forall; intros d Hd; apply (H d Hd), Hwf, Hd|apply rd_tuple_struct|]. intros s o X; inversion X; subst; not_plain; eauto.
  - (* map *)
    cbn [de]. eapply does_map_of with (P := fun s o => (short 8 s /\ o = OErr ERead) \/ exists l n r, s = l ++ r /\ code 8 l n /\
      exists o', reads_entries c d (N.to_nat (kept c n)) r o' /\ o = omap (fun es => insert_all es []) o').
    + unfold de_map. eapply does_length with (Q := fun n r o => exists o', reads_entries c d (N.to_nat (kept c n)) r o' /\ o = omap (fun es => insert_all es []) o');
        [|intros; reflexivity]. intros n Hn s Hs. rewrite run_map_n. destruct (does_entries c d (N.to_nat (as_usize c n)) Hw (IHd Hwf) s Hs) as [HT HS].
      split; [eexists; split; [exact HT|reflexivity]|]. intros o (o' & Ho & ->). f_equal. apply HS, Ho.
    + intros s o [[H ->]|(l & n & r & -> & Hl & o' & Ho & ->)]; [apply rd_map_count, H|].
      destruct (outcome_cases o') as [(es & r' & ->)|(x & ->)].
      * cbn [omap]. destruct (proj1 (insert_all_iff es (insert_all es [])) eq_refl) as [H1 H2]. eapply rd_map; eassumption.
      * rewrite !omap_stop. eapply rd_map_stop; eassumption.
    + intros s o H; inversion H; subst; not_plain.
      * exists (OErr ERead); auto.
      * exists (stop x). rewrite omap_stop. split; [right; do 3 eexists; split; [reflexivity|]; split; [eassumption|]; exists (stop x); rewrite omap_stop; auto|reflexivity].
      * match goal with H1 : StronglySorted _ _, H2 : forall k, _ = _ |- _ => pose proof (proj2 (insert_all_iff _ _) (conj H1 H2)) as -> end.
        eexists (OOk _ _). split; [right; do 3 eexists; split; [reflexivity|]; split; [eassumption|]; eexists (OOk _ _); split; [eassumption|reflexivity]|reflexivity].
  - (* struct *)
    cbn [shaped] in Hwf. apply andb_prop in Hwf as [Hnd Hfs]. apply nodupb_NoDup in Hnd. rewrite forallb_forall in Hfs. rewrite Forall_forall in H.
    apply does_struct; [exact Hnd|]. intros k d Hd. exact (H (k, d) Hd (Hfs (k, d) Hd)).
  - (* enum *)
    cbn [shaped] in Hwf. rewrite forallb_forall in Hwf. rewrite Forall_forall in H. intros s Hs. cbn [de]. unfold de_enum, de_u16. rewrite run_bind.
    assert (HD : forall i k d, pickN vs i = Some (k, d) -> does c (de c d) (reads c d) /\ payload_shape k d = true).
    { intros i k d E. pose proof (proj1 (pickN_some _ _ _ E)) as Hin. pose proof (Hwf _ Hin) as Hd. apply andb_prop in Hd as [Hp Hd]. split; [apply (H _ Hin), Hd|exact Hp]. }
    split.
    + destruct (u16_cases c s Hs) as [[X ->]|(l & i & r & -> & Hl & -> & Hr)]; cbn [obind]; [apply rd_enum_index, X|].
      rewrite pickN_map. destruct (pickN vs i) as [[k d]|] eqn:E; cbn [option_map fst snd]; [|apply pickN_none in E; eapply rd_enum_unknown; eassumption].
      destruct (HD i k d E) as [Hd Hp]. destruct (Hd r Hr) as [HT _]. rewrite run_pmap, obind_omap.
      destruct k.
      * destruct d; try discriminate Hp. cbn [de run omap]. eapply rd_unit_variant; eassumption.
      * eapply rd_newtype_variant; eassumption.
      * destruct d; try discriminate Hp. remember (run c (de c (DTuple ds)) r) as o0 eqn:E0. inversion HT; subst o0; subst; not_plain.
        match goal with |- reads _ _ _ (omap _ (omap STuple ?o)) => replace (omap (variant_sval KTuple i) (omap STuple o)) with (omap (STupleVariant i) o) by (destruct o; reflexivity) end.
        eapply rd_tuple_variant; eassumption.
      * destruct d; try discriminate Hp. destruct (outcome_cases (run c (de c (DStruct keys fields)) r)) as [(v & r' & Ev)|(x & Ev)]; rewrite Ev in *.
        -- assert (exists xs, v = SStruct xs) as [xs ->] by (cbn [de] in Ev; apply run_pmap_ok in Ev as (l0 & _ & ->); eauto).
           cbn [omap variant_sval]. eapply rd_struct_variant; eassumption.
        -- rewrite omap_stop. eapply rd_struct_variant_stop; eassumption.
    + intros o X; inversion X; subst; not_plain.
      * rewrite short_run16 by assumption. reflexivity.
      * match goal with H1 : code 2 ?l ?i, H2 : lenN vs <= ?i |- _ => rewrite (code_run16 c l i _ Hs H1); cbn [obind]; rewrite pickN_map; apply pickN_none in H2; rewrite H2 end. reflexivity.
      * match goal with H1 : code 2 ?l ?i, E : pickN vs ?i = _ |- _ => rewrite (code_run16 c l i _ Hs H1); cbn [obind]; rewrite pickN_map, E end. reflexivity.
      * match goal with H1 : code 2 ?l ?i, E : pickN vs ?i = _, H3 : reads _ _ ?t _ |- _ => rewrite (code_run16 c l i _ Hs H1); cbn [obind]; rewrite pickN_map, E;
          destruct (HD _ _ _ E) as [Hd _]; cbn [option_map fst snd]; rewrite run_pmap, (proj2 (Hd t (app_ok_r _ _ Hs)) _ H3) end. apply obind_omap.
      * match goal with H1 : code 2 ?l ?i, E : pickN vs ?i = _, H3 : reads_all _ _ ?t _ |- _ => rewrite (code_run16 c l i _ Hs H1); cbn [obind]; rewrite pickN_map, E;
          destruct (HD _ _ _ E) as [Hd _]; cbn [option_map fst snd]; rewrite run_pmap, (proj2 (Hd t (app_ok_r _ _ Hs)) _ (rd_tuple c _ _ _ H3)) end.
        match goal with |- obind (omap STuple ?o) _ = _ => destruct o; reflexivity end.
      * match goal with H1 : code 2 ?l ?i, E : pickN vs ?i = _, H3 : reads _ _ ?t _ |- _ => rewrite (code_run16 c l i _ Hs H1); cbn [obind]; rewrite pickN_map, E;
          destruct (HD _ _ _ E) as [Hd _]; cbn [option_map fst snd]; rewrite run_pmap, (proj2 (Hd t (app_ok_r _ _ Hs)) _ H3) end. apply obind_stop.
      * match goal with H1 : code 2 ?l ?i, E : pickN vs ?i = _, H3 : reads _ _ ?t _ |- _ => rewrite (code_run16 c l i _ Hs H1); cbn [obind]; rewrite pickN_map, E;
          destruct (HD _ _ _ E) as [Hd _]; cbn [option_map fst snd]; rewrite run_pmap, (proj2 (Hd t (app_ok_r _ _ Hs)) _ H3) end. reflexivity.
  - cbn [de]. eapply does_map_of; [apply does_big|apply rd_biguint|]. intros s o H; inversion H; subst; not_plain; eauto.
  - cbn [de]. eapply does_map_of; [apply does_big|apply rd_bigint|]. intros s o H; inversion H; subst; not_plain; eauto.
  - cbn [de]. eapply does_map_of; [apply does_decimal| |].
    + intros s o H. destruct (outcome_cases o) as [([bs z] & r & ->)|(x & ->)]; [|rewrite omap_stop; apply rd_decimal_stop, H].
      destruct bs as [|b bs]; cbn [omap fst snd big_decimal_sval]; [eapply rd_decimal_zero; eassumption|]. apply rd_decimal; [discriminate|exact H].
    + intros s o H; inversion H; subst; not_plain.
      * exists (stop x). rewrite omap_stop. auto.
      * eexists. split; [eassumption|reflexivity].
      * eexists. split; [eassumption|]. cbn [omap fst snd big_decimal_sval]. destruct bs; [congruence|reflexivity].
Qed.

(** ** Bodies *)
Lemma body_plain_run_wide c h s : body_plain h = true -> bytes_ok s -> run c (bde c h) s = run (wide c) (bde (wide c) h) s.
Proof.
  intros Hd Hs. destruct h; try discriminate Hd; cbn [bde]; try reflexivity; try (plain_run Hs; reflexivity).
  - rewrite !run_pmap, run_bool_wide. reflexivity.
  - rewrite !run_pmap, run_date_wide by exact Hs. reflexivity.
  - rewrite !run_pmap, run_date_time_wide by exact Hs. reflexivity.
Qed.
Lemma body_accepts_wide c h u v : body_plain h = true -> (body_accepts (wide c) h u v <-> body_accepts c h u v).
Proof. intros Hd. split; intros H; destruct h; try discriminate Hd; inversion H; subst; constructor; assumption. Qed.
Lemma body_rejects_wide c h s x : body_plain h = true -> (body_rejects (wide c) h s x <-> body_rejects c h s x).
Proof. intros Hd. split; intros H; destruct h; try discriminate Hd; inversion H; subst; constructor; assumption. Qed.
Lemma does_body_plain c h : wf_cfg c -> body_plain h = true -> does c (bde c h) (body_reads c h).
Proof.
  intros Hw Hd. assert (H : does c (bde c h) (fun s o => (exists u a r, s = u ++ r /\ body_accepts c h u a /\ o = OOk a r) \/ exists x, body_rejects c h s x /\ o = stop x)).
  { apply does_lang.
    - intros s v r Hs. rewrite body_plain_run_wide by assumption.
      rewrite (lang_bde (wide c) (wide_wf c Hw) eq_refl (N.le_max_l _ _) h s v r Hs).
      split; intros (u & E & H); exists u; (split; [exact E|]); apply (body_accepts_wide c h u v Hd), H.
    - intros s x Hs. rewrite body_plain_run_wide by assumption.
      rewrite (fails_bde (wide c) (wide_wf c Hw) eq_refl (N.le_max_l _ _) h s x Hs). apply body_rejects_wide, Hd. }
  intros s Hs. destruct (H s Hs) as [HT HS]. split.
  - destruct HT as [(u & a & r & E & Ha & ->)|(x & Hx & ->)]; [rewrite E; apply bd_plain; assumption|apply bd_plain_stop; assumption].
  - intros o Ho. apply HS. destruct Ho; try discriminate Hd; [left|right]; eauto 8.
Qed.
Lemma does_body_of {A} c (f : A -> body) (p : prog A) h (P : list N -> outcome A -> Prop) : does c p P ->
  (forall s o, P s o -> body_reads c h s (omap f o)) -> (forall s o, body_reads c h s o -> exists o', P s o' /\ o = omap f o') ->
  does c (pmap f p) (body_reads c h).
Proof.
  intros Hp H1 H2 s Hs. rewrite run_pmap, obind_omap. split; [apply H1, Hp, Hs|]. intros o Ho. apply H2 in Ho as (o' & Ho & ->). f_equal. apply Hp; assumption.
Qed.
Lemma does_bodies c hs : Forall (fun h => does c (bde c h) (body_reads c h)) hs -> does c (sequence (map (bde c) hs)) (bodies_read c hs).
Proof.
  induction 1 as [|h hs Hd _ IH]; intros s Hs; cbn [map sequence].
  - split; [constructor|]. intros o H; inversion H; reflexivity.
  - rewrite run_bind. destruct (Hd s Hs) as [HT HS]. split.
    + destruct (outcome_cases (run c (bde c h) s)) as [(v & r & E)|(x & E)]; rewrite E in *.
      * cbn [obind]. rewrite run_bind. cbn [run]. rewrite obind_omap. eapply bsr_cons; [exact HT|]. apply IH. eapply run_rest; eassumption.
      * rewrite obind_stop. apply bsr_stop, HT.
    + intros o H; inversion H as [|? ? ? x Hx|? ? ? v r o' Hv Ho]; subst.
      * rewrite (HS _ Hx), obind_stop. reflexivity.
      * pose proof (HS _ Hv) as E. rewrite E. cbn [obind]. rewrite run_bind. cbn [run]. rewrite obind_omap. f_equal. apply IH; [eapply run_rest; eassumption|exact Ho].
Qed.
Lemma does_body_entries c h n : wf_cfg c -> does c (bde c h) (body_reads c h) ->
  does c (rep n (k <- de_string c ;; v <- bde c h ;; Ret (k, v))) (body_entries_read c h n).
Proof.
  intros Hw Hd. induction n as [|n IH]; intros s Hs; cbn [rep].
  - split; [constructor|]. intros o H; inversion H; reflexivity.
  - rewrite run_bind, run_bind, obind_obind. destruct (does_string c Hw s Hs) as [HT HS]. split.
    + destruct (outcome_cases (run c (de_string c) s)) as [(k & t & E)|(x & E)]; rewrite E in *.
      * cbn [obind]. rewrite run_bind, obind_obind. assert (Ht : bytes_ok t) by (eapply run_rest; eassumption). destruct (Hd t Ht) as [VT _].
        destruct (outcome_cases (run c (bde c h) t)) as [(v & r & E')|(x & E')]; rewrite E' in *.
        -- cbn [obind run]. rewrite run_bind. cbn [run]. rewrite obind_omap. eapply ber_cons; [exact HT|exact VT|]. apply IH. eapply run_rest; eassumption.
        -- rewrite obind_stop. eapply ber_value; eassumption.
      * rewrite obind_stop. apply ber_key, HT.
    + intros o H; inversion H as [|? ? ? x Hx|? ? ? k t x Hk Hx|? ? ? k t v r o' Hk Hv Ho]; subst.
      * rewrite (HS _ Hx), obind_stop. reflexivity.
      * pose proof (HS _ Hk) as E. rewrite E. cbn [obind]. assert (Ht : bytes_ok t) by (eapply run_rest; eassumption).
        rewrite run_bind, obind_obind, (proj2 (Hd t Ht) _ Hx), obind_stop. reflexivity.
      * pose proof (HS _ Hk) as E. rewrite E. cbn [obind]. assert (Ht : bytes_ok t) by (eapply run_rest; eassumption).
        pose proof (proj2 (Hd t Ht) _ Hv) as E'. rewrite run_bind, obind_obind, E'. cbn [obind run]. rewrite run_bind. cbn [run]. rewrite obind_omap.
        f_equal. apply IH; [eapply run_rest; eassumption|exact Ho].
Qed.
Lemma no_room_any c n q : wf_cfg c -> (no_room c n q <-> alloc_result c (n * size_of_body c) = Some q).
Proof.
  intros Hw. unfold no_room, alloc_result, isize_max. cbv zeta. generalize (n * size_of_body c); intros m.
  assert (0 < 2 ^ (usize_bits c - 1)) by (destruct Hw as [[-> | ->] _]; reflexivity). revert H. generalize (2 ^ (usize_bits c - 1)). intros k Hk.
  destruct (N.ltb_spec (k - 1) m) as [H|H]; [|destruct (N.ltb_spec (heap_limit c) m) as [H'|H']].
  - split; [intros [[_ ->]|[H1 _]]; [reflexivity|lia]|]. intros E; injection E as <-. left. split; [lia|reflexivity].
  - split; [intros [[H1 _]|[_ [_ ->]]]; [lia|reflexivity]|]. intros E; injection E as <-. right. split; [lia|auto].
  - split; [intros [[H1 _]|[_ [H1 _]]]; lia|discriminate].
Qed.
Lemma room_any c n : wf_cfg c -> ((forall q, ~ no_room c n q) <-> alloc_result c (n * size_of_body c) = None).
Proof.
  intros Hw. split.
  - intros H. destruct (alloc_result c (n * size_of_body c)) as [q|] eqn:E; [|reflexivity]. exfalso. apply (H q), no_room_any; assumption.
  - intros E q H. apply no_room_any in H; [congruence|exact Hw].
Qed.
Lemma u32_cases c s : bytes_ok s -> (short 4 s /\ run c (dec_u32 ERead) s = OErr ERead) \/
  exists l n r, s = l ++ r /\ code 4 l n /\ n < 2 ^ 32 /\ run c (dec_u32 ERead) s = OOk n r /\ bytes_ok r.
Proof.
  intros Hs. destruct (run_cases c (dec_u32 ERead) s) as [(n & r & E)|(x & E)].
  - right. pose proof E as E'. apply lang_u32 in E as (l & -> & Hl); [|exact Hs]. exists l, n, r. split; [reflexivity|]. split; [exact Hl|].
    split; [exact (code4_bound l n (app_ok_l _ _ Hs) Hl)|]. split; [exact E'|eapply app_ok_r, Hs].
  - left. pose proof E as E'. apply fails_u32 in E as [H ->]; [|exact Hs]. auto.
Qed.
Lemma code_run32 c l n r : bytes_ok (l ++ r) -> code 4 l n -> run c (dec_u32 ERead) (l ++ r) = OOk n r.
Proof. intros Hs H. apply lang_u32; [exact Hs|]. eauto. Qed.
Lemma short_run32 c s : bytes_ok s -> short 4 s -> run c (dec_u32 ERead) s = OErr ERead.
Proof. intros Hs H. apply (fails_u32 c s read_error Hs). auto. Qed.
Theorem does_bde c h : wf_cfg c -> 4096 <= heap_limit c -> does c (bde c h) (body_reads c h).
Proof.
  intros Hw Hh. apply (header_ind2 (fun h => does c (bde c h) (body_reads c h))); clear h.
  - intros h. destruct h; try exact I; try (apply does_body_plain; [exact Hw|reflexivity]); cbn [bde].
    + eapply does_body_of; [apply does_big|apply bd_biguint|]. intros s o H; inversion H; subst; not_plain; eauto.
    + eapply does_body_of; [apply does_big|apply bd_bigint|]. intros s o H; inversion H; subst; not_plain; eauto.
    + eapply does_body_of; [apply does_decimal|apply bd_decimal|]. intros s o H; inversion H; subst; not_plain; eauto.
    + eapply does_body_of; [apply does_string, Hw|apply bd_string|]. intros s o H; inversion H; subst; not_plain; eauto.
    + eapply does_body_of; [apply does_byte_buf; assumption|apply bd_binary|]. intros s o H; inversion H; subst; not_plain; eauto.
  - (* optional *)
    intros h IH s Hs. cbn [bde]. split.
    + unfold de_option. rewrite run_pmap, run_bind. destruct (bool_cases c s Hs) as [[H ->]|(b & r & -> & ->)]; cbn [obind]; [apply bd_option, H|]. inversion Hs as [|? ? _ Hr]; subst.
      destruct b; [|apply bd_none]. rewrite run_pmap, obind_omap.
      match goal with |- body_reads _ _ _ ?g => replace g with (omap (fun b => BOptional (Some b)) (run c (bde c h) r)) by (destruct (run c (bde c h) r); reflexivity) end.
      apply bd_some, IH; assumption.
    + unfold de_option. rewrite run_pmap, run_bind. intros o H; inversion H; subst; not_plain.
      * rewrite no_bool_run by assumption. reflexivity.
      * rewrite (bool_run c false) by exact Hs. reflexivity.
      * rewrite (bool_run c true) by exact Hs. cbn [obind]. inversion Hs as [|? ? _ Hr]; subst. rewrite run_pmap.
        match goal with Ho : body_reads c h ?t ?o' |- _ => rewrite (proj2 (IH t Hr) _ Ho); destruct o'; reflexivity end.
  - (* array *)
    intros h IH. cbn [bde]. unfold de_u64.
    assert (HR : forall n, does c (repeatN n (bde c h)) (bodies_read c (repeat h (N.to_nat n)))).
    { intros n. eapply does_run; [intros s; apply run_repeatN|]. rewrite rep_sequence, <- (map_repeat (bde c)). apply does_bodies.
      apply Forall_forall. intros d' Hd'. apply repeat_spec in Hd' as ->. exact IH. }
    eapply does_length with (Q := fun n r o => (exists q, no_room c (kept c n) q /\ o = OPanic q) \/
      ((forall q, ~ no_room c (kept c n) q) /\ exists o', bodies_read c (repeat h (N.to_nat n)) r o' /\ o = omap BArray o')).
    + intros n Hn s Hs. cbn [run]. destruct (alloc_result c (as_usize c n * size_of_body c)) as [q|] eqn:E.
      * apply no_room_any in E; [|exact Hw]. split; [left; eauto|]. intros o [(q' & Hq & ->)|(Hq & _)]; [|destruct (Hq q E)].
        apply no_room_any in E; [|exact Hw]. apply no_room_any in Hq; [|exact Hw]. unfold kept, as_usize in *. congruence.
      * assert (E' : forall q, ~ no_room c (kept c n) q) by (apply room_any; assumption). rewrite run_pmap, obind_omap. destruct (HR n s Hs) as [HT HS].
        split; [right; eauto|]. intros o [(q' & Hq & _)|(_ & o' & Ho & ->)]; [destruct (E' q' Hq)|]. f_equal. apply HS, Ho.
    + intros s o. split.
      * intros H; inversion H; subst; not_plain; [auto| |]; right; do 3 eexists; (split; [reflexivity|]); (split; [eassumption|]); [left; eauto|right; eauto].
      * intros [[H ->]|(l & n & r & -> & Hl & [(q & Hq & ->)|(Hq & o' & Ho & ->)])]; [apply bd_array_count, H|eapply bd_array_room; eassumption|eapply bd_array; eassumption].
  - (* map *)
    intros h IH. cbn [bde]. unfold de_u64.
    eapply does_length with (Q := fun n r o => exists o', body_entries_read c h (N.to_nat n) r o' /\ o = omap (fun es => BMap (insert_all es [])) o').
    + intros n Hn s Hs. rewrite run_pmap, run_map_n, obind_omap. destruct (does_body_entries c h (N.to_nat n) Hw IH s Hs) as [HT HS].
      assert (X : forall o, omap BMap (omap (fun es : list (list N * body) => insert_all es []) o) = omap (fun es => BMap (insert_all es [])) o) by (intros [| |]; reflexivity).
      rewrite X. split; [eexists; split; [exact HT|reflexivity]|]. intros o (o' & Ho & ->). f_equal. apply HS, Ho.
    + intros s o. split.
      * intros H; inversion H; subst; not_plain; [auto| |]; right; do 3 eexists; (split; [reflexivity|]); (split; [eassumption|]).
        -- exists (stop x). rewrite omap_stop. auto.
        -- match goal with H1 : StronglySorted _ _, H2 : forall k, _ = _ |- _ => pose proof (proj2 (insert_all_iff _ _) (conj H1 H2)) as -> end. eexists (OOk _ _). split; [eassumption|reflexivity].
      * intros [[H ->]|(l & n & r & -> & Hl & o' & Ho & ->)]; [apply bd_map_count, H|].
        destruct (outcome_cases o') as [(es & r' & ->)|(x & ->)].
        -- cbn [omap]. destruct (proj1 (insert_all_iff es (insert_all es [])) eq_refl) as [H1 H2]. eapply bd_map; eassumption.
        -- rewrite !omap_stop. eapply bd_map_stop; eassumption.
  - (* tuple *)
    intros hs IH s Hs. cbn [bde run]. destruct (does_bodies c hs IH s Hs) as [HT HS].
    destruct (alloc_result c (lenN hs * size_of_body c)) as [q|] eqn:E.
    + apply no_room_any in E as E'; [|exact Hw]. split; [apply bd_tuple_room, E'|]. intros o H; inversion H; subst; not_plain.
      * match goal with Hq : no_room _ _ _ |- _ => apply no_room_any in Hq; [congruence|exact Hw] end.
      * match goal with Hq : forall q, ~ no_room _ _ q |- _ => destruct (Hq q E') end.
    + assert (E' : forall q, ~ no_room c (lenN hs) q) by (apply room_any; assumption). rewrite run_pmap, obind_omap. split; [apply bd_tuple; assumption|].
      intros o H; inversion H; subst; not_plain.
      * match goal with Hq : no_room _ _ ?q |- _ => destruct (E' q Hq) end.
      * f_equal. apply HS. assumption.
  - (* enum *)
    intros hs IH s Hs. cbn [bde]. unfold de_u32. rewrite run_bind. rewrite Forall_forall in IH.
    assert (HD : forall i h, pickN hs i = Some h -> does c (bde c h) (body_reads c h)) by (intros i h E; apply IH; exact (proj1 (pickN_some _ _ _ E))).
    split.
    + destruct (u32_cases c s Hs) as [[X ->]|(l & i & r & -> & Hl & Hi & -> & Hr)]; cbn [obind]; [apply bd_enum_index, X|].
      rewrite bits_small, pickN_map by assumption. destruct (pickN hs i) as [h|] eqn:E; cbn [option_map]; [|apply pickN_none in E; eapply bd_enum_unknown; eassumption].
      rewrite run_pmap, obind_omap. eapply bd_enum; [exact Hl|exact E|]. apply (HD i h E), Hr.
    + intros o X; inversion X; subst; not_plain.
      * rewrite short_run32 by assumption. reflexivity.
      * match goal with H1 : code 4 ?l ?i, H2 : lenN hs <= ?i |- _ => pose proof (code4_bound l i (app_ok_l _ _ Hs) H1); rewrite (code_run32 c l i _ Hs H1); cbn [obind];
          rewrite bits_small, pickN_map by assumption; apply pickN_none in H2; rewrite H2 end. reflexivity.
      * match goal with H1 : code 4 ?l ?i, E : pickN hs ?i = _, H3 : body_reads _ _ ?t _ |- _ => pose proof (code4_bound l i (app_ok_l _ _ Hs) H1); rewrite (code_run32 c l i _ Hs H1); cbn [obind];
          rewrite bits_small, pickN_map, E by assumption; cbn [option_map]; rewrite run_pmap, (proj2 (HD _ _ E t (app_ok_r _ _ Hs)) _ H3) end. apply obind_omap.
Qed.
