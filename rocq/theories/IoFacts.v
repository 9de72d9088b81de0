(** * Readers and writers: chunks, interruptions, faults. *)
From Coq Require Import String.
From Verif Require Import Base BaseFacts Varint VarintFacts Utf8 Serde Typing PrimFacts SerdeFacts SerdeMore SerdeSafe SerdeProps Big Time Header HeaderFacts Body BodyFacts Io SpecIo.

Local Open Scope list_scope.
Local Open Scope N_scope.
(** ** Reading n bytes *)
Definition got (n : N) (evs : list ev) (s : list N) (r : rres) : Prop :=
  exists evs', r = RGot (takeN n s) evs' /\ delivers evs' (dropN n s) /\ (In EvError evs' -> In EvError evs).

Lemma chunk_split n l s : lenN l <= n ->
  takeN n (l ++ s) = l ++ takeN (n - lenN l) s /\ dropN n (l ++ s) = dropN (n - lenN l) s.
Proof.
  intros H. split.
  - replace n with (lenN l + (n - lenN l)) at 1 by lia. rewrite takeN_add, takeN_app, dropN_app. reflexivity.
  - replace n with (lenN l + (n - lenN l)) at 1 by lia. rewrite dropN_add, dropN_app. reflexivity.
Qed.
Lemma chunk_part n l s : n < lenN l -> takeN n (l ++ s) = takeN n l /\ dropN n (l ++ s) = dropN n l ++ s.
Proof.
  intros H. assert (E : lenN (takeN n l) = n) by (rewrite lenN_takeN; lia).
  rewrite <- (take_drop n l) at 1 3. rewrite <- !app_assoc. split; [rewrite takeN_app_n; auto|rewrite dropN_app_n; auto].
Qed.
Lemma got_0 evs s r : delivers evs s -> r = RGot [] evs -> got 0 evs s r.
Proof. intros H ->. exists evs. rewrite takeN_0, dropN_0. auto. Qed.
Lemma got_int n t s r : got n t s r -> got n (EvInterrupted :: t) s r.
Proof. intros (evs' & E & D & I). exists evs'. split; [exact E|]. split; [exact D|]. intros H; right; auto. Qed.
Lemma got_chunk n l t s r : lenN l <= n -> got (n - lenN l) t s r ->
  got n (EvData l :: t) (l ++ s) (match r with RGot bs rest => RGot (l ++ bs) rest | REof => REof | RErr => RErr end).
Proof.
  intros Hl (evs' & -> & D & I). destruct (chunk_split n l s Hl) as [ET ED]. exists evs'. rewrite ET, ED.
  split; [reflexivity|]. split; [exact D|]. intros H; right; auto.
Qed.
Lemma got_part n l t s : n < lenN l -> delivers t s ->
  got n (EvData l :: t) (l ++ s) (RGot (takeN n l) (EvData (dropN n l) :: t)).
Proof.
  intros Hl H. destruct (chunk_part n l s Hl) as [ET ED]. exists (EvData (dropN n l) :: t). rewrite ET, ED.
  split; [reflexivity|]. split.
  - destruct (dropN n l) as [|b' ch'] eqn:E; [|constructor; exact H].
    assert (lenN (dropN n l) = 0) as L by (rewrite E; reflexivity). rewrite lenN_dropN in L. lia.
  - intros [E|E]; [discriminate|right; exact E].
Qed.

Lemma ev_exact_spec n evs s : delivers evs s ->
  if lenN s <? n then ev_read_exact n evs = REof \/ ev_read_exact n evs = RErr
  else got n evs s (ev_read_exact n evs).
Proof.
  intros H; revert n; induction H as [|t|t s H IH|b ch t s H IH]; intros n; cbn [ev_read_exact].
  - change (lenN []) with 0. destruct (N.ltb_spec 0 n) as [Hn|Hn]; destruct (N.eqb_spec n 0) as [->|]; try lia; auto.
    apply got_0; [constructor|reflexivity].
  - change (lenN []) with 0. destruct (N.ltb_spec 0 n) as [Hn|Hn]; destruct (N.eqb_spec n 0) as [->|]; try lia; auto.
    apply got_0; [constructor|reflexivity].
  - destruct (N.eqb_spec n 0) as [->|Hn].
    + destruct (N.ltb_spec (lenN s) 0); [lia|]. apply got_0; [constructor; exact H|reflexivity].
    + specialize (IH n). destruct (lenN s <? n); [exact IH|]. apply got_int, IH.
  - set (l := b :: ch) in *. destruct (N.eqb_spec n 0) as [->|Hn].
    + destruct (N.ltb_spec (lenN (l ++ s)) 0); [lia|]. apply got_0; [constructor; exact H|reflexivity].
    + rewrite lenN_app. destruct (N.leb_spec (lenN l) n) as [Hl|Hl].
      * specialize (IH (n - lenN l)). destruct (N.ltb_spec (lenN s) (n - lenN l)) as [Hs|Hs].
        { destruct (N.ltb_spec (lenN l + lenN s) n); [|lia]. destruct IH as [-> | ->]; [left|right]; reflexivity. }
        destruct (N.ltb_spec (lenN l + lenN s) n); [lia|]. apply (got_chunk n l t s _ Hl IH).
      * destruct (N.ltb_spec (lenN l + lenN s) n); [lia|]. apply got_part; assumption.
Qed.
Lemma ev_limit_spec n evs s : delivers evs s ->
  got n evs s (ev_read_limit n evs) \/ (lenN s < n /\ In EvError evs /\ ev_read_limit n evs = RErr).
Proof.
  intros H; revert n; induction H as [|t|t s H IH|b ch t s H IH]; intros n; cbn [ev_read_limit].
  - left. destruct (N.eqb_spec n 0) as [->|Hn]; [apply got_0; [constructor|reflexivity]|].
    exists []. rewrite takeN_all, dropN_all by (change (lenN []) with 0; lia). split; [reflexivity|]. split; [constructor|auto].
  - destruct (N.eqb_spec n 0) as [->|Hn]; [left; apply got_0; [constructor|reflexivity]|].
    right. split; [change (lenN []) with 0; lia|]. split; [left; reflexivity|reflexivity].
  - destruct (N.eqb_spec n 0) as [->|Hn]; [left; apply got_0; [constructor; exact H|reflexivity]|].
    destruct (IH n) as [G|(L & I & G)]; [left; apply got_int, G|right; split; [exact L|]; split; [right; exact I|exact G]].
  - set (l := b :: ch) in *. destruct (N.eqb_spec n 0) as [->|Hn]; [left; apply got_0; [constructor; exact H|reflexivity]|].
    destruct (N.leb_spec (lenN l) n) as [Hl|Hl]; [|left; apply got_part; assumption].
    destruct (IH (n - lenN l)) as [G|(L & I & G)]; [left; apply (got_chunk n l t s _ Hl G)|].
    right. rewrite lenN_app, G. split; [lia|]. split; [right; exact I|reflexivity].
Qed.

(** ** Running a decoder on a stream of events, compared with running it on the bytes delivered *)
Definition steady {A} (c : cfg) (p : prog A) : Prop :=
  forall evs s, bytes_ok s -> delivers evs s -> same (run c p s) (exec c p evs).

(** A reader that does not fail. *)
Lemma exec_sound {A} c (p : prog A) evs s : sound_reader evs -> delivers evs s ->
  match run c p s with
  | OOk a r => exists evs', exec c p evs = EOk a evs' /\ delivers evs' r /\ sound_reader evs'
  | OErr e => exec c p evs = EErr e
  | OPanic q => exec c p evs = EPanic q
  end.
Proof.
  revert evs s; induction p as [a|e|q|n e k IH|n e k IH|n k IH]; intros evs s Hs H; cbn [run exec]; auto.
  - exists evs; auto.
  - pose proof (ev_exact_spec n evs s H) as G. destruct (lenN s <? n).
    + destruct G as [-> | ->]; reflexivity.
    + destruct G as (evs' & -> & D & I). apply IH; [|exact D]. intros E; apply Hs, I, E.
  - destruct (ev_limit_spec n evs s H) as [(evs' & -> & D & I)|(_ & I & _)]; [|destruct (Hs I)].
    apply IH; [|exact D]. intros E; apply Hs, I, E.
  - destruct (alloc_result c n); [reflexivity|]. apply IH; assumption.
Qed.

Lemma steady_Ret {A} c (a : A) : steady c (Ret a).
Proof. intros evs s _ H; exists evs; auto. Qed.
Lemma steady_Fail {A} c e : steady c (@Fail A e). Proof. intros evs s _ H; reflexivity. Qed.
Lemma steady_Crash {A} c e : steady c (@Crash A e). Proof. intros evs s _ H; reflexivity. Qed.
Lemma exec_bind {A B} c (p : prog A) (f : A -> prog B) evs :
  exec c (bind p f) evs = match exec c p evs with EOk a t => exec c (f a) t | EErr e => EErr e | EPanic q => EPanic q end.
Proof.
  revert evs; induction p as [a|e|q|n e k IH|n e k IH|n k IH]; intros evs; cbn [bind exec]; auto.
  - destruct (ev_read_exact n evs); auto.
  - destruct (ev_read_limit n evs); auto.
  - destruct (alloc_result c n); auto.
Qed.
Lemma steady_bind_dep {A B} c (p : prog A) (f : A -> prog B) (P : A -> Prop) :
  steady c p -> yields c p P -> (forall a, P a -> steady c (f a)) -> steady c (bind p f).
Proof.
  intros Hp Hy Hf evs s Hs H. specialize (Hp evs s Hs H). rewrite run_bind, exec_bind.
  destruct (run c p s) as [a r|e|q] eqn:E; cbn [same obind] in *.
  - destruct Hp as (t & -> & D). apply Hf; [exact (Hy s a r Hs E)|exact (run_rest _ _ _ _ _ Hs E)|exact D].
  - rewrite Hp; reflexivity.
  - rewrite Hp; reflexivity.
Qed.
Lemma steady_bind {A B} c (p : prog A) (f : A -> prog B) :
  steady c p -> (forall a, steady c (f a)) -> steady c (bind p f).
Proof. intros Hp Hf; apply steady_bind_dep with (P := fun _ => True); [exact Hp|intros s a r _ _; exact I|auto]. Qed.
Lemma steady_pmap {A B} c (p : prog A) (f : A -> B) : steady c p -> steady c (pmap f p).
Proof. intros H; apply steady_bind; [exact H|]; intros; apply steady_Ret. Qed.
Lemma steady_ReadExact {A} c n e (k : list N -> prog A) : (forall bs, steady c (k bs)) -> steady c (ReadExact n e k).
Proof.
  intros Hk evs s Hs H. cbn [run exec]. pose proof (ev_exact_spec n evs s H) as G. destruct (lenN s <? n).
  - destruct G as [-> | ->]; reflexivity.
  - destruct G as (evs' & -> & D & _). apply Hk; [apply Forall_dropN, Hs|exact D].
Qed.
(** A limited read that rejects short data cannot tell a fault from the end of the input. *)
Lemma steady_ReadLimit {A} c n e (k : list N -> prog A) :
  (forall bs, lenN bs < n -> k bs = Fail e) -> (forall bs, steady c (k bs)) -> steady c (ReadLimit n e k).
Proof.
  intros Hn Hk evs s Hs H. cbn [run exec]. destruct (ev_limit_spec n evs s H) as [(evs' & -> & D & _)|(L & _ & ->)].
  - apply Hk; [apply Forall_dropN, Hs|exact D].
  - rewrite Hn by (rewrite lenN_takeN; lia). reflexivity.
Qed.
Lemma steady_Alloc {A} c n (k : prog A) : steady c k -> steady c (Alloc n k).
Proof. intros Hk evs s Hs H. cbn [run exec]. destruct (alloc_result c n); [reflexivity|]. apply Hk; assumption. Qed.
Lemma steady_foldN {S} c n (step : S -> prog S) s : (forall s, steady c (step s)) -> steady c (foldN n step s).
Proof.
  intros H. destruct n as [|n]; cbn [foldN]; [apply steady_Ret|]. revert s.
  induction n as [n IH|n IH|]; intros s; cbn [fold_pos]; auto using steady_bind.
Qed.
Lemma steady_repeatN {A} c n (p : prog A) : steady c p -> steady c (repeatN n p).
Proof.
  intros H; apply steady_bind; [|intros; apply steady_Ret]. apply steady_foldN; intros s.
  apply steady_bind; [exact H|]; intros; apply steady_Ret.
Qed.
Lemma steady_sequence {A} c (ps : list (prog A)) : Forall (steady c) ps -> steady c (sequence ps).
Proof.
  induction 1 as [|p ps Hp _ IH]; cbn [sequence]; [apply steady_Ret|].
  apply steady_bind; [exact Hp|]; intros a. apply steady_bind; [exact IH|]; intros; apply steady_Ret.
Qed.
Lemma steady_byte c : steady c de_byte. Proof. apply steady_ReadExact; intros; apply steady_Ret. Qed.
Ltac steady_varint :=
  unfold dec_u16, dec_u32, dec_u64; apply steady_bind; [apply steady_ReadExact; intros; apply steady_Ret|]; intros p; cbv zeta;
  repeat match goal with |- steady _ (if ?b then _ else _) => destruct b end;
  first [apply steady_Ret | apply steady_ReadExact; intros; apply steady_Ret].
Lemma steady_u16 c e : steady c (dec_u16 e). Proof. steady_varint. Qed.
Lemma steady_u32 c e : steady c (dec_u32 e). Proof. steady_varint. Qed.
Lemma steady_u64 c e : steady c (dec_u64 e). Proof. steady_varint. Qed.
Lemma steady_bool c : steady c de_bool.
Proof. apply steady_bind; [apply steady_byte|]. intros b. destruct (b =? 0); [apply steady_Ret|]. destruct (b =? 1); [apply steady_Ret|apply steady_Fail]. Qed.
Lemma steady_string c : usize_bits c = 64 -> steady c (de_string c).
Proof.
  intros Hc. eapply steady_bind_dep; [apply steady_u64|apply yields_u64|]. intros n Hn. destruct (n <? STR_MAX).
  - apply steady_ReadExact. intros bs. destruct (utf8_valid bs); [apply steady_Ret|apply steady_Fail].
  - apply steady_ReadLimit; intros bs.
    + intros Hb. destruct (utf8_valid bs); [|reflexivity]. rewrite as_usize_id by (rewrite Hc; exact Hn).
      destruct (N.eqb_spec (lenN bs) n); [lia|reflexivity].
    + destruct (utf8_valid bs); [|apply steady_Fail]. destruct (_ =? _); [apply steady_Ret|apply steady_Fail].
Qed.
Lemma steady_byte_buf c : steady c (de_byte_buf c).
Proof.
  apply steady_bind; [apply steady_u64|]. intros n. destruct (BUF_MAX <? n); apply steady_Alloc.
  - apply steady_bind; [|intros [r|r]; [apply steady_Crash|apply steady_Ret]]. apply steady_foldN.
    intros [[[acc rl] pos]|r]; cbn [buf_step]; [|apply steady_Ret]. destruct (rl <? _); [|apply steady_Ret].
    apply steady_ReadExact; intros; apply steady_Ret.
  - apply steady_ReadExact; intros; apply steady_Ret.
Qed.
Lemma steady_vec {A} c (p : prog A) : steady c p -> steady c (de_vec c p).
Proof. intros H; apply steady_bind; [apply steady_u64|]; intros; apply steady_repeatN, H. Qed.
Lemma steady_map_n {A} c n (p : prog A) : usize_bits c = 64 -> steady c p -> steady c (de_map_n c n p).
Proof.
  intros Hc H. apply steady_foldN. intros m. apply steady_bind; [apply steady_string, Hc|]. intros k.
  apply steady_bind; [exact H|]. intros; apply steady_Ret.
Qed.
Lemma steady_struct_loop {A} c keys (fs : list (string * prog A)) slots :
  Forall (fun nf => steady c (snd nf)) fs -> steady c (struct_loop keys fs slots).
Proof.
  intros Hf; revert slots; induction keys as [|k ks IH]; intros slots; cbn [struct_loop]; [apply steady_Ret|].
  destruct (find_field k fs) as [[i p]|] eqn:E; [|first [apply steady_Fail|apply steady_Crash]]. apply find_field_in, nth_error_In in E as Hin.
  destruct (nth_error slots i) as [[x|]|]; try first [apply steady_Fail|apply steady_Crash]. apply steady_bind; [|intros; apply IH].
  rewrite Forall_forall in Hf. apply (Hf _ Hin).
Qed.
Lemma steady_fill_missing {A} c (miss slots : list (option A)) : steady c (fill_missing miss slots).
Proof.
  revert slots; induction miss as [|m ms IH]; intros [|s ss]; cbn [fill_missing]; try apply steady_Ret; try apply steady_Fail.
  destruct s as [a|]; [apply steady_bind; [apply IH|intros; apply steady_Ret]|].
  destruct m as [a|]; [apply steady_bind; [apply IH|intros; apply steady_Ret]|apply steady_Fail].
Qed.
Lemma steady_f32 c : steady c de_f32. Proof. apply steady_ReadExact; intros; apply steady_Ret. Qed.
Lemma steady_f64 c : steady c de_f64. Proof. apply steady_ReadExact; intros; apply steady_Ret. Qed.
Lemma steady_big_decimal c : steady c (de_big_decimal c).
Proof.
  apply steady_bind; [apply steady_vec, steady_byte|]. intros [|b bs]; [apply steady_Ret|].
  apply steady_bind; [apply steady_pmap, steady_u64|]. intros; apply steady_Ret.
Qed.
Lemma steady_date c : steady c (de_date c).
Proof.
  apply steady_bind; [apply steady_pmap, steady_u32|]. intros y0. apply steady_bind; [destruct (arith_s _ _ _); [apply steady_Ret|apply steady_Crash]|].
  intros y. apply steady_bind; [apply steady_u16|]. intros o0. apply steady_bind; [destruct (arith_u _ _ _); [apply steady_Ret|apply steady_Crash]|].
  intros; apply steady_Ret.
Qed.
Lemma steady_date_time c : steady c de_date_time.
Proof. apply steady_bind; [apply steady_pmap, steady_u64|]. intros t. apply steady_bind; [apply steady_u32|]. intros; apply steady_Ret. Qed.
Lemma steady_option {A} c (p : prog A) : steady c p -> steady c (de_option p).
Proof. intros H. apply steady_bind; [apply steady_bool|]. intros [|]; [apply steady_pmap, H|apply steady_Ret]. Qed.

Lemma steady_de c d : usize_bits c = 64 -> steady c (de c d).
Proof.
  intros Hc. induction d using dty_ind2; cbn [de]; try first [apply steady_Ret|apply steady_Fail|apply steady_Crash].
  all: try (apply steady_pmap; first [apply steady_bool | apply steady_byte | apply steady_u16 | apply steady_u32 | apply steady_u64 | apply steady_string, Hc | apply steady_byte_buf
      | apply steady_f32 | apply steady_f64 | apply steady_big_decimal | apply steady_date | apply steady_date_time
      | apply steady_pmap; first [apply steady_byte | apply steady_u16 | apply steady_u32 | apply steady_u64]
      | apply steady_ReadExact; intros; apply steady_Ret]).
  - apply steady_pmap, steady_bind; [apply steady_pmap, steady_u64|]. intros z. destruct (in_s _ z); [apply steady_Ret|apply steady_Fail].
  - apply steady_pmap, steady_bind; [apply steady_u64|]. intros z. destruct (z <? _); [apply steady_Ret|apply steady_Fail].
  - apply steady_pmap, steady_bind; [apply steady_string, Hc|]. intros s. destruct (next_char s); [apply steady_Ret|apply steady_Fail].
  - apply steady_pmap, steady_option, IHd.
  - apply steady_pmap, IHd.
  - apply steady_pmap, steady_vec, IHd.
  - apply steady_pmap, steady_sequence, Forall_map; assumption.
  - apply steady_pmap, steady_sequence, Forall_map; assumption.
  - apply steady_pmap, steady_bind; [apply steady_u64|]. intros n; apply steady_map_n; assumption.
  - apply steady_pmap, steady_bind; [|intros; apply steady_fill_missing].
    apply steady_struct_loop, Forall_map. eapply Forall_impl; [|exact H]. cbn [snd]. auto.
  - apply steady_bind; [apply steady_u16|]. intros i. rewrite pickN_map.
    destruct (pickN vs i) as [[k dp]|] eqn:E; [|apply steady_Fail]. cbn [option_map fst snd].
    apply pickN_some in E as [Hin _]. rewrite Forall_forall in H. apply steady_pmap, (H _ Hin).
  - apply steady_pmap, steady_vec, steady_byte.
  - apply steady_pmap, steady_vec, steady_byte.
Qed.
Lemma steady_hde c depth : steady c (hde c depth).
Proof.
  induction depth as [|d IH]; cbn [hde]; [apply steady_Crash|]. apply steady_ReadExact. intros bs. cbv zeta.
  repeat match goal with |- steady _ (if ?b then _ else _) => destruct b end;
    first [apply steady_Ret | apply steady_Fail | apply steady_pmap, IH |
           apply steady_bind; [apply steady_u16|]; intros n; apply steady_Alloc, steady_pmap, steady_repeatN, IH].
Qed.
Lemma steady_bde c h : usize_bits c = 64 -> steady c (bde c h).
Proof.
  intros Hc. apply (header_ind2 (fun h => steady c (bde c h))).
  - clear h. intros h; destruct h; try exact I; cbn [bde]; try apply steady_Ret.
    all: apply steady_pmap; first [apply steady_bool | apply steady_byte | apply steady_u16 | apply steady_u32 | apply steady_u64 | apply steady_string, Hc | apply steady_byte_buf
      | apply steady_f32 | apply steady_f64 | apply steady_big_decimal | apply steady_date | apply steady_date_time
      | apply steady_vec, steady_byte
      | apply steady_pmap; first [apply steady_byte | apply steady_u16 | apply steady_u32 | apply steady_u64]].
  - clear h. intros h IH. cbn [bde]. apply steady_pmap, steady_option, IH.
  - clear h. intros h IH. cbn [bde]. apply steady_bind; [apply steady_u64|]. intros len. apply steady_Alloc, steady_pmap, steady_repeatN, IH.
  - clear h. intros h IH. cbn [bde]. apply steady_bind; [apply steady_u64|]. intros len. apply steady_pmap, steady_map_n; assumption.
  - clear h. intros hs IH. cbn [bde]. apply steady_Alloc, steady_pmap, steady_sequence, Forall_map, IH.
  - clear h. intros hs IH. cbn [bde]. apply steady_bind; [apply steady_u32|]. intros i. rewrite pickN_map.
    destruct (pickN hs (as_usize c i)) as [h|] eqn:E; [|apply steady_Fail]. cbn [option_map]. apply pickN_some in E as [Hin _].
    rewrite Forall_forall in IH. apply steady_pmap, IH, Hin.
Qed.

(** A decoder that would need more than what was delivered reports the read error. *)
Lemma steady_short {A} c e (p : prog A) evs s t a r : steady c p -> local c e p -> bytes_ok (s ++ t) -> delivers evs s ->
  run c p (s ++ t) = OOk a r -> (length r < length t)%nat -> exec c p evs = EErr e.
Proof.
  intros Hst Hl Hb D H Hr. apply Hl in H as (u & E & _ & Hp); [|exact Hb].
  assert (Hs : bytes_ok s) by (apply Forall_app in Hb; tauto).
  assert (exists x u2, u = s ++ x :: u2) as (x & u2 & ->).
  { clear - E Hr. revert u E; induction s as [|y s IH]; intros u E; cbn [app] in *.
    - destruct u as [|x u]; [subst; cbn [app] in Hr; lia|]. exists x, u; reflexivity.
    - destruct u as [|z u]; cbn [app] in E; [exfalso; apply (f_equal (@length N)) in E; cbn [length] in E; rewrite app_length in E; lia|].
      injection E as -> E. destruct (IH u E) as (x & u2 & ->). exists x, u2; reflexivity. }
  specialize (Hst evs s Hs D). rewrite (Hp s x u2 eq_refl) in Hst. exact Hst.
Qed.

(** ** Writers *)
Definition faulty (evs : list wev) : Prop := In WvError evs \/ In WvZero evs.
Lemma write_all_spec bs evs :
  let '(out, ok, t) := ev_write_all bs evs in
  incl t evs /\
  if (ok : bool) then out = bs else faulty evs /\ exists x rest, bs = out ++ x :: rest.
Proof.
  revert bs; induction evs as [|v evs IH]; intros [|b bs]; cbn [ev_write_all]; try (split; [apply incl_refl|reflexivity]).
  destruct v as [n| | |].
  - destruct (N.leb_spec (lenN (b :: bs)) (N.max 1 n)) as [Hl|Hl]; [split; [apply incl_tl, incl_refl|reflexivity]|].
    specialize (IH (dropN (N.max 1 n) (b :: bs))). destruct (ev_write_all _ _) as [[out ok] t]. destruct IH as [I IH].
    split; [apply incl_tl, I|]. destruct ok.
    + rewrite IH. apply take_drop.
    + destruct IH as (F & x & rest & E). split; [destruct F; [left|right]; right; assumption|].
      exists x, rest. rewrite <- app_assoc, <- E. symmetry; apply take_drop.
  - specialize (IH (b :: bs)). destruct (ev_write_all _ _) as [[out ok] t]. destruct IH as [I IH]. split; [apply incl_tl, I|].
    destruct ok; [exact IH|]. destruct IH as (F & IH). split; [destruct F; [left|right]; right; assumption|exact IH].
  - split; [apply incl_tl, incl_refl|]. split; [right; left; reflexivity|]. exists b, bs; reflexivity.
  - split; [apply incl_tl, incl_refl|]. split; [left; left; reflexivity|]. exists b, bs; reflexivity.
Qed.
Lemma faulty_incl t evs : incl t evs -> faulty t -> faulty evs.
Proof. intros I [F|F]; [left|right]; apply I, F. Qed.
Lemma wexec_spec w evs : let '(out, r) := wexec w evs in
  (out = wbytes w /\ r = wresult w) \/
  (r = WeErr SEWrite /\ faulty evs /\ exists x rest, wbytes w = out ++ x :: rest).
Proof.
  revert evs; induction w as [|e|p|bs k IH]; intros evs; cbn [wexec wbytes wresult]; auto.
  pose proof (write_all_spec bs evs) as H. destruct (ev_write_all bs evs) as [[out ok] t]. destruct H as [I H]. destruct ok.
  - subst out. specialize (IH t). destruct (wexec k t) as [out' r]. destruct IH as [[-> ->]|(-> & F & x & rest & E)]; [auto|].
    right. split; [reflexivity|]. split; [apply (faulty_incl t); assumption|]. exists x, rest. rewrite E, app_assoc; reflexivity.
  - right. destruct H as (F & x & rest & ->). split; [reflexivity|]. split; [exact F|]. exists x, (rest ++ wbytes k).
    rewrite <- app_assoc; reflexivity.
Qed.

(** Messages before the cut are intact, the one that was cut is reported. *)
Lemma cut_stream c ds vs u x t : wf_cfg c -> 4096 <= heap_limit c ->
  Forall2 (fun d v => wf_dty d = true /\ has_ty c d v = true) ds vs ->
  wbytes (wconcat (map ser vs)) = u ++ x :: t ->
  exists ds1 d ds2 vs1 v vs2 r, ds = ds1 ++ d :: ds2 /\ vs = vs1 ++ v :: vs2 /\ length ds1 = length vs1 /\
    run c (sequence (map (de c) ds1)) u = OOk vs1 r /\ run c (de c d) r = OErr ERead.
Proof.
  intros Hw Hh H; revert u; induction H as [|d v ds vs [Hd Hv] H IH]; intros u E.
  - destruct u; discriminate.
  - destruct (roundtrip c d v Hw Hh Hd Hv) as [Hr P]. cbn [map] in E.
    change (wconcat (ser v :: map ser vs)) with (wseq (ser v) (wconcat (map ser vs))) in E.
    rewrite wbytes_wseq_done in E by exact Hr.
    apply app_split in E as [[t1 E]|(u2 & -> & E)].
    + exists [], d, ds, [], v, vs, u. split; [reflexivity|]. split; [reflexivity|]. split; [reflexivity|]. split; [reflexivity|].
      eapply (proj2 P), E.
    + destruct (IH u2 E) as (ds1 & d' & ds2 & vs1 & v' & vs2 & r & -> & -> & L & R & F).
      exists (d :: ds1), d', ds2, (v :: vs1), v', vs2, r. split; [reflexivity|]. split; [reflexivity|].
      split; [cbn [length]; lia|]. split; [|exact F].
      cbn [map sequence]. rewrite run_bind, (proj1 P). cbn [obind]. rewrite run_bind, R. reflexivity.
Qed.
