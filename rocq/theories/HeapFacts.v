(** * Proofs about memory granted over a whole run. *)
From Coq Require Import String.
From Verif Require Import Base BaseFacts Utf8 Varint VarintFacts Serde PrimFacts SerdeFacts Consume SerdeSize SerdeSafe SerdeMore SpecVarint Header HeaderFacts
  Body SpecBody BodyFacts ArchFacts SpecRequest SpecHeap.
Local Open Scope list_scope.
Local Open Scope N_scope.

(** ** Programs without allocations *)
Fixpoint quiet {A} (p : prog A) : Prop :=
  match p with
  | Ret _ | Fail _ | Crash _ => True
  | ReadExact _ _ k | ReadLimit _ _ k => forall b, quiet (k b)
  | Alloc _ _ => False
  end.
Lemma quiet_bind {A B} (p : prog A) (f : A -> prog B) : quiet p -> (forall a, quiet (f a)) -> quiet (bind p f).
Proof. intros Hp Hf. induction p as [a|e|q|n e k IH|n e k IH|n k IH]; cbn [bind quiet] in *; auto. Qed.
Lemma quiet_pmap {A B} (f : A -> B) p : quiet p -> quiet (pmap f p).
Proof. intros H. apply quiet_bind; [exact H|intros; exact I]. Qed.
Lemma quiet_fold_pos {S} n (f : S -> prog S) s : (forall s, quiet (f s)) -> quiet (fold_pos n f s).
Proof.
  intros H. revert s; induction n as [n IH|n IH|]; intros s; cbn [fold_pos]; [|apply quiet_bind; auto|apply H].
  apply quiet_bind; [apply H|]. intros. apply quiet_bind; auto.
Qed.
Lemma quiet_foldN {S} n (f : S -> prog S) s : (forall s, quiet (f s)) -> quiet (foldN n f s).
Proof. intros H. destruct n; [exact I|apply quiet_fold_pos, H]. Qed.
Lemma quiet_repeatN {A} n (p : prog A) : quiet p -> quiet (repeatN n p).
Proof. intros H. apply quiet_bind; [|intros; exact I]. apply quiet_foldN. intros. apply quiet_bind; [exact H|intros; exact I]. Qed.
Ltac quiet_ifs := repeat match goal with |- context [if ?b then _ else _] => destruct b end.
Lemma quiet_u16 e : quiet (dec_u16 e).
Proof. unfold dec_u16, dec_prefix. cbn [bind quiet]. intros b. quiet_ifs; cbn [bind quiet]; auto; intros; quiet_ifs; cbn [bind quiet]; auto. Qed.
Lemma quiet_u32 e : quiet (dec_u32 e).
Proof. unfold dec_u32, dec_prefix. cbn [bind quiet]. intros b. quiet_ifs; cbn [bind quiet]; auto; intros; quiet_ifs; cbn [bind quiet]; auto. Qed.
Lemma quiet_u64 e : quiet (dec_u64 e).
Proof. unfold dec_u64, dec_prefix. cbn [bind quiet]. intros b. quiet_ifs; cbn [bind quiet]; auto; intros; quiet_ifs; cbn [bind quiet]; auto. Qed.
Lemma quiet_byte : quiet de_byte.
Proof. intros b; exact I. Qed.
Lemma quiet_bool : quiet de_bool.
Proof. apply quiet_bind; [exact quiet_byte|]. intros b. quiet_ifs; exact I. Qed.
Lemma quiet_string c : quiet (de_string c).
Proof. apply quiet_bind; [apply quiet_u64|]. intros len. destruct (len <? STR_MAX); intros b; quiet_ifs; exact I. Qed.
Lemma quiet_vec {A} c (p : prog A) : quiet p -> quiet (de_vec c p).
Proof. intros H. apply quiet_bind; [apply quiet_u64|]. intros n. apply quiet_repeatN, H. Qed.
Lemma quiet_decimal c : quiet (de_big_decimal c).
Proof.
  apply quiet_bind; [apply quiet_vec, quiet_byte|]. intros [|x bs]; [exact I|]. apply quiet_bind; [apply quiet_pmap, quiet_u64|intros; exact I].
Qed.
Lemma quiet_or {A} (o : option A) : quiet (or_overflow o).
Proof. destruct o; exact I. Qed.
Lemma quiet_date c : quiet (de_date c).
Proof.
  apply quiet_bind; [apply quiet_pmap, quiet_u32|]. intros y0. apply quiet_bind; [apply quiet_or|]. intros y.
  apply quiet_bind; [apply quiet_u16|]. intros o0. apply quiet_bind; [apply quiet_or|intros; exact I].
Qed.
Lemma quiet_date_time : quiet de_date_time.
Proof. apply quiet_bind; [apply quiet_pmap, quiet_u64|]. intros t. apply quiet_bind; [apply quiet_u32|intros; exact I]. Qed.
Lemma quiet_allocs {A} c (p : prog A) : quiet p -> forall s, allocs c p s = [].
Proof.
  induction p as [a|e|q|n e k IH|n e k IH|n k IH]; cbn [quiet allocs]; intros H s; auto; [|contradiction].
  destruct (lenN s <? n); auto.
Qed.

(** ** Costs *)
Definition spent {A} (c : cfg) (p : prog A) (s : list N) : N := total (granted c p s).
(** [costs c p al be pe]: a success that reads n bytes was granted at most al + be * n, any other
    outcome at most al + be * (size of the input) + pe. *)
Definition costs {A} (c : cfg) (p : prog A) (al be pe : N) : Prop := forall s, bytes_ok s ->
  match run c p s with
  | OOk a r => lenN r <= lenN s /\ spent c p s <= al + be * (lenN s - lenN r)
  | _ => spent c p s <= al + be * lenN s + pe
  end.

Lemma spent_bind {A B} c (p : prog A) (f : A -> prog B) s :
  spent c (bind p f) s = spent c p s + match run c p s with OOk a r => spent c (f a) r | _ => 0 end.
Proof.
  unfold spent, granted. rewrite allocs_bind, filter_app, total_app. destruct (run c p s); reflexivity.
Qed.
Lemma spent_ext {A B} c (p : prog A) (q : prog B) s : allocs c p s = allocs c q s -> spent c p s = spent c q s.
Proof. unfold spent, granted. intros ->. reflexivity. Qed.
Lemma spent_alloc {A} c n (p : prog A) s :
  spent c (Alloc n p) s = match alloc_result c n with Some _ => 0 | None => n + spent c p s end.
Proof.
  unfold spent, granted, alloc_result. cbn [allocs]. unfold alloc_result.
  destruct (N.ltb_spec (isize_max c) n) as [H|H].
  - cbn [filter]. destruct (N.leb_spec n (isize_max c)); [lia|]. reflexivity.
  - destruct (N.ltb_spec (heap_limit c) n) as [H'|H']; cbn [filter];
      destruct (N.leb_spec n (isize_max c)); try lia; destruct (N.leb_spec n (heap_limit c)); try lia; cbn [andb total filter]; reflexivity.
Qed.
Lemma run_le {A} c (p : prog A) s a r : bytes_ok s -> run c p s = OOk a r -> lenN r <= lenN s.
Proof. intros Hs E. destruct (consumes_any c p s a r Hs E) as (n & En & _). lia. Qed.

Lemma costs_quiet {A} c (p : prog A) : quiet p -> costs c p 0 0 0.
Proof.
  intros H s Hs. assert (E : spent c p s = 0) by (unfold spent, granted; rewrite quiet_allocs by exact H; reflexivity).
  rewrite E. destruct (run c p s) as [a r|e|q] eqn:Er; [|lia..]. split; [eapply run_le; eassumption|lia].
Qed.
Lemma costs_weaken {A} c (p : prog A) a b e a' b' e' : costs c p a b e -> a <= a' -> b <= b' -> e <= e' -> costs c p a' b' e'.
Proof.
  intros H Ha Hb He s Hs. specialize (H s Hs). destruct (run c p s) as [x r|x|x].
  - destruct H as [H1 H2]. split; [exact H1|]. revert H2; generalize (lenN s - lenN r); intros; nia.
  - nia.
  - nia.
Qed.
Lemma costs_bind {A B} c (p : prog A) (f : A -> prog B) a1 b1 e1 a2 b2 e2 b e :
  costs c p a1 b1 e1 -> (forall a, costs c (f a) a2 b2 e2) -> b1 <= b -> b2 <= b -> e1 <= e -> e2 <= e ->
  costs c (bind p f) (a1 + a2) b e.
Proof.
  intros Hp Hf L1 L2 M1 M2 s Hs. rewrite run_bind, spent_bind. specialize (Hp s Hs).
  destruct (run c p s) as [x r|x|x] eqn:E; cbn [obind]; [|nia..].
  destruct Hp as [H1 H2]. specialize (Hf x r (run_rest c p s x r Hs E)). destruct (run c (f x) r) as [y r'|y|y].
  - destruct Hf as [H3 H4]. split; [lia|]. replace (lenN s - lenN r') with (lenN s - lenN r + (lenN r - lenN r')) by lia.
    revert H2 H4; generalize (lenN s - lenN r) (lenN r - lenN r'); intros; nia.
  - revert H2; replace (lenN s) with (lenN s - lenN r + lenN r) at 2 by lia. generalize (lenN s - lenN r); intros; nia.
  - revert H2; replace (lenN s) with (lenN s - lenN r + lenN r) at 2 by lia. generalize (lenN s - lenN r); intros; nia.
Qed.
Lemma costs_pmap {A B} c (f : A -> B) p a b e : costs c p a b e -> costs c (pmap f p) a b e.
Proof.
  intros H. replace a with (a + 0) by lia. eapply costs_bind with (b1 := b) (b2 := 0) (e2 := 0); [exact H| |lia..].
  intros x. apply costs_quiet; exact I.
Qed.
(** A loop whose steps each read at least one byte. *)
Lemma costs_loop {S} c n (f : S -> prog S) s0 al be pe :
  (forall s, costs c (f s) al be pe) -> (al = 0 \/ forall s, consumes c (f s) (fun _ n => 1 <= n)) ->
  costs c (foldN n f s0) 0 (al + be) (al + pe).
Proof.
  intros H Hpos s Hs. rewrite run_foldN, (spent_ext c _ _ s (allocs_foldN c n f s0 s)).
  revert s0 s Hs; induction (N.to_nat n) as [|k IH]; intros s0 s Hs; cbn [iter].
  - cbn [run]. unfold spent, granted. cbn [allocs filter total]. lia.
  - rewrite run_bind, spent_bind. assert (H1 := H s0 s Hs). destruct (run c (f s0) s) as [x r|x|x] eqn:E; cbn [obind]; [|nia..].
    destruct H1 as [H1 H2]. specialize (IH x r (run_rest c _ s x r Hs E)).
    assert (Hn : al = 0 \/ 1 <= lenN s - lenN r).
    { destruct Hpos as [Hz|Hp]; [left; exact Hz|right]. destruct (Hp s0 s x r Hs E) as (m & Em & Hm). lia. }
    destruct (run c (iter k f x) r) as [y r'|y|y].
    + destruct IH as [H3 H4]. split; [lia|]. replace (lenN s - lenN r') with (lenN s - lenN r + (lenN r - lenN r')) by lia.
      revert H2 H4 Hn; generalize (lenN s - lenN r) (lenN r - lenN r'); intros; destruct Hn; nia.
    + revert H2 Hn; replace (lenN s) with (lenN s - lenN r + lenN r) at 3 by lia. generalize (lenN s - lenN r); intros; destruct Hn; nia.
    + revert H2 Hn; replace (lenN s) with (lenN s - lenN r + lenN r) at 3 by lia. generalize (lenN s - lenN r); intros; destruct Hn; nia.
Qed.
Lemma costs_repeatN {A} c n (p : prog A) al be pe :
  costs c p al be pe -> (al = 0 \/ consumes c p (fun _ n => 1 <= n)) -> costs c (repeatN n p) 0 (al + be) (al + pe).
Proof.
  intros H Hpos. replace 0 with (0 + 0) by reflexivity.
  eapply costs_bind with (b1 := al + be) (e1 := al + pe) (b2 := 0) (e2 := 0); [|intros; apply costs_quiet; exact I|lia..].
  apply costs_loop.
  - intros acc. replace al with (al + 0) by lia.
    eapply costs_bind with (b2 := 0) (e2 := 0); [exact H|intros; apply costs_quiet; exact I|lia..].
  - destruct Hpos as [->|Hp]; [left; reflexivity|right]. intros acc. eapply consumes_bind; [exact Hp|]. cbv beta. intros a m Hm.
    apply consumes_Ret. lia.
Qed.
Lemma costs_alloc {A} c n (p : prog A) al be pe : costs c p al be pe -> costs c (Alloc n p) (n + al) be pe.
Proof.
  intros H s Hs. rewrite spent_alloc. cbn [run]. destruct (alloc_result c n); [lia|]. specialize (H s Hs).
  destruct (run c p s); [|lia..]. split; [tauto|lia].
Qed.
Lemma costs_sequence {A X} c (g : X -> prog A) (al be pe : X -> N) l :
  Forall (fun x => costs c (g x) (al x) (be x) (pe x)) l ->
  costs c (sequence (map g l)) (fold_right (fun x n => al x + n) 0 l) (fold_right (fun x n => N.max (be x) n) 0 l)
    (fold_right (fun x n => N.max (pe x) n) 0 l).
Proof.
  induction 1 as [|x l H _ IH]; cbn [map sequence fold_right]; [apply costs_quiet; exact I|].
  eapply costs_bind; [exact H| |apply N.le_max_l|apply N.le_max_r|apply N.le_max_l|apply N.le_max_r].
  intros a. replace (fold_right (fun x n => al x + n) 0 l) with (fold_right (fun x n => al x + n) 0 l + 0) by lia.
  eapply costs_bind with (b2 := 0) (e2 := 0); [exact IH|intros; apply costs_quiet; exact I|lia..].
Qed.
Lemma max_member {X} (f : X -> N) l x : In x l -> f x <= fold_right (fun x n => N.max (f x) n) 0 l.
Proof. induction l as [|y l IH]; cbn [fold_right]; intros []; [subst; lia|specialize (IH H); lia]. Qed.

(** ** Buffers *)
Lemma costs_buffer c : wf_cfg c -> 4096 <= heap_limit c -> costs c (de_byte_buf c) 0 (per_buffer_byte c) 4096.
Proof.
  intros Hw Hh s Hs. rewrite de_byte_buf_unfold, run_bind, spent_bind.
  assert (E0 : spent c (dec_u64 ERead) s = 0) by (unfold spent, granted; rewrite quiet_allocs by apply quiet_u64; reflexivity).
  rewrite E0. destruct (run c (dec_u64 ERead) s) as [len r|e|q] eqn:E; cbn [obind]; [|lia..].
  destruct (consumes_u64 c ERead s len r Hs E) as (n & En & _ & H1 & Hlen).
  rewrite buf_body_run by assumption.
  assert (Hsp : spent c (de_buf_body c len) r <= N.min 4096 len).
  { unfold de_buf_body, BUF_MAX. destruct (N.ltb_spec 4096 len) as [Hl|Hl].
    - rewrite spent_alloc. destruct (alloc_result c 4096); [lia|].
      assert (Eq : allocs c (st <- foldN (len / 4096 + 2) (buf_step c len) (inl ([], 0, 0)) ;; match st with inr r => Ret r | inl _ => Crash PStack end) r = []).
      { apply quiet_allocs, quiet_bind; [|intros []; exact I]. apply quiet_foldN. intros [[[acc rl] pos]|x]; cbn [buf_step]; [|exact I].
        destruct (rl <? as_usize c len); [intros b|]; exact I. }
      unfold spent, granted. rewrite Eq. cbn [filter total]. lia.
    - rewrite spent_alloc. destruct (alloc_result c len); [lia|].
      assert (Eq : allocs c (ReadExact len ERead (fun b => Ret b)) r = []) by (apply quiet_allocs; intros b; exact I).
      unfold spent, granted. rewrite Eq. cbn [filter total]. lia. }
  destruct (N.ltb_spec (lenN r) (buf_total c len)) as [Hl|Hl]; [lia|].
  rewrite lenN_dropN. split; [lia|]. unfold per_buffer_byte. destruct (N.eqb_spec (usize_bits c) 64) as [E64|E64].
  - rewrite buf_total_exact in * by (apply as_usize_id; rewrite E64; exact Hlen). lia.
  - lia.
Qed.

(** ** Bodies *)
Lemma body_costs c h : wf_cfg c -> 4096 <= heap_limit c -> hoccurs is_free_array h = false ->
  costs c (bde c h) (fixed_part c h) (per_byte c h) (unfinished c h).
Proof.
  intros Hw Hh. apply (header_ind2 (fun h => hoccurs is_free_array h = false ->
    costs c (bde c h) (fixed_part c h) (per_byte c h) (unfinished c h))); clear h.
  - intros h; destruct h; try exact I; intros _; cbn [bde fixed_part per_byte unfinished];
      try (apply costs_pmap; first [apply costs_buffer; assumption|apply costs_quiet; first [apply quiet_bool|apply quiet_byte|apply quiet_u16|apply quiet_u32|apply quiet_u64
        |apply quiet_pmap; first [apply quiet_byte|apply quiet_u16|apply quiet_u32|apply quiet_u64]|intros ?; exact I
        |apply quiet_string|apply quiet_vec, quiet_byte|apply quiet_decimal|apply quiet_date|apply quiet_date_time]]).
    apply costs_quiet; exact I.
  - intros h IH Hf. cbn [hoccurs is_free_array orb] in Hf. cbn [bde fixed_part per_byte unfinished]. apply costs_pmap.
    replace (fixed_part c h) with (0 + fixed_part c h) by lia.
    eapply costs_bind with (b1 := 0) (e1 := 0) (b2 := per_byte c h) (e2 := unfinished c h); [apply costs_quiet, quiet_bool| |lia..].
    intros []; [apply costs_pmap, IH, Hf|]. eapply costs_weaken; [apply costs_quiet; exact I|lia..].
  - intros h IH Hf. cbn [hoccurs is_free_array] in Hf. apply orb_false_elim in Hf as [Hocc Hf]. apply negb_false_iff in Hocc. specialize (IH Hf).
    cbn [bde fixed_part per_byte unfinished].
    intros s Hs. rewrite run_bind, spent_bind.
    assert (E0 : spent c de_u64 s = 0) by (unfold spent, granted; rewrite quiet_allocs by apply quiet_u64; reflexivity).
    rewrite E0. destruct (run c de_u64 s) as [len r|e|q] eqn:E; cbn [obind]; [|nia..].
    assert (Hr := run_rest c _ s len r Hs E). assert (Hle := run_le c _ s len r Hs E).
    cbn [run]. rewrite spent_alloc. destruct (alloc_result c (as_usize c len * size_of_body c)) eqn:Ea; [nia|].
    assert (Hg : as_usize c len * size_of_body c <= heap_limit c).
    { unfold alloc_result in Ea. destruct (isize_max c <? _); [discriminate|]. destruct (N.ltb_spec (heap_limit c) (as_usize c len * size_of_body c)); [discriminate|assumption]. }
    assert (Hc := costs_pmap c BArray _ _ _ _ (costs_repeatN c len (bde c h) _ _ _ IH (or_intror (hoccupies_pos c h Hocc)))).
    specialize (Hc r Hr). destruct (run c (pmap BArray (repeatN len (bde c h))) r) as [b r'|e|q] eqn:Eb; [|nia..].
    destruct Hc as [H1 H2]. split; [lia|].
    assert (Hlen : len <= lenN r - lenN r').
    { apply run_pmap_ok in Eb as (l & Eb & _). 
      destruct (consumes_repeatN c len (bde c h) (fun _ => 1) (hoccupies_pos c h Hocc) r l r' Hr Eb) as (m & Em & Hl & Hm).
      assert (Hsum : forall l : list body, sumN (fun _ => 1) l = lenN l).
      { clear. induction l as [|x l IH]; [reflexivity|]. cbn [sumN]. rewrite IH. unfold lenN. cbn [length]. lia. }
      rewrite Hsum in Hm. lia. }
    assert (Hu : as_usize c len <= len) by (unfold as_usize; apply N.mod_le; destruct (usize_bits_cases c Hw) as [->| ->]; discriminate).
    replace (lenN s - lenN r') with (lenN s - lenN r + (lenN r - lenN r')) by lia.
    assert (Hmul := N.mul_le_mono_r _ _ (size_of_body c) (N.le_trans _ _ _ Hu Hlen)).
    revert H2 Hmul; generalize (lenN s - lenN r) (lenN r - lenN r') (as_usize c len * size_of_body c); intros; nia.
  - intros h IH Hf. cbn [hoccurs is_free_array orb] in Hf. specialize (IH Hf). cbn [bde fixed_part per_byte unfinished].
    replace 0 with (0 + 0) by reflexivity.
    eapply costs_bind with (b1 := 0) (e1 := 0) (b2 := fixed_part c h + per_byte c h) (e2 := fixed_part c h + unfinished c h);
      [apply costs_quiet, quiet_u64| |lia..].
    intros len. apply costs_pmap. apply costs_loop.
    + intros m. replace (fixed_part c h) with (0 + (fixed_part c h + 0)) by lia.
      eapply costs_bind with (b1 := 0) (e1 := 0) (b2 := per_byte c h) (e2 := unfinished c h); [apply costs_quiet, quiet_string| |lia..].
      intros k. eapply costs_bind with (b2 := 0) (e2 := 0); [exact IH|intros; apply costs_quiet; exact I|lia..].
    + right. intros m. rewrite de_string_unfold. apply consumes_then, consumes_then. eapply consumes_weaken; [apply consumes_u64|cbv beta; tauto].
  - intros hs IH Hf. cbn [hoccurs is_free_array orb] in Hf. cbn [bde fixed_part per_byte unfinished].
    apply costs_alloc, costs_pmap, costs_sequence. rewrite Forall_forall in *. intros h Hin. apply IH; [exact Hin|].
    destruct (hoccurs is_free_array h) eqn:E; [|reflexivity]. rewrite <- Hf. symmetry. apply existsb_exists. exists h; auto.
  - intros hs IH Hf. cbn [hoccurs is_free_array orb] in Hf. cbn [bde fixed_part per_byte unfinished].
    match goal with |- costs c _ ?a ?b ?e => replace a with (0 + a) by lia;
      eapply costs_bind with (b1 := 0) (e1 := 0) (b2 := b) (e2 := e); [apply costs_quiet, quiet_u32| |lia..] end.
    intros i. rewrite pickN_map. destruct (pickN hs (as_usize c i)) as [h|] eqn:E; cbn [option_map].
    + apply pickN_some in E as [Hin _]. apply costs_pmap. rewrite Forall_forall in IH.
      eapply costs_weaken; [apply IH; [exact Hin|]|apply max_member, Hin..].
      destruct (hoccurs is_free_array h) eqn:E'; [|reflexivity]. rewrite <- Hf. symmetry. apply existsb_exists. exists h; auto.
    + eapply costs_weaken; [apply costs_quiet; exact I|lia..].
Qed.

(** ** Typed values *)
Definition frugal {A} (c : cfg) (p : prog A) : Prop := costs c p 0 (per_buffer_byte c) 4096.
Lemma frugal_quiet {A} c (p : prog A) : quiet p -> frugal c p.
Proof. intros H. eapply costs_weaken; [apply costs_quiet, H|lia..]. Qed.
Lemma frugal_bind {A B} c (p : prog A) (f : A -> prog B) : frugal c p -> (forall a, frugal c (f a)) -> frugal c (bind p f).
Proof. intros Hp Hf. unfold frugal. replace 0 with (0 + 0) by reflexivity. eapply costs_bind; [exact Hp|exact Hf|apply N.le_refl..]. Qed.
Lemma frugal_pmap {A B} c (f : A -> B) p : frugal c p -> frugal c (pmap f p).
Proof. apply costs_pmap. Qed.
Lemma frugal_foldN {S} c n (f : S -> prog S) s : (forall s, frugal c (f s)) -> frugal c (foldN n f s).
Proof. intros H. apply (costs_loop c n f s 0 _ 4096 H). left; reflexivity. Qed.
Lemma frugal_repeatN {A} c n (p : prog A) : frugal c p -> frugal c (repeatN n p).
Proof. intros H. apply (costs_repeatN c n p 0 _ 4096 H). left; reflexivity. Qed.
Lemma frugal_vec {A} c (p : prog A) : frugal c p -> frugal c (de_vec c p).
Proof. intros H. apply frugal_bind; [apply frugal_quiet, quiet_u64|]. intros. apply frugal_repeatN, H. Qed.
Lemma frugal_map {A} c (p : prog A) : frugal c p -> frugal c (de_map c p).
Proof.
  intros H. apply frugal_bind; [apply frugal_quiet, quiet_u64|]. intros n. apply frugal_foldN. intros m.
  apply frugal_bind; [apply frugal_quiet, quiet_string|]. intros k. apply frugal_bind; [exact H|intros; apply frugal_quiet; exact I].
Qed.
Lemma frugal_sequence {A} c (ps : list (prog A)) : Forall (frugal c) ps -> frugal c (sequence ps).
Proof.
  induction 1 as [|p ps Hp _ IH]; cbn [sequence]; [apply frugal_quiet; exact I|].
  apply frugal_bind; [exact Hp|]; intros a. apply frugal_bind; [exact IH|]; intros; apply frugal_quiet; exact I.
Qed.
Lemma frugal_struct_loop {A} c keys (fs : list (string * prog A)) slots :
  Forall (fun nf => frugal c (snd nf)) fs -> frugal c (struct_loop keys fs slots).
Proof.
  intros Hf; revert slots; induction keys as [|k ks IH]; intros slots; cbn [struct_loop]; [apply frugal_quiet; exact I|].
  destruct (find_field k fs) as [[i p]|] eqn:E; [|apply frugal_quiet; exact I]. apply find_field_in, nth_error_In in E as Hin.
  destruct (nth_error slots i) as [[x|]|]; try (apply frugal_quiet; exact I). apply frugal_bind; [|intros; apply IH].
  rewrite Forall_forall in Hf. apply (Hf _ Hin).
Qed.
Lemma quiet_fill_missing {A} (miss slots : list (option A)) : quiet (fill_missing miss slots).
Proof.
  revert slots; induction miss as [|m ms IH]; intros [|s ss]; cbn [fill_missing]; try exact I.
  destruct s as [a|]; [apply quiet_bind; [apply IH|intros; exact I]|].
  destruct m as [a|]; [apply quiet_bind; [apply IH|intros; exact I]|exact I].
Qed.
Lemma de_costs c d : wf_cfg c -> 4096 <= heap_limit c -> frugal c (de c d).
Proof.
  intros Hw Hh. induction d using dty_ind2; cbn [de]; try (apply frugal_quiet; exact I).
  all: try (apply frugal_pmap; first [apply costs_buffer; assumption
      | apply frugal_quiet; first [apply quiet_bool | apply quiet_byte | apply quiet_u16 | apply quiet_u32 | apply quiet_u64 | apply quiet_string
      | apply quiet_pmap; first [apply quiet_byte | apply quiet_u16 | apply quiet_u32 | apply quiet_u64]
      | apply quiet_vec, quiet_byte | apply quiet_decimal | apply quiet_date | apply quiet_date_time
      | intros ?; exact I]]).
  - apply frugal_pmap, frugal_quiet, quiet_bind; [apply quiet_pmap, quiet_u64|]. intros z. destruct (in_s _ z); exact I.
  - apply frugal_pmap, frugal_quiet, quiet_bind; [apply quiet_u64|]. intros z. destruct (z <? _); exact I.
  - apply frugal_pmap, frugal_quiet, quiet_bind; [apply quiet_string|]. intros s. destruct (next_char s); exact I.
  - apply frugal_pmap, frugal_bind; [apply frugal_quiet, quiet_bool|]. intros [|]; [apply frugal_pmap, IHd|apply frugal_quiet; exact I].
  - apply frugal_pmap, IHd.
  - apply frugal_pmap, frugal_vec, IHd.
  - apply frugal_pmap, frugal_sequence, Forall_map; assumption.
  - apply frugal_pmap, frugal_sequence, Forall_map; assumption.
  - apply frugal_pmap, frugal_map, IHd.
  - apply frugal_pmap, frugal_bind; [|intros; apply frugal_quiet, quiet_fill_missing].
    apply frugal_struct_loop, Forall_map. eapply Forall_impl; [|exact H]. cbn [snd]. auto.
  - apply frugal_bind; [apply frugal_quiet, quiet_u16|]. intros i. rewrite pickN_map.
    destruct (pickN vs i) as [[k dp]|] eqn:E; [|apply frugal_quiet; exact I]. cbn [option_map fst snd].
    apply pickN_some in E as [Hin _]. rewrite Forall_forall in H. apply frugal_pmap, (H _ Hin).
Qed.

(** ** Reached *)
Fixpoint arrays (k : nat) : header := match k with O => HBoolean | S k => HArray (arrays k) end.
Fixpoint counts (k : nat) (n : N) : list N := match k with O => [] | S k => varint_bytes 8 n ++ counts k n end.
Lemma arrays_spent c n : wf_cfg c -> usize_bits c = 64 -> 1 <= n < 2 ^ 64 -> alloc_result c (n * size_of_body c) = None ->
  forall k, spent c (bde c (arrays k)) (counts k n) = N.of_nat k * (n * size_of_body c) /\ run c (bde c (arrays k)) (counts k n) = OErr ERead.
Proof.
  intros Hw H64 [H1 Hn] Ha. induction k as [|k [IHs IHr]]; [split; reflexivity|].
  assert (Eu : as_usize c n = n) by (apply as_usize_id; rewrite H64; exact Hn).
  cbn [arrays counts bde]. rewrite spent_bind, run_bind. unfold de_u64. rewrite run_u64_bytes by exact Hn. cbn [obind run].
  rewrite spent_alloc, Eu, Ha.
  assert (E0 : spent c (dec_u64 ERead) (varint_bytes 8 n ++ counts k n) = 0) by (unfold spent, granted; rewrite quiet_allocs by apply quiet_u64; reflexivity).
  assert (Es : spent c (pmap BArray (repeatN n (bde c (arrays k)))) (counts k n) = spent c (rep (N.to_nat n) (bde c (arrays k))) (counts k n)).
  { apply spent_ext. rewrite allocs_pmap, allocs_repeatN. reflexivity. }
  rewrite E0, Es, run_pmap, run_repeatN. destruct (N.to_nat n) as [|m] eqn:Em; [lia|]. cbn [rep].
  rewrite spent_bind, run_bind, IHr, IHs. cbn [obind]. split; [lia|reflexivity].
Qed.
Lemma counts_size k n : n < 2 ^ 64 -> (length (counts k n) <= 9 * k)%nat /\ bytes_ok (counts k n).
Proof.
  intros Hn. assert (Hm : varint_m 8) by (unfold varint_m; auto). induction k as [|k [IH1 IH2]]; cbn [counts]; [split; [cbn [length]; lia|constructor]|].
  assert (L := varint_bytes_len 8 n Hm Hn). split; [rewrite app_length; lia|]. apply Forall_app. split; [apply varint_bytes_ok; assumption|exact IH2].
Qed.
Lemma arrays_not_free k : hoccurs is_free_array (arrays k) = false.
Proof.
  induction k as [|k IH]; [reflexivity|]. cbn [arrays hoccurs is_free_array]. rewrite IH, orb_false_r, negb_false_iff.
  destruct k; reflexivity.
Qed.
Lemma u64_spent c s : spent c (dec_u64 ERead) s = 0.
Proof. unfold spent, granted. rewrite quiet_allocs by apply quiet_u64. reflexivity. Qed.
Lemma units_spent c n : wf_cfg c -> usize_bits c = 64 -> n < 2 ^ 64 ->
  vec_room c n = true ->
  exists s b, (length s <= 9)%nat /\ bytes_ok s /\ run c (bde c (HArray HUnit)) s = OOk b [] /\
    total (granted c (bde c (HArray HUnit)) s) = n * size_of_body c.
Proof.
  intros Hw H64 Hn Hv. assert (Hm : varint_m 8) by (unfold varint_m; auto).
  exists (varint_bytes 8 n ++ []). assert (Eu : as_usize c n = n) by (apply as_usize_id; rewrite H64; exact Hn).
  assert (Ha := proj1 (vec_room_alloc c n) Hv).
  exists (BArray (repeat BUnit (N.to_nat n))). split; [|split; [|split]].
  - rewrite app_nil_r. apply varint_bytes_len; assumption.
  - rewrite app_nil_r. apply varint_bytes_ok; assumption.
  - apply unit_array; [exact Hv|rewrite H64; exact Hn|exact Hn].
  - change (spent c (bde c (HArray HUnit)) (varint_bytes 8 n ++ []) = n * size_of_body c).
    cbn [bde]. rewrite spent_bind. unfold de_u64. rewrite u64_spent, run_u64_bytes by exact Hn. rewrite spent_alloc, Eu, Ha.
    assert (Es : spent c (pmap BArray (repeatN n (Ret BUnit))) [] = 0).
    { unfold spent, granted. rewrite quiet_allocs by (apply quiet_pmap, quiet_repeatN; exact I). reflexivity. }
    rewrite Es. lia.
Qed.
Lemma buffer_reached c n : wf_cfg c -> 4096 <= heap_limit c -> usize_bits c = 64 -> 1 <= n < 2 ^ 64 ->
  exists s, (length s <= 9)%nat /\ bytes_ok s /\ run c (de c DByteBuf) s = OErr ERead /\
    total (granted c (de c DByteBuf) s) = N.min n 4096.
Proof.
  intros Hw Hh H64 [H1 Hn]. assert (Hm : varint_m 8) by (unfold varint_m; auto). exists (varint_bytes 8 n ++ []).
  assert (Eu : as_usize c n = n) by (apply as_usize_id; rewrite H64; exact Hn).
  split; [rewrite app_nil_r; apply varint_bytes_len; assumption|]. split; [rewrite app_nil_r; apply varint_bytes_ok; assumption|]. split.
  - cbn [de]. rewrite run_pmap, de_byte_buf_unfold, run_bind, run_u64_bytes by exact Hn. cbn [obind]. rewrite buf_body_run by assumption.
    rewrite buf_total_exact by exact Eu. destruct (N.ltb_spec (lenN (@nil N)) n); [reflexivity|]. cbn in *; lia.
  - change (spent c (de c DByteBuf) (varint_bytes 8 n ++ []) = N.min n 4096).
    assert (Es : spent c (de c DByteBuf) (varint_bytes 8 n ++ []) = spent c (de_byte_buf c) (varint_bytes 8 n ++ [])) by (apply spent_ext, allocs_pmap).
    rewrite Es, de_byte_buf_unfold, spent_bind, u64_spent, run_u64_bytes by exact Hn. unfold de_buf_body, BUF_MAX.
    assert (Hok : forall m, m <= 4096 -> alloc_result c m = None).
    { intros m Hm'. unfold alloc_result, isize_max. rewrite H64. destruct (N.ltb_spec (2 ^ (64 - 1) - 1) m) as [H|H]; [exfalso; revert H; apply N.le_ngt; etransitivity; [exact Hm'|discriminate]|].
      destruct (N.ltb_spec (heap_limit c) m); [lia|reflexivity]. }
    destruct (N.ltb_spec 4096 n) as [Hl|Hl]; rewrite spent_alloc, Hok by lia.
    + assert (Eq : allocs c (st <- foldN (n / 4096 + 2) (buf_step c n) (inl ([], 0, 0)) ;; match st with inr r => Ret r | inl _ => Crash PStack end) [] = []).
      { apply quiet_allocs, quiet_bind; [|intros []; exact I]. apply quiet_foldN. intros [[[acc rl] pos]|x]; cbn [buf_step]; [|exact I].
        destruct (rl <? as_usize c n); [intros b|]; exact I. }
      unfold spent, granted. rewrite Eq. cbn [filter total]. lia.
    + assert (Eq : allocs c (ReadExact n ERead (fun b => Ret b)) [] = []) by (apply quiet_allocs; intros b; exact I).
      unfold spent, granted. rewrite Eq. cbn [filter total]. lia.
Qed.
