(** * Memory asked for while reading: proofs. *)
From Coq Require Import String.
From Verif Require Import Base BaseFacts Varint VarintFacts Utf8 Serde SerdeFacts SerdeMore SerdeSafe SerdeSize SerdeProps Typing Header HeaderFacts Body BodyFacts Consume PrimFacts SpecDty SpecRequest
  SpecVarint ArchFacts SpecBody SpecHeap HeapFacts Grow SpecGrow.
Local Open Scope list_scope.
Local Open Scope N_scope.

(** ** The same program with more requests *)
Inductive adds {A B} (R : A -> B -> Prop) : prog A -> prog B -> Prop :=
| ad_ret a b : R a b -> adds R (Ret a) (Ret b)
| ad_fail e : adds R (Fail e) (Fail e)
| ad_crash q : adds R (Crash q) (Crash q)
| ad_exact n e k k' : (forall bs, adds R (k bs) (k' bs)) -> adds R (ReadExact n e k) (ReadExact n e k')
| ad_limit n e k k' : (forall bs, adds R (k bs) (k' bs)) -> adds R (ReadLimit n e k) (ReadLimit n e k')
| ad_alloc n k k' : adds R k k' -> adds R (Alloc n k) (Alloc n k')
| ad_more n k q : adds R k q -> adds R (Alloc n k) q.

Lemma adds_same {A} (p : prog A) : adds eq p p.
Proof. induction p; constructor; auto. Qed.
Lemma adds_bind {A B A' B'} (R : A -> B -> Prop) (Q : A' -> B' -> Prop) p q f g :
  adds R p q -> (forall a b, R a b -> adds Q (f a) (g b)) -> adds Q (bind p f) (bind q g).
Proof. intros H Hf. induction H; cbn [bind]; try (constructor; auto; fail). auto. Qed.
Lemma adds_then {A B B'} (p q : prog A) (f : A -> prog B) (g : A -> prog B') (Q : B -> B' -> Prop) :
  adds eq p q -> (forall a, adds Q (f a) (g a)) -> adds Q (bind p f) (bind q g).
Proof. intros H Hf. eapply adds_bind; [exact H|]. intros a b ->. apply Hf. Qed.
Lemma adds_pmap {A B} (f : A -> B) p q : adds eq p q -> adds eq (pmap f p) (pmap f q).
Proof. intros H. apply adds_then; [exact H|]. intros a. constructor. reflexivity. Qed.
Lemma adds_fold {S T} (R : S -> T -> Prop) f g n s t :
  (forall s t, R s t -> adds R (f s) (g t)) -> R s t -> adds R (foldN n f s) (foldN n g t).
Proof.
  intros H Hst. destruct n as [|n]; [constructor; exact Hst|]. cbn [foldN]. revert s t Hst.
  induction n as [n IH|n IH|]; intros s t Hst; cbn [fold_pos].
  - eapply adds_bind; [apply H, Hst|]. intros a b Hab. eapply adds_bind; [apply IH, Hab|exact IH].
  - eapply adds_bind; [apply IH, Hst|exact IH].
  - apply H, Hst.
Qed.
Lemma adds_sequence {A} (ps qs : list (prog A)) : Forall2 (adds eq) ps qs -> adds eq (sequence ps) (sequence qs).
Proof.
  induction 1 as [|p q ps qs H _ IH]; cbn [sequence]; [constructor; reflexivity|].
  apply adds_then; [exact H|]. intros a. apply adds_then; [exact IH|]. intros l. constructor. reflexivity.
Qed.
Lemma adds_asks {A} l (p q : prog A) : adds eq p q -> adds eq (asks l p) q.
Proof. induction l; cbn [asks]; [auto|]. intros H. apply ad_more. auto. Qed.
Lemma adds_reserve {A B} (R : A -> B -> Prop) size len cap extra k q : (forall cap', adds R (k cap') q) -> adds R (reserve size len cap extra k) q.
Proof. intros H. unfold reserve. destruct (size =? 0); [apply H|]. destruct (cap <? len + extra); [apply ad_more|]; apply H. Qed.

Lemma adds_run {A} c (p q : prog A) : adds eq p q -> forall s,
  run c p s = run c q s \/ exists n x, In n (allocs c p s) /\ alloc_result c n = Some x /\ run c p s = OPanic x.
Proof.
  induction 1 as [a b ->|e|x|n e k k' _ IH|n e k k' _ IH|n k k' _ IH|n k q _ IH]; intros s; try (left; reflexivity); cbn [run allocs].
  - destruct (lenN s <? n); [left; reflexivity|apply IH].
  - apply IH.
  - destruct (alloc_result c n) as [x|] eqn:E; [left; reflexivity|]. destruct (IH s) as [H|(m & x & Hm & H1 & H2)]; [left; exact H|].
    right. exists m, x. auto using in_cons.
  - destruct (alloc_result c n) as [x|] eqn:E; [right; exists n, x; auto using in_eq|].
    destruct (IH s) as [H|(m & x & Hm & H1 & H2)]; [left; exact H|]. right. exists m, x. auto using in_cons.
Qed.
Lemma adds_consumes {A} c (p q : prog A) R : adds eq p q -> consumes c q R -> consumes c p R.
Proof.
  intros H Hq s a r Hs E. destruct (adds_run c p q H s) as [E'|(n & x & _ & _ & E')]; rewrite E in E'; [|discriminate].
  apply (Hq s a r Hs). symmetry. exact E'.
Qed.

(** ** Growing readers add requests only *)
Lemma adds_push {A} size n cap (p q : prog A) : adds eq p q -> adds eq (g_push size n cap p) (repeatN n q).
Proof.
  intros H. unfold g_push, repeatN. eapply adds_bind with (R := fun st acc => fst (fst st) = acc).
  - apply adds_fold; [|reflexivity]. intros [[acc len] k] acc' E. cbn [fst] in E; subst acc'. cbn [push_step].
    apply adds_then; [exact H|]. intros a. apply adds_reserve. intros k'. constructor. reflexivity.
  - intros [[acc len] k] acc' E. cbn [fst] in *; subst. constructor. reflexivity.
Qed.
Lemma adds_vec {A} c size (p q : prog A) : adds eq p q -> adds eq (g_vec c size p) (de_vec c q).
Proof. intros H. apply adds_then; [apply adds_same|]. intros n. apply adds_push, H. Qed.
Lemma adds_string c m : adds eq (g_string c m) (de_string c).
Proof.
  apply adds_then; [apply adds_same|]. intros n. destruct (n <? STR_MAX); constructor; intros b; [apply ad_more|apply adds_asks]; apply adds_same.
Qed.
Lemma adds_char c m : adds eq (g_char c m) (de_char c).
Proof. apply adds_then; [apply adds_string|]. intros s. apply adds_same. Qed.
Lemma adds_buf c : adds eq (g_byte_buf c) (de_byte_buf c).
Proof.
  apply adds_then; [apply adds_same|]. intros len. destruct (BUF_MAX <? len); [|apply adds_same]. apply ad_alloc.
  eapply adds_bind with (R := fun st st' => match st, st' with inl (acc, l, p, _), inl x => (acc, l, p) = x | inr r, inr r' => r = r' | _, _ => False end).
  - apply adds_fold; [|reflexivity]. intros [[[[acc l] p] k]|r] [[[acc' l'] p']|r'] E; try contradiction.
    + injection E as <- <- <-. cbn [gbuf_step buf_step]. destruct (l <? as_usize c len); [|constructor; reflexivity].
      constructor. intros b. apply adds_reserve. intros k'. constructor. reflexivity.
    + subst r'. constructor. reflexivity.
  - intros [[[[acc l] p] k]|r] [[[acc' l'] p']|r'] E; try contradiction; [apply ad_crash|]. subst. constructor. reflexivity.
Qed.
Lemma adds_map_n {A} c m size n (p q : prog A) : adds eq p q -> adds eq (g_map_n c m size n p) (de_map_n c n q).
Proof.
  intros H. unfold g_map_n, de_map_n. apply adds_fold; [|reflexivity]. intros l l' <-.
  apply adds_then; [apply adds_string|]. intros k. apply adds_then; [exact H|]. intros v. apply adds_asks. constructor. reflexivity.
Qed.
Lemma adds_decimal c : adds eq (g_big_decimal c) (de_big_decimal c).
Proof. apply adds_then; [apply adds_vec, adds_same|]. intros s. apply adds_same. Qed.
Lemma adds_find {A} key (fs gs : list (string * prog A)) : Forall2 (fun f g => fst f = fst g /\ adds eq (snd f) (snd g)) fs gs ->
  match find_field key fs, find_field key gs with
  | Some (i, p), Some (j, q) => i = j /\ adds eq p q
  | None, None => True
  | _, _ => False
  end.
Proof.
  induction 1 as [|[n p] [n' q] fs gs [E H] _ IH]; cbn [find_field]; [exact I|]. cbn [fst snd] in *; subst n'.
  destruct (String.eqb key n); [auto|].
  destruct (find_field key fs) as [[i x]|], (find_field key gs) as [[j y]|]; try contradiction; [|exact I]. destruct IH as [-> IH]. auto.
Qed.
Lemma adds_struct_loop {A} keys (fs gs : list (string * prog A)) : Forall2 (fun f g => fst f = fst g /\ adds eq (snd f) (snd g)) fs gs ->
  forall slots, adds eq (struct_loop keys fs slots) (struct_loop keys gs slots).
Proof.
  intros H. induction keys as [|key keys IH]; intros slots; cbn [struct_loop]; [constructor; reflexivity|].
  assert (F := adds_find key fs gs H). destruct (find_field key fs) as [[i x]|], (find_field key gs) as [[j y]|]; try contradiction; [|apply adds_same].
  destruct F as [<- F]. destruct (nth_error slots i) as [[z|]|]; try apply adds_same. apply adds_then; [exact F|]. intros a. apply IH.
Qed.
Lemma F2_map_both {A B C} (f : A -> B) (g : A -> C) (R : B -> C -> Prop) l : Forall (fun x => R (f x) (g x)) l -> Forall2 R (map f l) (map g l).
Proof. induction 1; cbn [map]; constructor; auto. Qed.

Lemma gde_adds c m d : adds eq (gde c m d) (de c d).
Proof.
  induction d using dty_ind2; cbn [gde]; try apply adds_same; cbn [de].
  - apply adds_pmap, adds_char.
  - apply adds_pmap, adds_string.
  - apply adds_pmap, adds_buf.
  - apply adds_pmap, adds_then; [apply adds_same|]. intros [|]; [apply adds_pmap, IHd|apply adds_same].
  - apply adds_pmap, IHd.
  - apply adds_pmap, adds_vec, IHd.
  - apply adds_pmap, adds_sequence, F2_map_both. assumption.
  - apply adds_pmap, adds_sequence, F2_map_both. assumption.
  - apply adds_pmap, adds_then; [apply adds_same|]. intros n. apply adds_map_n, IHd.
  - apply adds_pmap. unfold de_struct. rewrite !map_map. apply adds_then; [|intros; apply adds_same].
    apply adds_struct_loop, F2_map_both. eapply Forall_impl; [|eassumption]. cbn [fst snd]. auto.
  - apply adds_then; [apply adds_same|]. intros i. rewrite !pickN_map. destruct (pickN vs i) as [[k d]|] eqn:E; [|apply adds_same]. cbn [option_map].
    apply pickN_some in E as [Hin _]. rewrite Forall_forall in H. apply adds_pmap, (H _ Hin).
  - apply adds_pmap, adds_vec, adds_same.
  - apply adds_pmap, adds_vec, adds_same.
  - apply adds_pmap, adds_decimal.
Qed.
Lemma adds_boxed c p q : adds eq p q -> adds eq (boxed c p) q.
Proof.
  intros H. unfold boxed. induction H; cbn [bind]; try (constructor; auto; fail).
  apply ad_more. constructor. exact H.
Qed.
Lemma gbde_adds c m h : adds eq (gbde c m h) (bde c h).
Proof.
  apply (header_ind2 (fun h => adds eq (gbde c m h) (bde c h))); clear h.
  - intros h; destruct h; try exact I; cbn [gbde]; try apply adds_same; cbn [bde]; apply adds_pmap;
      first [apply adds_string|apply adds_buf|apply adds_vec, adds_same|apply adds_decimal].
  - intros h IH. cbn [gbde bde]. apply adds_pmap, adds_then; [apply adds_same|]. intros [|]; [apply adds_pmap, adds_boxed, IH|apply adds_same].
  - intros h IH. cbn [gbde bde]. apply adds_then; [apply adds_same|]. intros n. apply ad_alloc, adds_pmap, adds_push, IH.
  - intros h IH. cbn [gbde bde]. apply adds_then; [apply adds_same|]. intros n. apply adds_pmap, adds_map_n, IH.
  - intros hs IH. cbn [gbde bde]. apply ad_alloc, adds_pmap, adds_sequence, F2_map_both. exact IH.
  - intros hs IH. cbn [gbde bde]. apply adds_then; [apply adds_same|]. intros i. rewrite !pickN_map.
    destruct (pickN hs (as_usize c i)) as [h|] eqn:E; [|apply adds_same]. cbn [option_map]. apply pickN_some in E as [Hin _].
    rewrite Forall_forall in IH. apply adds_pmap, adds_boxed, (IH _ Hin).
Qed.

(** ** Accounts: [pre] is what is there before, [post] what is left, [be] comes in with each byte read;
    a run that does not end well may overdraw by [pe]. [flt] selects the requests that count. *)
Definition cost {A} (c : cfg) (flt : N -> bool) (p : prog A) (s : list N) : N := total (filter flt (allocs c p s)).
Definition pays {A} (c : cfg) (flt : N -> bool) (p : prog A) (pre : N) (post : A -> N) (be pe : N) : Prop := forall s, bytes_ok s ->
  match run c p s with
  | OOk a r => lenN r <= lenN s /\ cost c flt p s + post a <= pre + be * (lenN s - lenN r)
  | _ => cost c flt p s <= pre + be * lenN s + pe
  end.

Section Pays.
Variables (c : cfg) (flt : N -> bool).

Lemma cost_bind {A B} (p : prog A) (f : A -> prog B) s :
  cost c flt (bind p f) s = cost c flt p s + match run c p s with OOk a r => cost c flt (f a) r | _ => 0 end.
Proof. unfold cost. rewrite allocs_bind, filter_app, total_app. destruct (run c p s); reflexivity. Qed.
Lemma cost_alloc {A} n (p : prog A) s : cost c flt (Alloc n p) s <= n + match alloc_result c n with Some _ => 0 | None => cost c flt p s end.
Proof. unfold cost. cbn [allocs filter]. destruct (flt n), (alloc_result c n); cbn [total filter]; lia. Qed.

Lemma pays_weaken {A} (p : prog A) pre post be pe pre' post' be' pe' :
  pays c flt p pre post be pe -> pre <= pre' -> (forall a, post' a <= post a) -> be <= be' -> pe <= pe' -> pays c flt p pre' post' be' pe'.
Proof.
  intros H H1 H2 H3 H4 s Hs. specialize (H s Hs). destruct (run c p s) as [a r|e|q]; [|nia..].
  destruct H as [Hl H]. split; [exact Hl|]. specialize (H2 a). revert H. generalize (lenN s - lenN r). intros; nia.
Qed.
Lemma pays_quiet {A} (p : prog A) pre post be pe : quiet p -> (forall a, post a <= pre) -> pays c flt p pre post be pe.
Proof.
  intros H Hp s Hs. assert (E : cost c flt p s = 0) by (unfold cost; rewrite quiet_allocs by exact H; reflexivity).
  rewrite E. destruct (run c p s) as [a r|e|q] eqn:Er; [|apply N.le_0_l..]. specialize (Hp a). split; [eapply run_le; eassumption|]. generalize (be * (lenN s - lenN r)); lia.
Qed.
Lemma pays_ret {A} (a : A) pre (post : A -> N) be pe : post a <= pre -> pays c flt (Ret a) pre post be pe.
Proof. intros H s Hs. cbn [run]. unfold cost. cbn [allocs filter total]. lia. Qed.
Lemma pays_bind {A B} (p : prog A) (f : A -> prog B) pre mid post be pe :
  pays c flt p pre mid be pe -> (forall a, pays c flt (f a) (mid a) post be pe) -> pays c flt (bind p f) pre post be pe.
Proof.
  intros Hp Hf s Hs. rewrite run_bind, cost_bind. specialize (Hp s Hs).
  destruct (run c p s) as [x r|x|x] eqn:E; cbn [obind]; [|lia..].
  destruct Hp as [H1 H2]. specialize (Hf x r (run_rest c p s x r Hs E)). destruct (run c (f x) r) as [y r'|y|y].
  - destruct Hf as [H3 H4]. split; [lia|]. replace (lenN s - lenN r') with (lenN s - lenN r + (lenN r - lenN r')) by lia.
    revert H2 H4; generalize (lenN s - lenN r) (lenN r - lenN r'); intros; nia.
  - revert H2; replace (lenN s) with (lenN s - lenN r + lenN r) at 2 by lia. generalize (lenN s - lenN r); intros; nia.
  - revert H2; replace (lenN s) with (lenN s - lenN r + lenN r) at 2 by lia. generalize (lenN s - lenN r); intros; nia.
Qed.
Lemma pays_pmap {A B} (f : A -> B) (p : prog A) pre post be pe : pays c flt p pre (fun a => post (f a)) be pe -> pays c flt (pmap f p) pre post be pe.
Proof. intros H. eapply pays_bind; [exact H|]. intros a. apply pays_ret. lia. Qed.
Lemma pays_alloc {A} n (p : prog A) pre post be pe : pays c flt p pre post be pe -> pays c flt (Alloc n p) (n + pre) post be pe.
Proof.
  intros H s Hs. assert (E := cost_alloc n p s). cbn [run]. destruct (alloc_result c n); [lia|]. specialize (H s Hs).
  destruct (run c p s) as [a r|e|q]; [|lia..]. destruct H; split; lia.
Qed.
Lemma pays_asks {A} l (p : prog A) pre post be pe : pays c flt p pre post be pe -> pays c flt (asks l p) (total l + pre) post be pe.
Proof.
  intros H. induction l as [|n l IH]; cbn [asks total]; [exact H|]. rewrite <- N.add_assoc. apply pays_alloc, IH.
Qed.
Lemma pays_asks_fail {A} l e pre (post : A -> N) be pe : total l <= pre + pe -> pays c flt (asks l (Fail e)) pre post be pe.
Proof.
  intros H s Hs. assert (G : match run c (asks l (@Fail A e)) s with OOk _ _ => False | _ => True end /\ cost c flt (asks l (@Fail A e)) s <= total l).
  { clear H. induction l as [|n l [IH1 IH2]]; cbn [asks total]; [split; [exact I|unfold cost; cbn [allocs filter total]; lia]|].
    assert (E := cost_alloc n (asks l (@Fail A e)) s). cbn [run]. destruct (alloc_result c n); [split; [exact I|lia]|]. split; [exact IH1|lia]. }
  destruct G as [G1 G2]. destruct (run c _ s); [contradiction|lia..].
Qed.
Lemma pays_exact {A} n e (k : list N -> prog A) pre post be pe :
  (forall b, lenN b = n -> pays c flt (k b) (pre + be * n) post be pe) -> pays c flt (ReadExact n e k) pre post be pe.
Proof.
  intros H s Hs. unfold cost. cbn [run allocs]. destruct (N.ltb_spec (lenN s) n) as [L|L]; [cbn [filter total]; lia|].
  assert (Lt : lenN (takeN n s) = n) by (rewrite lenN_takeN; lia). assert (Ld := lenN_dropN n s).
  specialize (H (takeN n s) Lt (dropN n s) (Forall_dropN _ n s Hs)). unfold cost in H.
  destruct (run c (k (takeN n s)) (dropN n s)) as [a r|x|x].
  - destruct H as [H1 H2]. split; [lia|]. replace (lenN s - lenN r) with (n + (lenN (dropN n s) - lenN r)) by lia.
    revert H2. generalize (lenN (dropN n s) - lenN r). intros; nia.
  - rewrite Ld in H. assert (Es : lenN s = n + (lenN s - n)) by lia. rewrite Es. revert H. generalize (lenN s - n). intros; nia.
  - rewrite Ld in H. assert (Es : lenN s = n + (lenN s - n)) by lia. rewrite Es. revert H. generalize (lenN s - n). intros; nia.
Qed.
Lemma pays_limit {A} n e (k : list N -> prog A) pre post be pe :
  (forall b, pays c flt (k b) (pre + be * lenN b) post be pe) -> pays c flt (ReadLimit n e k) pre post be pe.
Proof.
  intros H s Hs. unfold cost. cbn [run allocs].
  assert (Lt := lenN_takeN n s). assert (Ld := lenN_dropN n s).
  specialize (H (takeN n s) (dropN n s) (Forall_dropN _ n s Hs)). unfold cost in H. rewrite Lt in H.
  destruct (run c (k (takeN n s)) (dropN n s)) as [a r|x|x].
  - destruct H as [H1 H2]. split; [lia|]. replace (lenN s - lenN r) with (N.min n (lenN s) + (lenN (dropN n s) - lenN r)) by lia.
    revert H2. generalize (lenN (dropN n s) - lenN r) (N.min n (lenN s)). intros; nia.
  - rewrite Ld in H. assert (Es : lenN s = N.min n (lenN s) + (lenN s - n)) by lia. rewrite Es. revert H. generalize (lenN s - n) (N.min n (lenN s)). intros; nia.
  - rewrite Ld in H. assert (Es : lenN s = N.min n (lenN s) + (lenN s - n)) by lia. rewrite Es. revert H. generalize (lenN s - n) (N.min n (lenN s)). intros; nia.
Qed.
(** Bytes already paid for: [y] for each, at least [x a] in all. *)
Lemma pays_bank {A} (p : prog A) pre post be pe (x : A -> N) y :
  pays c flt p pre post be pe -> consumes c p (fun a n => x a <= y * n) -> pays c flt p pre (fun a => post a + x a) (be + y) pe.
Proof.
  intros H Hc s Hs. specialize (H s Hs). destruct (run c p s) as [a r|e|q] eqn:E; [|nia..].
  destruct H as [H1 H2]. split; [exact H1|]. destruct (Hc s a r Hs E) as (n & En & Hn). replace (lenN s - lenN r) with n in * by lia. nia.
Qed.
(** What a program needs before it reads its first byte. *)
Lemma pays_absorb {A} (p : prog A) al post be pe :
  pays c flt p al post be pe -> consumes c p (fun _ n => 1 <= n) -> pays c flt p 0 post (be + al) (pe + al).
Proof.
  intros H Hc s Hs. specialize (H s Hs). destruct (run c p s) as [a r|e|q] eqn:E; [|nia..].
  destruct H as [H1 H2]. split; [exact H1|]. destruct (Hc s a r Hs E) as (n & En & Hn). replace (lenN s - lenN r) with n in * by lia. nia.
Qed.
Lemma pays_shift {A} (p : prog A) pre post be pe x : pays c flt p pre post be pe -> pays c flt p (pre + x) (fun a => post a + x) be pe.
Proof. intros H s Hs. specialize (H s Hs). destruct (run c p s) as [a r|e|q]; [|lia..]. destruct H; split; lia. Qed.
Lemma pays_fold {S} n (f : S -> prog S) s0 (Inv : S -> Prop) (phi : S -> N) be pe :
  (forall st, Inv st -> pays c flt (f st) (phi st) phi be pe) -> (forall st, Inv st -> yields c (f st) Inv) -> Inv s0 ->
  pays c flt (foldN n f s0) (phi s0) phi be pe.
Proof.
  intros H Hy H0 s Hs.
  assert (E : cost c flt (foldN n f s0) s = cost c flt (iter (N.to_nat n) f s0) s) by (unfold cost; rewrite allocs_foldN; reflexivity).
  rewrite run_foldN, E. clear E. revert s0 H0 s Hs. induction (N.to_nat n) as [|k IH]; intros s0 H0 s Hs; cbn [iter].
  - apply (pays_ret s0 (phi s0) phi be pe); [lia|exact Hs].
  - rewrite run_bind, cost_bind. assert (H1 := H s0 H0 s Hs). destruct (run c (f s0) s) as [x r|x|x] eqn:E; cbn [obind]; [|lia..].
    destruct H1 as [H1 H2]. specialize (IH x (Hy s0 H0 s x r Hs E) r (run_rest c _ s x r Hs E)).
    destruct (run c (iter k f x) r) as [y r'|y|y].
    + destruct IH as [H3 H4]. split; [lia|]. replace (lenN s - lenN r') with (lenN s - lenN r + (lenN r - lenN r')) by lia.
      revert H2 H4; generalize (lenN s - lenN r) (lenN r - lenN r'); intros; nia.
    + revert H2; replace (lenN s) with (lenN s - lenN r + lenN r) at 2 by lia. generalize (lenN s - lenN r); intros; nia.
    + revert H2; replace (lenN s) with (lenN s - lenN r + lenN r) at 2 by lia. generalize (lenN s - lenN r); intros; nia.
Qed.

(** ** Vectors: doubling is paid by the members added since the last time *)
Definition credit (len cap : N) : N := 2 * (2 * len - cap).
Lemma min_cap_8 size : min_cap size <= 8.
Proof. unfold min_cap. destruct (size =? 1); [lia|]. destruct (size <=? 1024); lia. Qed.
Lemma credit_grown size len cap extra : 1 <= extra -> cap < len + extra ->
  grown size cap (len + extra) + credit (len + extra) (grown size cap (len + extra)) <= 12 * extra + credit len cap.
Proof. intros H1 H2. assert (H3 := min_cap_8 size). unfold grown, credit. lia. Qed.
Lemma credit_kept len cap extra : credit (len + extra) cap <= 12 * extra + credit len cap.
Proof. unfold credit. lia. Qed.
Lemma pays_reserve {A} size len cap extra (k : N -> prog A) pre post be pe : 1 <= extra ->
  (forall cap', pays c flt (k cap') (pre + credit (len + extra) cap' * size) post be pe) ->
  pays c flt (reserve size len cap extra k) (pre + (12 * extra + credit len cap) * size) post be pe.
Proof.
  intros He H. unfold reserve. destruct (N.eqb_spec size 0) as [->|Hz].
  - eapply pays_weaken; [apply (H cap)|lia..].
  - destruct (N.ltb_spec cap (len + extra)) as [L|L].
    + assert (G := credit_grown size len cap extra He L). eapply pays_weaken; [apply pays_alloc, (H (grown size cap (len + extra)))|nia|lia..].
    + assert (G := credit_kept len cap extra). eapply pays_weaken; [apply (H cap)|nia|lia..].
Qed.
Lemma pays_push {A} size n cap (p : prog A) be pe :
  pays c flt p 0 (fun _ => 0) be pe -> (size = 0 \/ consumes c p (fun _ n => 1 <= n)) ->
  pays c flt (g_push size n cap p) 0 (fun _ => 0) (be + 12 * size) pe.
Proof.
  intros Hp Hc. unfold g_push.
  eapply pays_bind with (mid := fun st : list A * N * N => credit (snd (fst st)) (snd st) * size); [|intros st; apply pays_ret; lia].
  eapply pays_weaken with (pre := credit 0 cap * size); [|unfold credit; lia|intros; apply N.le_refl|apply N.le_refl|apply N.le_refl].
  apply (pays_fold n (push_step size p) ([], 0, cap) (fun _ => True) (fun st : list A * N * N => credit (snd (fst st)) (snd st) * size)); [|intros; repeat intro; exact I|exact I].
  intros [[acc len] k] _. cbn [push_step fst snd].
  eapply pays_bind with (mid := fun _ => 0 + (12 * 1 + credit len k) * size).
  - assert (B : pays c flt p 0 (fun _ => 0 + 12 * size) (be + 12 * size) pe).
    { apply pays_bank; [exact Hp|]. destruct Hc as [->|Hc]; [eapply consumes_weaken; [apply consumes_any|]; cbv beta; lia|].
      eapply consumes_weaken; [exact Hc|]. cbv beta. intros _ m Hm. nia. }
    apply (pays_shift _ _ _ _ _ (credit len k * size)) in B. eapply pays_weaken; [exact B|lia|intros; cbv beta; nia|lia|lia].
  - intros a. apply pays_reserve; [lia|]. intros k'. apply pays_ret. cbn [fst snd]. lia.
Qed.

Lemma pays_vec {A} size (p : prog A) be pe :
  pays c flt p 0 (fun _ => 0) be pe -> (size = 0 \/ consumes c p (fun _ n => 1 <= n)) ->
  pays c flt (g_vec c size p) 0 (fun _ => 0) (be + 12 * size) pe.
Proof.
  intros Hp Hc. eapply pays_bind with (mid := fun _ => 0); [apply pays_quiet; [apply quiet_u64|intros; lia]|].
  intros n. apply pays_push; assumption.
Qed.

(** ** Texts *)
Variable (Hw : wf_cfg c).
Lemma as_usize_le n : as_usize c n <= n.
Proof. unfold as_usize. apply N.mod_le. destruct (usize_bits_cases c Hw) as [->| ->]; discriminate. Qed.
Lemma as_usize_small n : n < 2 ^ 32 -> as_usize c n = n.
Proof.
  intros H. apply as_usize_id. eapply N.lt_le_trans; [exact H|]. destruct (usize_bits_cases c Hw) as [->| ->]; discriminate.
Qed.
Lemma pays_string m : (forall n, total (m_text m n) <= 4 * n + 64) -> pays c flt (g_string c m) 0 (fun _ => 0) 13 64.
Proof.
  intros Ht. eapply pays_bind with (mid := fun len => 0 + (if 2 ^ 32 <=? len then 64 else 0)).
  - change 13 with (0 + 13). apply pays_bank; [apply pays_quiet; [apply quiet_u64|intros; lia]|].
    eapply consumes_weaken; [apply consumes_u64|]. cbv beta. intros len n (H1 & H2 & H3).
    destruct (N.leb_spec (2 ^ 32) len) as [L|L]; [|apply N.le_0_l].
    assert (M := enc_u64_mono (2 ^ 32) len L H3). change (lenN (enc_u64 (2 ^ 32))) with 5 in M. lia.
  - intros len. destruct (N.ltb_spec len STR_MAX) as [L|L].
    + apply pays_exact. intros b Hb. eapply pays_weaken; [apply pays_alloc with (pre := 0)| |intros; apply N.le_refl|apply N.le_refl|apply N.le_refl].
      * apply pays_quiet; [destruct (utf8_valid b); exact I|intros; lia].
      * lia.
    + apply pays_limit. intros b. specialize (Ht (lenN b)). destruct (utf8_valid b); [|apply pays_asks_fail; lia].
      destruct (N.eqb_spec (lenN b) (as_usize c len)) as [E|E]; [|apply pays_asks_fail; lia].
      eapply pays_weaken; [apply pays_asks with (pre := 0)| |intros; apply N.le_refl|apply N.le_refl|apply N.le_refl].
      * apply pays_ret. apply N.le_refl.
      * destruct (N.leb_spec (2 ^ 32) len) as [M|M]; [lia|]. rewrite as_usize_small in E by exact M. unfold STR_MAX in L. lia.
Qed.
Lemma pays_char m : (forall n, total (m_text m n) <= 4 * n + 64) -> pays c flt (g_char c m) 0 (fun _ => 0) 13 64.
Proof.
  intros Ht. eapply pays_bind; [apply pays_string, Ht|]. intros s. apply pays_quiet; [destruct (next_char s); exact I|intros; lia].
Qed.

(** ** Buffers *)
Definition gbuf_body (len : N) : prog (list N) :=
  if BUF_MAX <? len then
    Alloc BUF_MAX
      (st <- foldN (len / BUF_MAX + 2) (gbuf_step c len) (inl ([], 0, 0, 0)) ;;
       match st with inr r => Ret r | inl _ => Crash PStack end)
  else
    Alloc len (ReadExact len ERead (fun b => Ret b)).
Lemma g_byte_buf_unfold : g_byte_buf c = bind (dec_u64 ERead) gbuf_body.
Proof. reflexivity. Qed.
Lemma pays_buf_body len : pays c flt (gbuf_body len) (N.min 4096 len) (fun _ => 0) 12 0.
Proof.
  unfold gbuf_body, BUF_MAX at 1 2. destruct (N.ltb_spec 4096 len) as [L|L].
  - replace (N.min 4096 len) with (4096 + 0) by lia. apply pays_alloc.
    set (phi := fun st : gbuf_state + list N => match st with inl (_, rlen, _, cap) => credit rlen cap | inr _ => 0 end).
    eapply pays_bind with (mid := phi).
    + change 0 with (phi (inl ([], 0, 0, 0))) at 1.
      apply (pays_fold (len / BUF_MAX + 2) (gbuf_step c len) (inl ([], 0, 0, 0)) (fun st => match st with inl (_, rlen, pos, _) => rlen = pos | inr _ => True end) phi); [| |reflexivity].
      * intros [[[[acc rlen] pos] cap]|r] Hi; cbn [gbuf_step]; [|apply pays_ret; apply N.le_refl]. subst pos.
        destruct (N.ltb_spec rlen (as_usize c len)) as [H|H]; [|apply pays_ret; cbn [phi]; apply N.le_0_l].
        assert (Hu := as_usize_le len). apply pays_exact. intros b Hb.
        eapply pays_weaken; [apply pays_reserve with (pre := 0); [unfold BUF_MAX; lia|]| |intros; apply N.le_refl|apply N.le_refl|apply N.le_refl].
        -- intros cap'. apply pays_ret. cbn [phi]. lia.
        -- cbn [phi]. lia.
      * intros [[[[acc rlen] pos] cap]|r] Hi; cbn [gbuf_step]; intros s a r' Hs E.
        -- subst pos. destruct (rlen <? as_usize c len); [|cbn [run] in E; injection E as <- <-; exact I].
           cbn [run] in E. destruct (lenN s <? N.min BUF_MAX (len - rlen)); [discriminate|].
           unfold reserve in E. cbn [N.eqb] in E. destruct (cap <? _); cbn [run] in E; [destruct (alloc_result _ _); [discriminate|]|];
             injection E as <- <-; reflexivity.
        -- cbn [run] in E. injection E as <- <-. exact I.
    + intros [[[[acc rlen] pos] cap]|r]; apply pays_quiet; try exact I; intros; apply N.le_0_l.
  - replace (N.min 4096 len) with (len + 0) by lia. apply pays_alloc, pays_exact. intros b Hb. apply pays_ret. lia.
Qed.
Lemma pays_buffer : 4096 <= heap_limit c -> pays c flt (g_byte_buf c) 0 (fun _ => 0) (per_buffer_byte c + 12) 4096.
Proof.
  intros Hh s Hs. assert (A := adds_run c _ _ (adds_buf c) s). revert A. rewrite g_byte_buf_unfold, cost_bind.
  rewrite de_byte_buf_unfold. rewrite !run_bind.
  assert (E0 : cost c flt (dec_u64 ERead) s = 0) by (unfold cost; rewrite quiet_allocs by apply quiet_u64; reflexivity). rewrite E0.
  destruct (run c (dec_u64 ERead) s) as [len r|e|q] eqn:E; cbn [obind]; [|intros; apply N.le_0_l..].
  destruct (consumes_u64 c ERead s len r Hs E) as (n & En & _ & H1 & Hlen).
  assert (H := pays_buf_body len r (run_rest c _ s len r Hs E)).
  rewrite buf_body_run by assumption. intros A.
  destruct (run c (gbuf_body len) r) as [x r'|e|q]; [|rewrite En; nia..].
  destruct H as [H2 H3]. split; [lia|]. destruct A as [A|(? & ? & _ & _ & A)]; [|discriminate A].
  destruct (N.ltb_spec (lenN r) (buf_total c len)) as [Hl|Hl]; [discriminate|]. injection A as _ ->.
  rewrite lenN_dropN in *. replace (lenN s - (lenN r - buf_total c len)) with (n + buf_total c len) by lia.
  replace (lenN r - (lenN r - buf_total c len)) with (buf_total c len) in H3 by lia.
  unfold per_buffer_byte. destruct (N.eqb_spec (usize_bits c) 64) as [E64|E64].
  - rewrite buf_total_exact in * by (apply as_usize_id; rewrite E64; exact Hlen). lia.
  - lia.
Qed.

(** ** Maps *)
Lemma insert_new {V} k (v : V) l : has_key k l = false -> length (map_insert k v l) = S (length l).
Proof.
  unfold has_key. induction l as [|[k' v'] l IH]; cbn [map_insert existsb fst]; [reflexivity|].
  destruct (bytes_cmp k k'); cbn [orb length]; intros H; [discriminate| |]; auto.
Qed.
Lemma insert_old {V} k (v : V) l : length (map_insert k v l) = length l \/ length (map_insert k v l) = S (length l).
Proof.
  induction l as [|[k' v'] l IH]; cbn [map_insert]; [right; reflexivity|]. destruct (bytes_cmp k k'); cbn [length]; [left; reflexivity|right; reflexivity|].
  destruct IH as [->| ->]; auto.
Qed.
Lemma pays_map_n {A} m (e : N -> N) size n (p : prog A) al be pe :
  (forall k, total (m_text m k) <= 4 * k + 64) -> (forall size n, map_total m size n <= N.of_nat n * e size) ->
  pays c flt p al (fun _ => 0) be pe -> pays c flt (g_map_n c m size n p) 0 (fun _ => 0) (e size + al + N.max 13 be) (N.max 64 pe).
Proof.
  intros Ht Hm Hp. set (phi := fun l : list (list N * A) => N.of_nat (length l) * e size - map_total m size (length l)).
  unfold g_map_n. eapply pays_weaken with (pre := phi []) (post := phi); [|unfold phi; cbn [length map_total]; change (N.of_nat 0) with 0; lia|intros; apply N.le_0_l|apply N.le_refl|apply N.le_refl].
  apply pays_fold with (Inv := fun _ => True); [|intros; repeat intro; exact I|exact I].
  intros l _. eapply pays_bind with (mid := fun _ => e size + al + phi l).
  - assert (B : pays c flt (g_string c m) 0 (fun _ => 0 + (e size + al)) (13 + (e size + al)) 64).
    { apply pays_bank; [apply pays_string, Ht|]. eapply adds_consumes; [apply adds_string|]. rewrite de_string_unfold.
      eapply consumes_weaken; [apply consumes_then; eapply consumes_weaken; [apply consumes_u64|cbv beta; tauto]|]. cbv beta. intros _ k Hk. nia. }
    apply (pays_shift _ _ _ _ _ (phi l)) in B. eapply pays_weaken; [exact B|lia|intros; cbv beta; lia|lia|lia].
  - intros k. eapply pays_bind with (mid := fun _ => e size + phi l).
    + apply (pays_shift _ _ _ _ _ (e size + phi l)) in Hp. eapply pays_weaken; [exact Hp|lia|intros; cbv beta; lia|lia|lia].
    + intros v. destruct (has_key k l) eqn:E; cbn [asks].
      * apply pays_ret. unfold phi. assert (M0 := Hm size (length l)). destruct (insert_old k v l) as [->| ->]; [lia|]. cbn [map_total]. rewrite Nat2N.inj_succ, N.mul_succ_l. lia.
      * eapply pays_weaken; [apply pays_asks with (pre := phi (map_insert k v l)), pays_ret, N.le_refl| |intros; apply N.le_refl|apply N.le_refl|apply N.le_refl].
        unfold phi. rewrite insert_new by exact E. assert (M0 := Hm size (length l)). assert (M1 := Hm size (S (length l))). cbn [map_total] in M1 |- *.
        unfold lenN. rewrite Nat2N.inj_succ, N.mul_succ_l in *. lia.
Qed.

Lemma pays_sequence {A X} (g : X -> prog A) (al : X -> N) be pe l : Forall (fun x => pays c flt (g x) (al x) (fun _ => 0) be pe) l ->
  pays c flt (sequence (map g l)) (fold_right (fun x n => al x + n) 0 l) (fun _ => 0) be pe.
Proof.
  induction 1 as [|x l H _ IH]; cbn [map sequence fold_right]; [apply pays_ret, N.le_refl|].
  eapply pays_bind; [apply pays_shift with (x := fold_right (fun x n => al x + n) 0 l), H|]. intros a. cbv beta. rewrite N.add_0_l.
  eapply pays_bind; [exact IH|]. intros t. apply pays_ret, N.le_refl.
Qed.
Lemma pays_struct_loop {A} keys (fs : list (string * prog A)) be pe slots :
  Forall (fun nf => pays c flt (snd nf) 0 (fun _ => 0) be pe) fs -> pays c flt (struct_loop keys fs slots) 0 (fun _ => 0) be pe.
Proof.
  intros Hf; revert slots; induction keys as [|k ks IH]; intros slots; cbn [struct_loop]; [apply pays_ret, N.le_refl|].
  destruct (find_field k fs) as [[i p]|] eqn:E; [|apply pays_quiet; [exact I|intros; apply N.le_refl]]. apply find_field_in, nth_error_In in E as Hin.
  destruct (nth_error slots i) as [[x|]|]; try (apply pays_quiet; [exact I|intros; apply N.le_refl]). eapply pays_bind; [|intros; apply IH].
  rewrite Forall_forall in Hf. apply (Hf _ Hin).
Qed.
End Pays.

(** ** Typed values *)
Lemma no_alloc {X} (l : list X) : fold_right (fun _ n => 0 + n) 0 l = 0.
Proof. induction l; cbn [fold_right]; [reflexivity|]. lia. Qed.
Lemma pays_sequence0 {A X} c flt (g : X -> prog A) be pe l : Forall (fun x => pays c flt (g x) 0 (fun _ => 0) be pe) l ->
  pays c flt (sequence (map g l)) 0 (fun _ => 0) be pe.
Proof. intros H. assert (E := pays_sequence c flt g (fun _ => 0) be pe l H). rewrite no_alloc in E. exact E. Qed.
Lemma fill_quiet {A} (miss slots : list (option A)) c flt be pe : pays c flt (fill_missing miss slots) 0 (fun _ => 0) be pe.
Proof. apply pays_quiet; [apply quiet_fill_missing|intros; apply N.le_refl]. Qed.
Lemma gde_pays c flt m e d : wf_cfg c -> 4096 <= heap_limit c -> sound_mem m e -> wf_dty d = true ->
  pays c flt (gde c m d) 0 (fun _ => 0) (grow_byte c m e d) 4096.
Proof.
  intros Hw Hh (Ht & Hm & Hz). induction d using dty_ind2; cbn [wf_dty]; intros Hwf; try discriminate; cbn [gde grow_byte].
  all: try (cbn [de]; apply pays_quiet; [|intros; apply N.le_refl]; first [exact I
      | apply quiet_pmap; first [apply quiet_bool | apply quiet_byte | apply quiet_u16 | apply quiet_u32 | apply quiet_u64
      | apply quiet_pmap; first [apply quiet_byte | apply quiet_u16 | apply quiet_u32 | apply quiet_u64]
      | apply quiet_date | apply quiet_date_time | intros ?; exact I]]; fail).
  all: try (apply pays_pmap; eapply pays_weaken; [first [apply pays_char; assumption|apply pays_string; assumption|apply pays_buffer; assumption
      |apply pays_vec with (be := 0) (pe := 4096); [apply pays_quiet; [apply quiet_byte|intros; apply N.le_refl]|right; apply consumes_read; lia]]|lia|intros; apply N.le_refl|lia|lia]; fail).
  - apply pays_quiet; [|intros; apply N.le_refl]. apply quiet_pmap, quiet_bind; [apply quiet_pmap, quiet_u64|]. intros z. destruct (in_s _ z); exact I.
  - apply pays_quiet; [|intros; apply N.le_refl]. apply quiet_pmap, quiet_bind; [apply quiet_u64|]. intros z. destruct (z <? _); exact I.
  - apply pays_pmap. eapply pays_bind with (mid := fun _ => 0); [apply pays_quiet; [apply quiet_bool|intros; lia]|].
    intros [|]; [apply pays_pmap, IHd, Hwf|apply pays_ret, N.le_refl].
  - apply pays_pmap, IHd, Hwf.
  - apply pays_pmap. rewrite N.add_comm. apply pays_vec; [apply IHd, Hwf|]. destruct (occupies d) eqn:E; [right|left; apply Hz, E].
    eapply adds_consumes; [apply gde_adds|]. apply occupies_de; assumption.
  - apply pays_pmap. apply pays_sequence0. rewrite Forall_forall in *. rewrite forallb_forall in Hwf.
    intros d Hd. eapply pays_weaken; [apply (H d Hd), Hwf, Hd|apply N.le_refl|intros; apply N.le_refl|apply (max_member (grow_byte c m e)), Hd|apply N.le_refl].
  - apply pays_pmap. apply pays_sequence0. rewrite Forall_forall in *. rewrite forallb_forall in Hwf.
    intros d Hd. eapply pays_weaken; [apply (H d Hd), Hwf, Hd|apply N.le_refl|intros; apply N.le_refl|apply (max_member (grow_byte c m e)), Hd|apply N.le_refl].
  - apply pays_pmap. eapply pays_bind with (mid := fun _ => 0); [apply pays_quiet; [apply quiet_u64|intros; lia]|].
    intros n. eapply pays_weaken; [apply pays_map_n with (e := e) (al := 0); [exact Hw|exact Ht|exact Hm|apply IHd, Hwf]|lia|intros; apply N.le_refl|lia|lia].
  - apply pays_pmap. eapply pays_bind with (mid := fun _ => 0); [|intros; apply fill_quiet].
    apply andb_prop in Hwf as [_ Hfs]. rewrite forallb_forall in Hfs. rewrite Forall_forall in H.
    apply pays_struct_loop, Forall_map, Forall_forall. cbn [snd]. intros nf Hin.
    eapply pays_weaken; [apply (H nf Hin), Hfs, Hin|apply N.le_refl|intros; apply N.le_refl|apply (max_member (fun nf => grow_byte c m e (snd nf))), Hin|apply N.le_refl].
  - apply andb_prop in Hwf as [_ Hfs]. rewrite forallb_forall in Hfs. rewrite Forall_forall in H.
    eapply pays_bind with (mid := fun _ => 0); [apply pays_quiet; [apply quiet_u16|intros; lia]|]. intros i. rewrite pickN_map.
    destruct (pickN vs i) as [[k dp]|] eqn:E; [|apply pays_quiet; [exact I|intros; apply N.le_refl]]. cbn [option_map fst snd].
    apply pickN_some in E as [Hin _]. apply pays_pmap. specialize (Hfs _ Hin). cbn [fst snd] in Hfs. apply andb_prop in Hfs as [_ Hfs].
    eapply pays_weaken; [apply (H _ Hin), Hfs|apply N.le_refl|intros; apply N.le_refl|apply (max_member (fun nf => grow_byte c m e (snd nf)) vs (k, dp) Hin)|apply N.le_refl].
  - apply pays_pmap. eapply pays_bind with (mid := fun _ => 0); [|intros [|]; apply pays_quiet; try exact I; try (intros; apply N.le_refl)].
    + eapply pays_weaken; [apply pays_vec with (be := 0) (pe := 4096); [apply pays_quiet; [apply quiet_byte|intros; apply N.le_refl]|right; apply consumes_read; lia]|lia|intros; apply N.le_refl|lia|lia].
    + apply quiet_bind; [apply quiet_pmap, quiet_u64|intros; exact I].
Qed.

(** ** Bodies *)
Lemma max_from {X} (f : X -> N) b l x : In x l -> f x <= fold_right (fun x n => N.max (f x) n) b l.
Proof. induction l as [|y l IH]; cbn [fold_right]; intros []; [subst; lia|specialize (IH H); lia]. Qed.
Lemma max_base {X} (f : X -> N) b l : b <= fold_right (fun x n => N.max (f x) n) b l.
Proof. induction l as [|y l IH]; cbn [fold_right]; [lia|lia]. Qed.
Definition fits (c : cfg) (n : N) : bool := (n <=? isize_max c) && (n <=? heap_limit c).
Lemma pays_boxed c flt p al be pe : pays c flt p al (fun _ => 0) be pe -> pays c flt (boxed c p) (size_of_body c + al) (fun _ => 0) be pe.
Proof.
  intros H. unfold boxed. rewrite N.add_comm. eapply pays_bind; [apply pays_shift with (x := size_of_body c), H|]. intros b. cbv beta.
  apply (pays_weaken c flt _ (size_of_body c + 0) (fun _ => 0) be pe); [apply pays_alloc, pays_ret, N.le_refl|lia|intros; apply N.le_refl|lia|lia].
Qed.
Lemma gbde_pays c m e h : wf_cfg c -> 4096 <= heap_limit c -> sound_mem m e -> hoccurs is_free_array h = false ->
  pays c (fits c) (gbde c m h) (fixed_part c h) (fun _ => 0) (grow_byte_body c e h) (unfinished c h + 64).
Proof.
  intros Hw Hh (Ht & Hm & Hz). apply (header_ind2 (fun h => hoccurs is_free_array h = false ->
    pays c (fits c) (gbde c m h) (fixed_part c h) (fun _ => 0) (grow_byte_body c e h) (unfinished c h + 64))); clear h.
  - intros h; destruct h; try exact I; intros _; cbn [gbde fixed_part grow_byte_body unfinished].
    all: try (cbn [bde]; apply pays_quiet; [|intros; apply N.le_refl]; first [exact I
      | apply quiet_pmap; first [apply quiet_bool | apply quiet_byte | apply quiet_u16 | apply quiet_u32 | apply quiet_u64
      | apply quiet_pmap; first [apply quiet_byte | apply quiet_u16 | apply quiet_u32 | apply quiet_u64]
      | apply quiet_date | apply quiet_date_time | intros ?; exact I]]; fail).
    all: try (apply pays_pmap; eapply pays_weaken; [first [apply pays_string; assumption|apply pays_buffer; assumption
      |apply pays_vec with (be := 0) (pe := 64); [apply pays_quiet; [apply quiet_byte|intros; apply N.le_refl]|right; apply consumes_read; lia]]|lia|intros; apply N.le_refl|lia|lia]; fail).
    apply pays_pmap. eapply pays_bind with (mid := fun _ => 0); [|intros [|]; apply pays_quiet; try exact I; try (intros; apply N.le_refl)].
    + eapply pays_weaken; [apply pays_vec with (be := 0) (pe := 64); [apply pays_quiet; [apply quiet_byte|intros; apply N.le_refl]|right; apply consumes_read; lia]|lia|intros; apply N.le_refl|lia|lia].
    + apply quiet_bind; [apply quiet_pmap, quiet_u64|intros; exact I].
  - intros h IH Hf. cbn [hoccurs is_free_array orb] in Hf. cbn [gbde fixed_part grow_byte_body unfinished]. apply pays_pmap.
    eapply pays_bind with (mid := fun _ => size_of_body c + fixed_part c h).
    + assert (B : pays c (fits c) de_bool 0 (fun _ => 0 + size_of_body c) (0 + size_of_body c) (unfinished c h + 64)).
      { apply pays_bank; [apply pays_quiet; [apply quiet_bool|intros; apply N.le_refl]|]. eapply consumes_weaken; [apply consumes_read; lia|]. cbv beta. intros _ n Hn. nia. }
      apply (pays_shift _ _ _ _ _ _ _ (fixed_part c h)) in B. eapply pays_weaken; [exact B|lia|intros; cbv beta; lia|lia|lia].
    + intros [|]; [|apply pays_ret, N.le_0_l]. apply pays_pmap, pays_boxed. eapply pays_weaken; [apply IH, Hf|lia|intros; apply N.le_refl|lia|lia].
  - intros h IH Hf. cbn [hoccurs is_free_array] in Hf. apply orb_false_elim in Hf as [Hocc Hf]. apply negb_false_iff in Hocc. specialize (IH Hf).
    assert (Hpos : consumes c (gbde c m h) (fun _ n => 1 <= n)) by (eapply adds_consumes; [apply gbde_adds|apply hoccupies_pos, Hocc]).
    cbn [gbde fixed_part grow_byte_body unfinished].
    intros s Hs. rewrite run_bind, cost_bind.
    assert (E0 : cost c (fits c) de_u64 s = 0) by (unfold cost; rewrite quiet_allocs by apply quiet_u64; reflexivity).
    rewrite E0. destruct (run c de_u64 s) as [len r|x|q] eqn:E; cbn [obind]; [|apply N.le_0_l..].
    assert (Hr := run_rest c _ s len r Hs E). assert (Hle := run_le c _ s len r Hs E).
    set (arr := pmap BArray _).
    assert (Ec : cost c (fits c) (Alloc (as_usize c len * size_of_body c) arr) r =
      match alloc_result c (as_usize c len * size_of_body c) with Some _ => 0 | None => as_usize c len * size_of_body c + cost c (fits c) arr r end)
      by apply spent_alloc.
    rewrite Ec. cbn [run]. destruct (alloc_result c (as_usize c len * size_of_body c)) eqn:Ea; [apply N.le_0_l|].
    assert (Hg : as_usize c len * size_of_body c <= heap_limit c).
    { unfold alloc_result in Ea. destruct (isize_max c <? _); [discriminate|]. destruct (N.ltb_spec (heap_limit c) (as_usize c len * size_of_body c)); [discriminate|assumption]. }
    assert (Hc := pays_pmap c (fits c) BArray _ _ (fun _ => 0) _ _ (pays_push c (fits c) (size_of_body c) len (as_usize c len) _ _ _ (pays_absorb _ _ _ _ _ _ _ IH Hpos) (or_intror Hpos))).
    fold arr in Hc. specialize (Hc r Hr).
    assert (As : adds eq arr (pmap BArray (repeatN len (bde c h)))) by (apply adds_pmap, adds_push, gbde_adds).
    assert (Ar := adds_run c _ _ As r).
    destruct (run c arr r) as [b r'|x|q] eqn:Eb; [|nia..].
    destruct Hc as [H1 H2]. split; [lia|].
    assert (Hlen : len <= lenN r - lenN r').
    { destruct Ar as [Ar|(? & ? & _ & _ & Ar)]; [|discriminate Ar]. symmetry in Ar. apply run_pmap_ok in Ar as (l & Er & _).
      destruct (consumes_repeatN c len (bde c h) (fun _ => 1) (hoccupies_pos c h Hocc) r l r' Hr Er) as (k & Em & Hl & Hk).
      assert (Hsum : forall l : list body, sumN (fun _ => 1) l = lenN l).
      { clear. induction l as [|x l IH]; [reflexivity|]. cbn [sumN]. rewrite IH. unfold lenN. cbn [length]. lia. }
      rewrite Hsum in Hk. lia. }
    assert (Hu := as_usize_le c Hw len).
    replace (lenN s - lenN r') with (lenN s - lenN r + (lenN r - lenN r')) by lia.
    assert (Hmul := N.mul_le_mono_r _ _ (size_of_body c) (N.le_trans _ _ _ Hu Hlen)).
    revert H2 Hmul; generalize (lenN s - lenN r) (lenN r - lenN r') (as_usize c len * size_of_body c); intros; nia.
  - intros h IH Hf. cbn [hoccurs is_free_array orb] in Hf. specialize (IH Hf). cbn [gbde fixed_part grow_byte_body unfinished].
    eapply pays_bind with (mid := fun _ => 0); [apply pays_quiet; [apply quiet_u64|intros; lia]|].
    intros len. apply pays_pmap. eapply pays_weaken; [apply pays_map_n with (e := e); [exact Hw|exact Ht|exact Hm|exact IH]|lia|intros; apply N.le_refl|lia|lia].
  - intros hs IH Hf. cbn [hoccurs is_free_array orb] in Hf. cbn [gbde fixed_part grow_byte_body unfinished].
    apply pays_alloc, pays_pmap, pays_sequence. rewrite Forall_forall in *. intros h Hin.
    eapply pays_weaken; [apply IH; [exact Hin|]|apply N.le_refl|intros; apply N.le_refl|apply max_from, Hin|apply N.add_le_mono_r, max_from, Hin].
    destruct (hoccurs is_free_array h) eqn:E; [|reflexivity]. rewrite <- Hf. symmetry. apply existsb_exists. exists h; auto.
  - intros hs IH Hf. cbn [hoccurs is_free_array orb] in Hf. cbn [gbde fixed_part grow_byte_body unfinished].
    set (al := fold_right _ 0 hs). set (be := fold_right _ (size_of_body c) hs). set (pe := _ + 64).
    eapply pays_bind with (mid := fun _ => size_of_body c + al).
    + assert (B : pays c (fits c) de_u32 0 (fun _ => 0 + size_of_body c) (0 + size_of_body c) pe).
      { apply pays_bank; [apply pays_quiet; [apply quiet_u32|intros; apply N.le_refl]|].
        eapply consumes_weaken; [apply consumes_u32|]. cbv beta. intros _ n (_ & Hn & _). nia. }
      apply (pays_shift _ _ _ _ _ _ _ al) in B. eapply pays_weaken; [exact B|lia|intros; cbv beta; lia| |lia]. rewrite N.add_0_l. apply max_base.
    + intros i. rewrite pickN_map. destruct (pickN hs (as_usize c i)) as [h|] eqn:E; cbn [option_map]; [|apply pays_quiet; [exact I|intros; apply N.le_0_l]].
      apply pickN_some in E as [Hin _]. apply pays_pmap, pays_boxed. rewrite Forall_forall in IH.
      eapply pays_weaken; [apply IH; [exact Hin|]|apply max_from, Hin|intros; apply N.le_refl|apply max_from, Hin|apply N.add_le_mono_r, max_from, Hin].
      destruct (hoccurs is_free_array h) eqn:E'; [|reflexivity]. rewrite <- Hf. symmetry. apply existsb_exists. exists h; auto.
Qed.

(** ** Statements *)
Lemma total_member n l : In n l -> n <= total l.
Proof. induction l as [|x l IH]; cbn [total]; intros []; [subst; lia|specialize (IH H); lia]. Qed.
Lemma cost_all {A} c (p : prog A) s : cost c (fun _ => true) p s = total (allocs c p s).
Proof. unfold cost. f_equal. induction (allocs c p s) as [|n l IH]; cbn [filter]; [reflexivity|]. rewrite IH. reflexivity. Qed.
Lemma typed_asked c m e d s : wf_cfg c -> 4096 <= heap_limit c -> sound_mem m e -> wf_dty d = true -> bytes_ok s ->
  match run c (gde c m d) s with
  | OOk v r => lenN r <= lenN s /\ total (allocs c (gde c m d) s) <= grow_byte c m e d * (lenN s - lenN r)
  | _ => total (allocs c (gde c m d) s) <= grow_byte c m e d * lenN s + 4096
  end.
Proof.
  intros Hw Hh Hm Hd Hs. assert (H := gde_pays c (fun _ => true) m e d Hw Hh Hm Hd s Hs). rewrite cost_all in H.
  destruct (run c (gde c m d) s); [destruct H; split|..]; lia.
Qed.
Lemma typed_enough c m e d s : wf_cfg c -> 4096 <= heap_limit c -> sound_mem m e -> wf_dty d = true -> bytes_ok s ->
  grow_byte c m e d * lenN s + 4096 <= heap_limit c -> heap_limit c <= isize_max c -> run c (gde c m d) s = run c (de c d) s.
Proof.
  intros Hw Hh Hm Hd Hs H1 H2. destruct (adds_run c _ _ (gde_adds c m d) s) as [E|(n & x & Hn & Ha & _)]; [exact E|exfalso].
  assert (H := typed_asked c m e d s Hw Hh Hm Hd Hs). apply total_member in Hn.
  assert (L : n <= grow_byte c m e d * lenN s + 4096).
  { destruct (run c (gde c m d) s) as [v r|y|y]; [|lia..]. destruct H as [_ H]. 
    assert (grow_byte c m e d * (lenN s - lenN r) <= grow_byte c m e d * lenN s) by (apply N.mul_le_mono_l; lia). lia. }
  unfold alloc_result in Ha. destruct (N.ltb_spec (isize_max c) n); [lia|]. destruct (N.ltb_spec (heap_limit c) n); [lia|]. discriminate.
Qed.
Lemma body_granted c m e h s : wf_cfg c -> 4096 <= heap_limit c -> sound_mem m e -> hoccurs is_free_array h = false -> bytes_ok s ->
  match run c (gbde c m h) s with
  | OOk v r => lenN r <= lenN s /\ total (granted c (gbde c m h) s) <= fixed_part c h + grow_byte_body c e h * (lenN s - lenN r)
  | _ => total (granted c (gbde c m h) s) <= fixed_part c h + grow_byte_body c e h * lenN s + (unfinished c h + 64)
  end.
Proof.
  intros Hw Hh Hm Hd Hs. assert (H := gbde_pays c m e h Hw Hh Hm Hd s Hs).
  change (cost c (fits c) (gbde c m h) s) with (total (granted c (gbde c m h) s)) in H.
  destruct (run c (gbde c m h) s); [destruct H; split|..]; lia.
Qed.

(** Members that take memory but no input. *)
Lemma reserve_room {A} c size len cap (k : N -> prog A) R : 0 < size -> len <= cap -> cap * size <= isize_max c ->
  (forall cap', len + 1 <= cap' -> cap' * size <= isize_max c -> consumes c (k cap') R) -> consumes c (reserve size len cap 1 k) R.
Proof.
  intros Hz Hl Hc H. unfold reserve. destruct (N.eqb_spec size 0); [lia|]. destruct (N.ltb_spec cap (len + 1)) as [L|L]; [|apply H; assumption].
  intros s a r Hs E. cbn [run] in E. unfold alloc_result in E. destruct (N.ltb_spec (isize_max c) (grown size cap (len + 1) * size)); [discriminate|].
  destruct (heap_limit c <? _); [discriminate|]. eapply (H (grown size cap (len + 1))); [unfold grown; lia|assumption|exact Hs|exact E].
Qed.
Lemma push_room {A} c size n (p : prog A) : 0 < size -> consumes c (g_push size n 0 p) (fun _ _ => n * size <= isize_max c).
Proof.
  intros Hz. unfold g_push. eapply consumes_bind with (R := fun _ _ => n * size <= isize_max c); [|intros; apply consumes_Ret; assumption].
  eapply consumes_weaken.
  - apply (consumes_foldN c n (push_step size p) ([], 0, 0) (fun i st _ => snd (fst st) = N.of_nat i /\ snd (fst st) <= snd st /\ snd st * size <= isize_max c)).
    + cbn [fst snd]. split; [reflexivity|split; lia].
    + intros i [[acc len] cap] k (H1 & H2 & H3). cbn [fst snd push_step] in *. eapply consumes_bind; [apply consumes_any|]. cbv beta. intros a _ _.
      apply reserve_room; [assumption..|]. intros cap' H4 H5. apply consumes_Ret. cbn [fst snd]. rewrite Nat2N.inj_succ. split; [lia|split; assumption].
  - cbv beta. intros [[acc len] cap] _ (H1 & H2 & H3). cbn [fst snd] in *. rewrite N2Nat.id in H1. subst. nia.
Qed.
Lemma free_crash c m d : wf_cfg c -> wf_dty d = true -> occupies d = false -> 0 < m_size m d ->
  exists s v x, (length s <= 9)%nat /\ bytes_ok s /\ run c (de c (DVec d)) s = OOk v [] /\ run c (gde c m (DVec d)) s = OPanic x.
Proof.
  intros Hw Hd Ho Hz. assert (Hm : varint_m 8) by (unfold varint_m; auto). set (n := 2 ^ usize_bits c - 1).
  assert (Hn : n < 2 ^ 64 /\ n < 2 ^ usize_bits c /\ isize_max c < n) by (unfold n, isize_max; destruct (usize_bits_cases c Hw) as [->| ->]; repeat split; reflexivity).
  destruct Hn as (Hn & Hn' & Hi). assert (Eu : as_usize c n = n) by (apply as_usize_id; exact Hn').
  assert (Hr : exists v, run c (de c d) [] = OOk v []) by (assert (E := de_empty c d Hd); rewrite Ho in E; exact E).
  destruct Hr as [v Hr].
  assert (Hok : exists l, run c (repeatN n (de c d)) [] = OOk l []).
  { unfold repeatN. rewrite run_bind, run_foldN. generalize (@nil sval). induction (N.to_nat n) as [|k IH]; intros acc; cbn [iter].
    - cbn [run obind]. eauto.
    - rewrite run_bind, run_bind, Hr. cbn [obind run]. apply IH. }
  destruct Hok as [l Hok]. exists (varint_bytes 8 n ++ []). 
  assert (Ed : run c (de c (DVec d)) (varint_bytes 8 n ++ []) = OOk (SSeq (Some (lenN l)) l) []).
  { cbn [de]. rewrite run_pmap. unfold de_vec. rewrite run_bind, run_u64_bytes by exact Hn. cbn [obind]. rewrite Eu, Hok. reflexivity. }
  exists (SSeq (Some (lenN l)) l).
  assert (Hb : bytes_ok (varint_bytes 8 n ++ [])) by (rewrite app_nil_r; apply varint_bytes_ok; assumption).
  destruct (adds_run c _ _ (gde_adds c m (DVec d)) (varint_bytes 8 n ++ [])) as [E|(q & x & _ & _ & E)].
  - exfalso. rewrite Ed in E. cbn [gde] in E. rewrite run_pmap in E. unfold g_vec in E. rewrite run_bind, run_u64_bytes in E by exact Hn. cbn [obind] in E. rewrite Eu in E.
    destruct (run c (g_push (m_size m d) n 0 (gde c m d)) []) as [l' r|y|y] eqn:Ep; try discriminate.
    assert (Hnil : bytes_ok []) by constructor.
    destruct (push_room c (m_size m d) n (gde c m d) Hz [] l' r Hnil Ep) as (q & _ & Hq). nia.
  - exists x. split; [rewrite app_nil_r; apply varint_bytes_len; assumption|]. auto.
Qed.
