(** * Lemmas about Base: running programs, loops, prefixes. *)
From Verif Require Import Base.

(** ** Lists indexed by N *)
Lemma lenN_nil {A} : lenN (@nil A) = 0. Proof. reflexivity. Qed.
Lemma lenN_cons {A} (a : A) l : lenN (a :: l) = lenN l + 1.
Proof. unfold lenN; cbn [length]; lia. Qed.
Lemma lenN_app {A} (l m : list A) : lenN (l ++ m) = lenN l + lenN m.
Proof. unfold lenN; rewrite app_length; lia. Qed.
Lemma lenN_map {A B} (f : A -> B) l : lenN (map f l) = lenN l.
Proof. unfold lenN; rewrite map_length; reflexivity. Qed.
Lemma lenN_rev {A} (l : list A) : lenN (rev l) = lenN l.
Proof. unfold lenN; rewrite rev_length; reflexivity. Qed.
Lemma lenN_0 {A} (l : list A) : lenN l = 0 -> l = [].
Proof. destruct l; [reflexivity | rewrite lenN_cons; lia]. Qed.

Lemma takeN_firstn n s : takeN n s = firstn (N.to_nat n) s.
Proof.
  unfold takeN, lenN; destruct (N.leb_spec (N.of_nat (length s)) n); [|reflexivity].
  symmetry; apply firstn_all2; lia.
Qed.
Lemma dropN_skipn n s : dropN n s = skipn (N.to_nat n) s.
Proof.
  unfold dropN, lenN; destruct (N.leb_spec (N.of_nat (length s)) n); [|reflexivity].
  symmetry; apply skipn_all2; lia.
Qed.
Lemma take_drop n s : takeN n s ++ dropN n s = s.
Proof. rewrite takeN_firstn, dropN_skipn; apply firstn_skipn. Qed.
Lemma takeN_app u t : takeN (lenN u) (u ++ t) = u.
Proof.
  rewrite takeN_firstn; unfold lenN; rewrite Nnat.Nat2N.id, firstn_app, firstn_all, Nat.sub_diag.
  cbn [firstn]; apply app_nil_r.
Qed.
Lemma dropN_app u t : dropN (lenN u) (u ++ t) = t.
Proof.
  rewrite dropN_skipn; unfold lenN; rewrite Nnat.Nat2N.id, skipn_app, skipn_all, Nat.sub_diag.
  reflexivity.
Qed.
Lemma takeN_app_n n u t : lenN u = n -> takeN n (u ++ t) = u.
Proof. intros <-; apply takeN_app. Qed.
Lemma dropN_app_n n u t : lenN u = n -> dropN n (u ++ t) = t.
Proof. intros <-; apply dropN_app. Qed.
Lemma lenN_takeN n s : lenN (takeN n s) = N.min n (lenN s).
Proof. rewrite takeN_firstn; unfold lenN; rewrite firstn_length; lia. Qed.
Lemma lenN_dropN n s : lenN (dropN n s) = lenN s - n.
Proof. rewrite dropN_skipn; unfold lenN; rewrite skipn_length; lia. Qed.
Lemma takeN_all n s : lenN s <= n -> takeN n s = s.
Proof. unfold takeN; intros H; destruct (N.leb_spec (lenN s) n); [reflexivity|lia]. Qed.
Lemma dropN_all n s : lenN s <= n -> dropN n s = [].
Proof. unfold dropN; intros H; destruct (N.leb_spec (lenN s) n); [reflexivity|lia]. Qed.
Lemma takeN_0 s : takeN 0 s = [].
Proof. rewrite takeN_firstn; reflexivity. Qed.
Lemma dropN_0 s : dropN 0 s = s.
Proof. rewrite dropN_skipn; reflexivity. Qed.

Lemma takeN_add n m s : takeN (n + m) s = takeN n s ++ takeN m (dropN n s).
Proof.
  rewrite !takeN_firstn, dropN_skipn, N2Nat.inj_add. generalize (N.to_nat n) (N.to_nat m); clear n m.
  intros n m; revert s; induction n as [|n IH]; intros s; [reflexivity|].
  destruct s as [|x s]; [cbn; rewrite firstn_nil; reflexivity|]. cbn [Nat.add firstn skipn app]. f_equal; apply IH.
Qed.
Lemma dropN_add n m s : dropN (n + m) s = dropN m (dropN n s).
Proof.
  rewrite !dropN_skipn, N2Nat.inj_add. generalize (N.to_nat n) (N.to_nat m); clear n m.
  intros n m; revert s; induction n as [|n IH]; intros s; [reflexivity|].
  destruct s as [|x s]; [cbn; rewrite skipn_nil; reflexivity|]. cbn [Nat.add skipn]. apply IH.
Qed.
Lemma Forall_takeN (P : N -> Prop) n s : Forall P s -> Forall P (takeN n s).
Proof.
  intros H; rewrite <- (take_drop n s) in H; apply Forall_app in H; tauto.
Qed.
Lemma Forall_dropN (P : N -> Prop) n s : Forall P s -> Forall P (dropN n s).
Proof.
  intros H; rewrite <- (take_drop n s) in H; apply Forall_app in H; tauto.
Qed.

Lemma bytes_okb_ok bs : bytes_okb bs = true <-> bytes_ok bs.
Proof.
  unfold bytes_okb, bytes_ok, byte_ok; rewrite forallb_forall, Forall_forall.
  split; intros H x Hx; specialize (H x Hx); lia.
Qed.

(** ** bind *)
Definition obind {A B} (o : outcome A) (f : A -> list N -> outcome B) : outcome B :=
  match o with OOk a r => f a r | OErr e => OErr e | OPanic p => OPanic p end.

Lemma run_bind {A B} c (p : prog A) (f : A -> prog B) s :
  run c (bind p f) s = obind (run c p s) (fun a r => run c (f a) r).
Proof.
  revert s; induction p as [a|e|q|n e k IH|n e k IH|n k IH]; intros s; cbn [bind run obind].
  - reflexivity.
  - reflexivity.
  - reflexivity.
  - destruct (lenN s <? n); [reflexivity|]. apply IH.
  - apply IH.
  - destruct (alloc_result c n); [reflexivity|]. apply IH.
Qed.
Lemma run_pmap {A B} c (p : prog A) (f : A -> B) s :
  run c (pmap f p) s = obind (run c p s) (fun a r => OOk (f a) r).
Proof. unfold pmap; rewrite run_bind; reflexivity. Qed.

Lemma obind_obind {A B C} (o : outcome A) (f : A -> list N -> outcome B) (g : B -> list N -> outcome C) :
  obind (obind o f) g = obind o (fun a r => obind (f a r) g).
Proof. destruct o; reflexivity. Qed.
Lemma obind_ext {A B} (o : outcome A) (f g : A -> list N -> outcome B) :
  (forall a r, f a r = g a r) -> obind o f = obind o g.
Proof. intros H; destruct o; cbn [obind]; auto. Qed.
Lemma obind_ret {A} (o : outcome A) : obind o (fun a r => OOk a r) = o.
Proof. destruct o; reflexivity. Qed.
Lemma obind_ok {A B} (o : outcome A) (f : A -> list N -> outcome B) b r :
  obind o f = OOk b r -> exists a r', o = OOk a r' /\ f a r' = OOk b r.
Proof. destruct o; cbn [obind]; intros H; [eauto|discriminate|discriminate]. Qed.

Lemma run_bind_ok {A B} c (p : prog A) (f : A -> prog B) s b r :
  run c (bind p f) s = OOk b r ->
  exists a r', run c p s = OOk a r' /\ run c (f a) r' = OOk b r.
Proof. rewrite run_bind; apply obind_ok. Qed.
Lemma run_pmap_ok {A B} c (p : prog A) (f : A -> B) s b r :
  run c (pmap f p) s = OOk b r -> exists a, run c p s = OOk a r /\ b = f a.
Proof.
  unfold pmap; intros H; apply run_bind_ok in H as (a & r' & H1 & H2).
  cbn [run] in H2; injection H2 as <- <-; eauto.
Qed.

(** ** Loops *)
Fixpoint iter {S} (n : nat) (step : S -> prog S) (s : S) : prog S :=
  match n with O => Ret s | Datatypes.S n' => s' <- step s ;; iter n' step s' end.

Lemma run_iter_S {S} c n (step : S -> prog S) s i :
  run c (iter (Datatypes.S n) step s) i = obind (run c (step s) i) (fun s' r => run c (iter n step s') r).
Proof. cbn [iter]; apply run_bind. Qed.

Lemma run_iter_add {S} c n m (step : S -> prog S) s i :
  run c (iter (n + m) step s) i =
  obind (run c (iter n step s) i) (fun s' r => run c (iter m step s') r).
Proof.
  revert s i; induction n as [|n IH]; intros s i.
  - reflexivity.
  - cbn [Nat.add]; rewrite !run_iter_S, obind_obind; apply obind_ext; intros; apply IH.
Qed.

Lemma run_fold_pos {S} c n (step : S -> prog S) s i :
  run c (fold_pos n step s) i = run c (iter (Pos.to_nat n) step s) i.
Proof.
  revert s i; induction n as [n IH|n IH|]; intros s i; cbn [fold_pos].
  - replace (Pos.to_nat n~1) with (Datatypes.S (Pos.to_nat n + Pos.to_nat n)) by lia.
    rewrite run_iter_S, run_bind; apply obind_ext; intros s0 r0.
    rewrite run_bind, run_iter_add, IH; apply obind_ext; intros; apply IH.
  - replace (Pos.to_nat n~0) with (Pos.to_nat n + Pos.to_nat n)%nat by lia.
    rewrite run_bind, run_iter_add, IH; apply obind_ext; intros; apply IH.
  - change (Pos.to_nat 1) with 1%nat; cbn [iter]; rewrite run_bind; cbn [run].
    symmetry; apply obind_ret.
Qed.
Lemma run_foldN {S} c n (step : S -> prog S) s i :
  run c (foldN n step s) i = run c (iter (N.to_nat n) step s) i.
Proof. destruct n as [|n]; [reflexivity|]. cbn [foldN]; apply run_fold_pos. Qed.

(** [repeatN] as a plain recursion *)
Fixpoint rep {A} (n : nat) (p : prog A) : prog (list A) :=
  match n with O => Ret [] | S n' => a <- p ;; l <- rep n' p ;; Ret (a :: l) end.

Lemma run_rep_acc {A} c n (p : prog A) acc i :
  run c (iter n (fun acc => a <- p ;; Ret (a :: acc)) acc) i =
  obind (run c (rep n p) i) (fun l r => OOk (rev l ++ acc) r).
Proof.
  revert acc i; induction n as [|n IH]; intros acc i.
  - reflexivity.
  - rewrite run_iter_S; cbn [rep]; rewrite !run_bind, !obind_obind; apply obind_ext; intros a r.
    cbn [run obind]; rewrite IH, run_bind, obind_obind; apply obind_ext; intros l r'.
    cbn [run obind rev]; rewrite <- app_assoc; reflexivity.
Qed.
Lemma run_repeatN {A} c n (p : prog A) i :
  run c (repeatN n p) i = run c (rep (N.to_nat n) p) i.
Proof.
  unfold repeatN; rewrite run_bind, run_foldN, run_rep_acc, obind_obind.
  transitivity (obind (run c (rep (N.to_nat n) p) i) (fun l r => OOk l r)).
  - apply obind_ext; intros l r; cbn [obind run]; rewrite app_nil_r, rev_involutive; reflexivity.
  - apply obind_ret.
Qed.

(** ** Complete encodings.

    [parses c e p u a]: on [u] followed by anything, [p] consumes exactly [u] and returns [a];
    on a proper prefix of [u] it fails with [e]. *)
Definition parses {A} (c : cfg) (e : derr) (p : prog A) (u : list N) (a : A) : Prop :=
  (forall t, run c p (u ++ t) = OOk a t) /\
  (forall u' x t', u = u' ++ x :: t' -> run c p u' = OErr e).

Lemma parses_ret {A} c e (a : A) : parses c e (Ret a) [] a.
Proof.
  split; [reflexivity|]. intros u' x t' H; destruct u'; discriminate.
Qed.

Lemma app_split {A} (u1 u2 u' t : list A) x :
  u1 ++ u2 = u' ++ x :: t ->
  (exists t1, u1 = u' ++ x :: t1) \/ (exists u2', u' = u1 ++ u2' /\ u2 = u2' ++ x :: t).
Proof.
  revert u'; induction u1 as [|a u1 IH]; intros u' H.
  - right; exists u'; auto.
  - destruct u' as [|b u']; cbn [app] in H.
    + injection H as -> H; left; exists u1; reflexivity.
    + injection H as -> H. apply IH in H as [[t1 H]|(u2' & H1 & H2)].
      * left; exists t1; rewrite H; reflexivity.
      * right; exists u2'; rewrite H1; auto.
Qed.

Lemma parses_bind {A B} c e (p : prog A) (f : A -> prog B) u1 u2 a b :
  parses c e p u1 a -> parses c e (f a) u2 b -> parses c e (bind p f) (u1 ++ u2) b.
Proof.
  intros [H1 H1'] [H2 H2']; split.
  - intros t; rewrite run_bind, <- app_assoc, H1; cbn [obind]; apply H2.
  - intros u' x t' H. rewrite run_bind.
    apply app_split in H as [[t1 H]|(u2' & -> & H)].
    + rewrite (H1' _ _ _ H); reflexivity.
    + rewrite H1; cbn [obind]. eapply H2'; eassumption.
Qed.
Lemma parses_pmap {A B} c e (p : prog A) (f : A -> B) u a :
  parses c e p u a -> parses c e (pmap f p) u (f a).
Proof.
  intros H; unfold pmap. rewrite <- (app_nil_r u).
  eapply parses_bind; [exact H | apply parses_ret].
Qed.
Lemma parses_bind_ret {A B} c e (p : prog A) (f : A -> prog B) u a b :
  parses c e p u a -> f a = Ret b -> parses c e (bind p f) u b.
Proof.
  intros H Hf; rewrite <- (app_nil_r u); eapply parses_bind; [exact H|].
  rewrite Hf; apply parses_ret.
Qed.
Lemma parses_ReadExact {A} c e n (k : list N -> prog A) u v a :
  lenN u = n -> parses c e (k u) v a -> parses c e (ReadExact n e k) (u ++ v) a.
Proof.
  intros Hn [H1 H2]; split.
  - intros t; rewrite <- app_assoc; cbn [run].
    rewrite lenN_app, (takeN_app_n n), (dropN_app_n n) by assumption.
    destruct (N.ltb_spec (lenN u + lenN (v ++ t)) n); [lia|]. apply H1.
  - intros u' x t' H; cbn [run].
    apply app_split in H as [[t1 H]|(u2' & -> & H)].
    + destruct (N.ltb_spec (lenN u') n) as [_|Hlt]; [reflexivity|].
      rewrite H, lenN_app, lenN_cons in Hn; lia.
    + rewrite lenN_app, (takeN_app_n n), (dropN_app_n n) by assumption.
      destruct (N.ltb_spec (lenN u + lenN u2') n); [lia|]. eapply H2; eassumption.
Qed.
Lemma parses_Alloc {A} c e n (k : prog A) u a :
  alloc_result c n = None -> parses c e k u a -> parses c e (Alloc n k) u a.
Proof.
  intros Ha [H1 H2]; split; intros; cbn [run]; rewrite Ha; eauto.
Qed.
Lemma parses_ext {A} c e (p q : prog A) u a :
  (forall s, run c p s = run c q s) -> parses c e q u a -> parses c e p u a.
Proof. intros H [H1 H2]; split; intros; rewrite H; eauto. Qed.

Lemma parses_sequence {A} c e (ps : list (prog A)) us l :
  Forall2 (fun pu a => parses c e (fst pu) (snd pu) a) (combine ps us) l ->
  length ps = length us ->
  parses c e (sequence ps) (concat us) l.
Proof.
  revert us l; induction ps as [|p ps IH]; intros us l H Hlen.
  - destruct us; [|discriminate]. cbn [combine] in H; inversion H; subst; apply parses_ret.
  - destruct us as [|u us]; [discriminate|]. cbn [combine] in H.
    inversion H as [|pu a ? l' Hp Hrest]; subst; cbn [fst snd] in Hp.
    cbn [sequence concat]. eapply parses_bind; [exact Hp|].
    eapply parses_bind_ret; [apply IH; [eassumption|cbn [length] in Hlen; lia]|reflexivity].
Qed.

Lemma parses_rep {A} c e (p : prog A) us l :
  Forall2 (parses c e p) us l -> parses c e (rep (length l) p) (concat us) l.
Proof.
  induction 1 as [|u a us l Hp Hrest IH]; cbn [length rep concat]; [apply parses_ret|].
  eapply parses_bind; [exact Hp|]. eapply parses_bind_ret; [exact IH|reflexivity].
Qed.
Lemma parses_repeatN {A} c e (p : prog A) us l n :
  Forall2 (parses c e p) us l -> lenN l = n -> parses c e (repeatN n p) (concat us) l.
Proof.
  intros H <-; eapply parses_ext; [intros; apply run_repeatN|].
  unfold lenN; rewrite Nnat.Nat2N.id; apply parses_rep; assumption.
Qed.

Lemma parses_unique {A} c e (p : prog A) u1 u2 a1 a2 t :
  parses c e p u1 a1 -> parses c e p u2 a2 -> u2 = u1 ++ t -> a1 = a2 /\ t = [].
Proof.
  intros [H1 _] [H2 _] ->. specialize (H1 t); specialize (H2 []).
  rewrite app_nil_r, H1 in H2; injection H2 as -> ->; auto.
Qed.

(** ** Locality.
    [local c e p]: whatever [p] accepts, what it consumed is a complete encoding. *)
Definition local {A} (c : cfg) (e : derr) (p : prog A) : Prop :=
  forall s a r, bytes_ok s -> run c p s = OOk a r -> exists u, s = u ++ r /\ parses c e p u a.
(** [yields c p P]: every value [p] returns satisfies [P]. *)
Definition yields {A} (c : cfg) (p : prog A) (P : A -> Prop) : Prop :=
  forall s a r, bytes_ok s -> run c p s = OOk a r -> P a.

Lemma local_Ret {A} c e (a : A) : local c e (Ret a).
Proof. intros s b r _ H; injection H as <- <-; exists []; split; [reflexivity|apply parses_ret]. Qed.
Lemma local_Fail {A} c e e' : local c e (@Fail A e').
Proof. intros s b r _ H; discriminate. Qed.
Lemma local_Crash {A} c e q : local c e (@Crash A q).
Proof. intros s b r _ H; discriminate. Qed.
Lemma local_rest {A} c e (p : prog A) s a r :
  local c e p -> bytes_ok s -> run c p s = OOk a r -> bytes_ok r.
Proof.
  intros Hl Hs H; apply Hl in H as (u & -> & _); [|exact Hs]. apply Forall_app in Hs; tauto.
Qed.
Lemma local_bind_dep {A B} c e (p : prog A) (f : A -> prog B) (P : A -> Prop) :
  local c e p -> yields c p P -> (forall a, P a -> local c e (f a)) -> local c e (bind p f).
Proof.
  intros Hp Hy Hf s b r Hs H. apply run_bind_ok in H as (a & r' & H1 & H2).
  pose proof (Hy _ _ _ Hs H1) as Ha. pose proof (local_rest _ _ _ _ _ _ Hp Hs H1) as Hr.
  apply Hp in H1 as (u1 & -> & P1); [|exact Hs].
  apply (Hf _ Ha) in H2 as (u2 & -> & P2); [|exact Hr].
  exists (u1 ++ u2); split; [apply app_assoc|]. eapply parses_bind; eassumption.
Qed.
Lemma local_bind {A B} c e (p : prog A) (f : A -> prog B) :
  local c e p -> (forall a, local c e (f a)) -> local c e (bind p f).
Proof.
  intros Hp Hf; apply local_bind_dep with (P := fun _ => True); [exact Hp| |auto].
  intros s a r _ _; exact I.
Qed.
Lemma local_pmap {A B} c e (p : prog A) (f : A -> B) : local c e p -> local c e (pmap f p).
Proof. intros H; apply local_bind; [exact H | intros; apply local_Ret]. Qed.
Lemma local_ReadExact {A} c e n (k : list N -> prog A) :
  (forall bs, lenN bs = n -> local c e (k bs)) -> local c e (ReadExact n e k).
Proof.
  intros Hk s a r Hs H; cbn [run] in H.
  destruct (N.ltb_spec (lenN s) n) as [|Hn]; [discriminate|].
  assert (Hl : lenN (takeN n s) = n) by (rewrite lenN_takeN; lia).
  apply (Hk _ Hl) in H as (u & Hu & P); [|apply Forall_dropN; exact Hs].
  exists (takeN n s ++ u); split.
  - rewrite <- app_assoc, <- Hu; symmetry; apply take_drop.
  - apply parses_ReadExact; assumption.
Qed.
Lemma local_Alloc {A} c e n (k : prog A) : local c e k -> local c e (Alloc n k).
Proof.
  intros Hk s a r Hs H; cbn [run] in H.
  destruct (alloc_result c n) eqn:Ha; [discriminate|].
  apply Hk in H as (u & -> & P); [|exact Hs]; exists u; split; [reflexivity|].
  apply parses_Alloc; assumption.
Qed.
Lemma local_ext {A} c e (p q : prog A) :
  (forall s, run c p s = run c q s) -> local c e q -> local c e p.
Proof.
  intros H Hq s a r Hs Hr; rewrite H in Hr; apply Hq in Hr as (u & -> & P); [|exact Hs].
  exists u; split; [reflexivity|]. eapply parses_ext; eassumption.
Qed.
Lemma local_iter {S} c e n (step : S -> prog S) s :
  (forall s, local c e (step s)) -> local c e (iter n step s).
Proof.
  intros H; revert s; induction n as [|n IH]; intros s; cbn [iter]; [apply local_Ret|].
  apply local_bind; [apply H|exact IH].
Qed.
Lemma local_foldN {S} c e n (step : S -> prog S) s :
  (forall s, local c e (step s)) -> local c e (foldN n step s).
Proof. intros H; eapply local_ext; [intros; apply run_foldN|]. apply local_iter; exact H. Qed.
Lemma local_repeatN {A} c e n (p : prog A) : local c e p -> local c e (repeatN n p).
Proof.
  intros H; unfold repeatN. apply local_bind; [|intros; apply local_Ret].
  apply local_foldN; intros s; apply local_bind; [exact H|intros; apply local_Ret].
Qed.
Lemma local_sequence {A} c e (ps : list (prog A)) :
  Forall (local c e) ps -> local c e (sequence ps).
Proof.
  induction 1 as [|p ps Hp Hps IH]; cbn [sequence]; [apply local_Ret|].
  apply local_bind; [exact Hp|]; intros; apply local_bind; [exact IH|intros; apply local_Ret].
Qed.

(** *** Values returned. [rests c p]: what is left unread of a byte string are bytes. *)
Lemma run_rest {A} c (p : prog A) s a r : bytes_ok s -> run c p s = OOk a r -> bytes_ok r.
Proof.
  revert s; induction p as [x|e|q|n e k IH|n e k IH|n k IH]; intros s Hs H; cbn [run] in H.
  - injection H as _ <-; exact Hs.
  - discriminate.
  - discriminate.
  - destruct (lenN s <? n); [discriminate|]. eapply IH; [|exact H]. apply Forall_dropN, Hs.
  - eapply IH; [|exact H]. apply Forall_dropN, Hs.
  - destruct (alloc_result c n); [discriminate|]. eapply IH; eassumption.
Qed.
Lemma yields_Ret {A} c (a : A) (P : A -> Prop) : P a -> yields c (Ret a) P.
Proof. intros Ha s b r _ H; injection H as <- _; exact Ha. Qed.
Lemma yields_Fail {A} c e (P : A -> Prop) : yields c (Fail e) P.
Proof. intros s b r _ H; discriminate. Qed.
Lemma yields_Crash {A} c q (P : A -> Prop) : yields c (Crash q) P.
Proof. intros s b r _ H; discriminate. Qed.
Lemma yields_bind {A B} c (p : prog A) (f : A -> prog B) (P : A -> Prop) (Q : B -> Prop) :
  yields c p P -> (forall a, P a -> yields c (f a) Q) -> yields c (bind p f) Q.
Proof.
  intros Hp Hf s b r Hs H. apply run_bind_ok in H as (a & r' & H1 & H2).
  eapply Hf; [eapply Hp; eassumption| |exact H2]. eapply run_rest; eassumption.
Qed.
Lemma yields_pmap {A B} c (p : prog A) (f : A -> B) (P : A -> Prop) (Q : B -> Prop) :
  yields c p P -> (forall a, P a -> Q (f a)) -> yields c (pmap f p) Q.
Proof. intros Hp Hf; eapply yields_bind; [exact Hp|]; intros; apply yields_Ret; auto. Qed.
Lemma yields_ReadExact {A} c e n (k : list N -> prog A) (P : A -> Prop) :
  (forall bs, lenN bs = n -> bytes_ok bs -> yields c (k bs) P) -> yields c (ReadExact n e k) P.
Proof.
  intros Hk s a r Hs H; cbn [run] in H.
  destruct (N.ltb_spec (lenN s) n); [discriminate|].
  eapply Hk; [| | |exact H].
  - rewrite lenN_takeN; lia.
  - apply Forall_takeN, Hs.
  - apply Forall_dropN, Hs.
Qed.
Lemma yields_ReadLimit {A} c e n (k : list N -> prog A) (P : A -> Prop) :
  (forall bs, lenN bs <= n -> bytes_ok bs -> yields c (k bs) P) -> yields c (ReadLimit n e k) P.
Proof.
  intros Hk s a r Hs H; cbn [run] in H.
  eapply Hk; [| | |exact H].
  - rewrite lenN_takeN; lia.
  - apply Forall_takeN, Hs.
  - apply Forall_dropN, Hs.
Qed.
Lemma yields_Alloc {A} c n (k : prog A) (P : A -> Prop) : yields c k P -> yields c (Alloc n k) P.
Proof. intros Hk s a r Hs H; cbn [run] in H. destruct (alloc_result c n); [discriminate|]. eauto. Qed.
Lemma yields_weaken {A} c (p : prog A) (P Q : A -> Prop) :
  yields c p P -> (forall a, P a -> Q a) -> yields c p Q.
Proof. intros H HPQ s a r Hs Hr; eauto. Qed.
Lemma yields_iter {S} c n (step : S -> prog S) s (P : nat -> S -> Prop) :
  P O s -> (forall i s, P i s -> yields c (step s) (P (Datatypes.S i))) -> yields c (iter n step s) (P n).
Proof.
  intros H0 Hs.
  assert (G : forall n i s, P i s -> yields c (iter n step s) (P (n + i)%nat)).
  { clear n s H0; induction n as [|n IH]; intros i s Hi; cbn [iter]; [apply yields_Ret; exact Hi|].
    eapply yields_bind; [apply Hs, Hi|]; intros s' Hs'.
    eapply yields_weaken; [apply IH, Hs'|]. intros a Ha; replace (Datatypes.S n + i)%nat with (n + Datatypes.S i)%nat by lia.
    exact Ha. }
  specialize (G n O s H0). rewrite Nat.add_0_r in G; exact G.
Qed.
Lemma yields_foldN {S} c n (step : S -> prog S) s (P : S -> Prop) :
  P s -> (forall s, P s -> yields c (step s) P) -> yields c (foldN n step s) P.
Proof.
  intros H0 Hs s0 a r Hb H; rewrite run_foldN in H.
  exact (yields_iter c (N.to_nat n) step s (fun _ => P) H0 (fun _ => Hs) s0 a r Hb H).
Qed.
Lemma yields_rep {A} c n (p : prog A) (P : A -> Prop) :
  yields c p P -> yields c (rep n p) (fun l => length l = n /\ Forall P l).
Proof.
  intros H; induction n as [|n IH]; cbn [rep]; [apply yields_Ret; split; [reflexivity|constructor]|].
  eapply yields_bind; [exact H|]; intros a Ha. eapply yields_bind; [exact IH|].
  intros l [<- Hl]; apply yields_Ret; split; [reflexivity|constructor; assumption].
Qed.
Lemma yields_repeatN {A} c n (p : prog A) (P : A -> Prop) :
  yields c p P -> yields c (repeatN n p) (fun l => lenN l = n /\ Forall P l).
Proof.
  intros H s l r Hs Hr; rewrite run_repeatN in Hr.
  apply (yields_rep _ _ _ _ H) in Hr as [Hl HF]; [|exact Hs]. unfold lenN; split; [lia|exact HF].
Qed.
Lemma yields_sequence {A} c (ps : list (prog A)) (Ps : list (A -> Prop)) :
  Forall2 (yields c) ps Ps -> yields c (sequence ps) (Forall2 (fun (P : A -> Prop) a => P a) Ps).
Proof.
  induction 1 as [|p P ps Ps Hp Hps IH]; cbn [sequence]; [apply yields_Ret; constructor|].
  eapply yields_bind; [exact Hp|]; intros a Ha. eapply yields_bind; [exact IH|].
  intros l Hl; apply yields_Ret; constructor; assumption.
Qed.

(** ** Write traces *)
Lemma wbytes_wseq_done a b : wresult a = WeOk -> wbytes (wseq a b) = wbytes a ++ wbytes b.
Proof.
  induction a as [|e|p|bs k IH]; cbn [wresult wseq wbytes]; intros H; try discriminate; [reflexivity|].
  rewrite IH, app_assoc by exact H; reflexivity.
Qed.
Lemma wresult_wseq a b :
  wresult (wseq a b) = match wresult a with WeOk => wresult b | r => r end.
Proof. induction a; cbn [wresult wseq]; auto. Qed.
Lemma wresult_wconcat l :
  Forall (fun w => wresult w = WeOk) l -> wresult (wconcat l) = WeOk.
Proof.
  induction 1 as [|w l Hw Hl IH]; [reflexivity|].
  cbn [wconcat fold_right]; rewrite wresult_wseq, Hw; exact IH.
Qed.
Lemma wbytes_wconcat l :
  Forall (fun w => wresult w = WeOk) l -> wbytes (wconcat l) = concat (map wbytes l).
Proof.
  induction 1 as [|w l Hw Hl IH]; [reflexivity|].
  change (wconcat (w :: l)) with (wseq w (wconcat l)).
  cbn [map concat]; rewrite wbytes_wseq_done, IH by exact Hw; reflexivity.
Qed.

Lemma local_parses {A} c e (p : prog A) u a :
  local c e p -> bytes_ok u -> run c p u = OOk a [] -> parses c e p u a.
Proof.
  intros Hl Hu H; apply Hl in H as (u' & -> & P); [|exact Hu]. rewrite app_nil_r; exact P.
Qed.
