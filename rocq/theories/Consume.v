(** * How much input a decoder consumes, related to what it returns. *)
From Verif Require Import Base BaseFacts Varint VarintFacts SpecVarint.

(** [consumes c p R]: whenever [p] returns [a] after reading [n] bytes, [R a n]. *)
Definition consumes {A} (c : cfg) (p : prog A) (R : A -> N -> Prop) : Prop :=
  forall s a r, bytes_ok s -> run c p s = OOk a r -> exists n, lenN s = n + lenN r /\ R a n.

Lemma consumes_Ret {A} c (a : A) (R : A -> N -> Prop) : R a 0 -> consumes c (Ret a) R.
Proof. intros H s b r _ E; injection E as <- <-; exists 0; auto. Qed.
Lemma consumes_Fail {A} c e (R : A -> N -> Prop) : consumes c (Fail e) R.
Proof. intros s b r _ E; discriminate. Qed.
Lemma consumes_Crash {A} c q (R : A -> N -> Prop) : consumes c (Crash q) R.
Proof. intros s b r _ E; discriminate. Qed.
Lemma consumes_bind {A B} c (p : prog A) (f : A -> prog B) (R : A -> N -> Prop) (Q : B -> N -> Prop) :
  consumes c p R -> (forall a n, R a n -> consumes c (f a) (fun b m => Q b (n + m))) ->
  consumes c (bind p f) Q.
Proof.
  intros Hp Hf s b r Hs E. apply run_bind_ok in E as (a & r' & E1 & E2).
  pose proof (run_rest _ _ _ _ _ Hs E1) as Hr.
  apply Hp in E1 as (n & En & Ha); [|exact Hs].
  apply (Hf a n Ha) in E2 as (m & Em & Hb); [|exact Hr].
  exists (n + m); split; [lia|exact Hb].
Qed.
Lemma consumes_pmap {A B} c (p : prog A) (f : A -> B) (R : A -> N -> Prop) (Q : B -> N -> Prop) :
  consumes c p R -> (forall a n, R a n -> Q (f a) n) -> consumes c (pmap f p) Q.
Proof.
  intros Hp Hf; eapply consumes_bind; [exact Hp|]. intros a n Ha; apply consumes_Ret.
  rewrite N.add_0_r; auto.
Qed.
Lemma consumes_weaken {A} c (p : prog A) (R Q : A -> N -> Prop) :
  consumes c p R -> (forall a n, R a n -> Q a n) -> consumes c p Q.
Proof. intros Hp HQ s a r Hs E; destruct (Hp s a r Hs E) as (n & En & Ha); eauto. Qed.
Lemma consumes_yields {A} c (p : prog A) (R : A -> N -> Prop) (P : A -> Prop) :
  consumes c p R -> yields c p P -> consumes c p (fun a n => R a n /\ P a).
Proof.
  intros Hp HP s a r Hs E. destruct (Hp s a r Hs E) as (n & En & Ha).
  exists n; split; [exact En|]. split; [exact Ha|]. eapply HP; eassumption.
Qed.
Lemma consumes_ReadExact {A} c e n (k : list N -> prog A) (R : A -> N -> Prop) :
  (forall bs, lenN bs = n -> bytes_ok bs -> consumes c (k bs) (fun a m => R a (n + m))) ->
  consumes c (ReadExact n e k) R.
Proof.
  intros Hk s a r Hs E; cbn [run] in E. destruct (N.ltb_spec (lenN s) n); [discriminate|].
  assert (Hl : lenN (takeN n s) = n) by (rewrite lenN_takeN; lia).
  apply (Hk _ Hl (Forall_takeN _ _ _ Hs)) in E as (m & Em & Ha); [|apply Forall_dropN, Hs].
  rewrite lenN_dropN in Em. exists (n + m); split; [lia|exact Ha].
Qed.
Lemma consumes_ReadLimit {A} c e n (k : list N -> prog A) (R : A -> N -> Prop) :
  (forall bs, lenN bs <= n -> bytes_ok bs -> consumes c (k bs) (fun a m => R a (lenN bs + m))) ->
  consumes c (ReadLimit n e k) R.
Proof.
  intros Hk s a r Hs E; cbn [run] in E.
  assert (Hl : lenN (takeN n s) = N.min n (lenN s)) by apply lenN_takeN.
  apply (Hk (takeN n s)) in E as (m & Em & Ha);
    [|lia|apply Forall_takeN, Hs|apply Forall_dropN, Hs].
  rewrite lenN_dropN in Em. exists (lenN (takeN n s) + m); split; [lia|exact Ha].
Qed.
Lemma consumes_Alloc {A} c n (k : prog A) (R : A -> N -> Prop) : consumes c k R -> consumes c (Alloc n k) R.
Proof. intros Hk s a r Hs E; cbn [run] in E. destruct (alloc_result c n); [discriminate|]. eauto. Qed.
Lemma consumes_ext {A} c (p q : prog A) (R : A -> N -> Prop) :
  (forall s, run c p s = run c q s) -> consumes c q R -> consumes c p R.
Proof. intros H Hq s a r Hs E; rewrite H in E; eauto. Qed.
Lemma consumes_iter {S} c n (step : S -> prog S) s (R : nat -> S -> N -> Prop) :
  R O s 0 ->
  (forall i s k, R i s k -> consumes c (step s) (fun s' m => R (Datatypes.S i) s' (k + m))) ->
  consumes c (iter n step s) (R n).
Proof.
  intros H0 Hs.
  assert (G : forall n i s k, R i s k -> consumes c (iter n step s) (fun s' m => R (n + i)%nat s' (k + m))).
  { clear n s H0; induction n as [|n IH]; intros i s k Hi; cbn [iter].
    - apply consumes_Ret. rewrite N.add_0_r; exact Hi.
    - eapply consumes_bind; [apply Hs, Hi|]. cbv beta. intros s' m Hm.
      eapply consumes_weaken; [apply IH, Hm|]. cbv beta. intros s2 m2 H2.
      rewrite N.add_assoc. replace (Datatypes.S n + i)%nat with (n + Datatypes.S i)%nat by lia. exact H2. }
  specialize (G n O s 0 H0). rewrite Nat.add_0_r in G. exact G.
Qed.
Lemma consumes_foldN {S} c n (step : S -> prog S) s (R : nat -> S -> N -> Prop) :
  R O s 0 ->
  (forall i s k, R i s k -> consumes c (step s) (fun s' m => R (Datatypes.S i) s' (k + m))) ->
  consumes c (foldN n step s) (R (N.to_nat n)).
Proof. intros H0 Hs; eapply consumes_ext; [intros; apply run_foldN|]. apply consumes_iter; assumption. Qed.

(** Total of a measure over a list. *)
Fixpoint sumN {A} (f : A -> N) (l : list A) : N :=
  match l with [] => 0 | a :: t => f a + sumN f t end.
Lemma sumN_app {A} (f : A -> N) l m : sumN f (l ++ m) = sumN f l + sumN f m.
Proof. induction l as [|a l IH]; cbn [app sumN]; lia. Qed.
Lemma sumN_map {A B} (f : B -> N) (g : A -> B) l : sumN f (map g l) = sumN (fun a => f (g a)) l.
Proof. induction l as [|a l IH]; cbn [map sumN]; [reflexivity|]. rewrite IH; reflexivity. Qed.
Lemma sumN_ext {A} (f g : A -> N) l : (forall a, In a l -> f a = g a) -> sumN f l = sumN g l.
Proof.
  induction l as [|a l IH]; intros H; cbn [sumN]; [reflexivity|].
  rewrite IH by (intros; apply H; right; assumption). rewrite (H a) by (left; reflexivity). reflexivity.
Qed.
Lemma sumN_le {A} (f g : A -> N) l : (forall a, In a l -> f a <= g a) -> sumN f l <= sumN g l.
Proof.
  induction l as [|a l IH]; intros H; cbn [sumN]; [lia|].
  assert (f a <= g a) by (apply H; left; reflexivity).
  assert (sumN f l <= sumN g l) by (apply IH; intros; apply H; right; assumption). lia.
Qed.
Lemma lenN_concat {A} (l : list (list A)) : lenN (concat l) = sumN lenN l.
Proof. induction l as [|a l IH]; cbn [concat sumN]; [reflexivity|]. rewrite lenN_app, IH; reflexivity. Qed.

Lemma consumes_rep {A} c n (p : prog A) (f : A -> N) :
  consumes c p (fun a m => f a <= m) -> consumes c (rep n p) (fun l m => length l = n /\ sumN f l <= m).
Proof.
  intros H; induction n as [|n IH]; cbn [rep]; [apply consumes_Ret; split; [reflexivity|cbn; lia]|].
  eapply consumes_bind; [exact H|]. cbv beta. intros a m Ha. eapply consumes_bind; [exact IH|]. cbv beta.
  intros l m' [<- Hl]; apply consumes_Ret. split; [reflexivity|]. cbn [sumN]; lia.
Qed.
Lemma consumes_repeatN {A} c n (p : prog A) (f : A -> N) :
  consumes c p (fun a m => f a <= m) -> consumes c (repeatN n p) (fun l m => lenN l = n /\ sumN f l <= m).
Proof.
  intros H; eapply consumes_ext; [intros; apply run_repeatN|].
  eapply consumes_weaken; [apply consumes_rep, H|]. cbv beta. unfold lenN. intros a m [Hl Hs]; split; [lia|exact Hs].
Qed.
Lemma consumes_sequence {A} c (ps : list (prog A)) (f : A -> N) :
  Forall (fun p => consumes c p (fun a m => f a <= m)) ps ->
  consumes c (sequence ps) (fun l m => sumN f l <= m).
Proof.
  induction 1 as [|p ps Hp Hps IH]; cbn [sequence]; [apply consumes_Ret; cbn; lia|].
  eapply consumes_bind; [exact Hp|]. cbv beta. intros a m Ha. eapply consumes_bind; [exact IH|]. cbv beta.
  intros l m' Hl; apply consumes_Ret. cbn [sumN]; lia.
Qed.

(** ** Integers *)
Lemma varint_run_consumes m e s v r : varint_m m -> bytes_ok s -> varint_run m e s = OOk v r ->
  exists n, lenN s = n + lenN r /\ lenN (varint_bytes m v) <= n /\ 1 <= n /\ v < 2 ^ (8 * N.of_nat m).
Proof.
  intros Hm Hs H. pose proof (varint_run_bound m _ _ _ _ Hm Hs H) as Hb.
  apply varint_run_inv in H as (q & u & -> & Hq & Hu & Hl & ->); [|exact Hs].
  pose proof (varint_reencode m q u Hm Hq Hu Hl). cbn [length] in *.
  exists (lenN u + 1). rewrite lenN_cons, lenN_app. unfold lenN in *. repeat split; try lia; exact Hb.
Qed.
Lemma consumes_u16 c e : consumes c (dec_u16 e) (fun v n => lenN (enc_u16 v) <= n /\ 1 <= n /\ v < 2 ^ 16).
Proof.
  intros s v r Hs H. rewrite dec_u16_run in H by (apply bytes_guard, Hs).
  apply (varint_run_consumes 2) in H as (n & E & H1 & H2 & H3); [|left; reflexivity|exact Hs].
  exists n; rewrite enc_u16_spec by exact H3; auto.
Qed.
Lemma consumes_u32 c e : consumes c (dec_u32 e) (fun v n => lenN (enc_u32 v) <= n /\ 1 <= n /\ v < 2 ^ 32).
Proof.
  intros s v r Hs H. rewrite dec_u32_run in H by (apply bytes_guard, Hs).
  apply (varint_run_consumes 4) in H as (n & E & H1 & H2 & H3); [|right; left; reflexivity|exact Hs].
  exists n; rewrite enc_u32_spec by exact H3; auto.
Qed.
Lemma consumes_u64 c e : consumes c (dec_u64 e) (fun v n => lenN (enc_u64 v) <= n /\ 1 <= n /\ v < 2 ^ 64).
Proof.
  intros s v r Hs H. rewrite dec_u64_run in H by (apply bytes_guard, Hs).
  apply (varint_run_consumes 8) in H as (n & E & H1 & H2 & H3); [|right; right; reflexivity|exact Hs].
  exists n; rewrite enc_u64_spec by exact H3; auto.
Qed.

(** Bigger numbers never have shorter encodings. *)
Lemma varint_len_mono m a b : varint_m m -> a <= b -> b < 2 ^ (8 * N.of_nat m) ->
  (length (varint_bytes m a) <= length (varint_bytes m b))%nat.
Proof.
  intros Hm Hab Hb. assert (Ha : a < 2 ^ (8 * N.of_nat m)) by lia.
  pose proof (varint_bytes_len m b Hm Hb) as Lb. pose proof (varint_bytes_len m a Hm Ha) as La.
  destruct (Nat.le_gt_cases (length (varint_bytes m a)) (length (varint_bytes m b))) as [|Hgt]; [assumption|].
  destruct (varint_bytes_shape m b Hm Hb) as (p & t & E & _).
  set (lb := length (varint_bytes m b)) in *.
  assert (Hpos : (1 <= lb)%nat) by (unfold lb; rewrite E; cbn [length]; lia).
  assert (Hj : (lb - 1 < m)%nat) by lia.
  pose proof (proj1 (varint_bytes_length_iff m b (lb - 1) Hm Hb Hj)) as H1.
  pose proof (proj2 (varint_bytes_length_iff m a (lb - 1) Hm Ha Hj)) as H2. fold lb in H1.
  assert (H3 : b < 2 ^ (7 * (N.of_nat (lb - 1) + 1))) by (apply H1; lia).
  assert (H4 : a < 2 ^ (7 * (N.of_nat (lb - 1) + 1))) by (clear - H3 Hab; lia).
  specialize (H2 H4). lia.
Qed.
Lemma enc_u64_mono a b : a <= b -> b < 2 ^ 64 -> lenN (enc_u64 a) <= lenN (enc_u64 b).
Proof.
  intros Hab Hb. rewrite !enc_u64_spec by lia.
  pose proof (varint_len_mono 8 a b (or_intror (or_intror eq_refl)) Hab Hb). unfold lenN; lia.
Qed.
