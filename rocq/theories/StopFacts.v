(** * Reading stops at the last byte of a value. *)
From Verif Require Import Base BaseFacts Io SpecIo SpecStop IoFacts SerdeSafe.
Local Open Scope list_scope.
Local Open Scope N_scope.

Lemma delivered_nil t : delivered t [] -> t = [].
Proof. intros H. inversion H as [| |]; reflexivity. Qed.

Lemma delivered_drop n l t s : n < lenN l -> delivered t s -> delivered (EvData (dropN n l) :: t) (dropN n l ++ s).
Proof.
  intros Hn H. destruct (dropN n l) as [|b ch] eqn:E; [|constructor; exact H].
  assert (lenN (dropN n l) = 0) as L by (rewrite E; reflexivity). rewrite lenN_dropN in L. lia.
Qed.

Lemma exact_delivered n evs s later : delivered evs s -> n <= lenN s ->
  exists evs', ev_read_exact n (evs ++ later) = RGot (takeN n s) (evs' ++ later) /\ delivered evs' (dropN n s).
Proof.
  intros H; revert n; induction H as [|t x s H IH|b ch t s H IH]; intros n Hn.
  - change (lenN []) with 0 in Hn. assert (n = 0) as -> by lia. exists []. destruct later; split; try reflexivity; constructor.
  - destruct (N.eq_dec n 0) as [->|H0].
    + exists (EvInterrupted :: t). split; [destruct t; reflexivity|]. rewrite dropN_0. constructor; exact H.
    + cbn [app ev_read_exact]. apply N.eqb_neq in H0. rewrite H0. apply IH, Hn.
  - set (l := b :: ch) in *. destruct (N.eq_dec n 0) as [->|H0].
    + exists (EvData l :: t). split; [destruct t; reflexivity|]. rewrite dropN_0. constructor; exact H.
    + change ((EvData l :: t) ++ later) with (EvData l :: (t ++ later)). rewrite lenN_app in Hn.
      assert (ev_read_exact n (EvData l :: (t ++ later)) =
        if lenN l <=? n then match ev_read_exact (n - lenN l) (t ++ later) with RGot bs rest => RGot (l ++ bs) rest | r => r end
        else RGot (takeN n l) (EvData (dropN n l) :: (t ++ later))) as E.
      { cbn [ev_read_exact]. apply N.eqb_neq in H0. rewrite H0. reflexivity. }
      rewrite E. clear E. destruct (N.leb_spec (lenN l) n) as [Hl|Hl].
      * destruct (chunk_split n l s Hl) as [-> ->]. destruct (IH (n - lenN l)) as (evs' & -> & D); [lia|]. exists evs'; auto.
      * destruct (chunk_part n l s Hl) as [-> ->]. exists (EvData (dropN n l) :: t). split; [reflexivity|]. apply delivered_drop; assumption.
Qed.
Lemma limit_delivered n evs s later : delivered evs s -> n <= lenN s ->
  exists evs', ev_read_limit n (evs ++ later) = RGot (takeN n s) (evs' ++ later) /\ delivered evs' (dropN n s).
Proof.
  intros H; revert n; induction H as [|t x s H IH|b ch t s H IH]; intros n Hn.
  - change (lenN []) with 0 in Hn. assert (n = 0) as -> by lia. exists []. destruct later; split; try reflexivity; constructor.
  - destruct (N.eq_dec n 0) as [->|H0].
    + exists (EvInterrupted :: t). split; [destruct t; reflexivity|]. rewrite dropN_0. constructor; exact H.
    + cbn [app ev_read_limit]. apply N.eqb_neq in H0. rewrite H0. apply IH, Hn.
  - set (l := b :: ch) in *. destruct (N.eq_dec n 0) as [->|H0].
    + exists (EvData l :: t). split; [destruct t; reflexivity|]. rewrite dropN_0. constructor; exact H.
    + change ((EvData l :: t) ++ later) with (EvData l :: (t ++ later)). rewrite lenN_app in Hn.
      assert (ev_read_limit n (EvData l :: (t ++ later)) =
        if lenN l <=? n then match ev_read_limit (n - lenN l) (t ++ later) with RGot bs rest => RGot (l ++ bs) rest | r => r end
        else RGot (takeN n l) (EvData (dropN n l) :: (t ++ later))) as E.
      { cbn [ev_read_limit]. apply N.eqb_neq in H0. rewrite H0. reflexivity. }
      rewrite E. clear E. destruct (N.leb_spec (lenN l) n) as [Hl|Hl].
      * destruct (chunk_split n l s Hl) as [-> ->]. destruct (IH (n - lenN l)) as (evs' & -> & D); [lia|]. exists evs'; auto.
      * destruct (chunk_part n l s Hl) as [-> ->]. exists (EvData (dropN n l) :: t). split; [reflexivity|]. apply delivered_drop; assumption.
Qed.

(** What is left has not been read by any of the steps. *)
Lemma taken_room n s x t (u : list N) : dropN n (s ++ x :: t) = u ++ x :: t -> n <= lenN s /\ dropN n s = u.
Proof.
  intros E. assert (L := f_equal lenN E). rewrite lenN_dropN, !lenN_app, lenN_cons in L.
  assert (n <= lenN s) as Hn by lia. split; [exact Hn|].
  replace s with (takeN n s ++ dropN n s) in E by apply take_drop. rewrite <- app_assoc, dropN_app_n in E by (rewrite lenN_takeN; lia).
  apply app_inv_tail in E. exact E.
Qed.

Lemma stops {A} c (p : prog A) : forall s x t a evs later, run c p (s ++ x :: t) = OOk a (x :: t) -> delivered evs s ->
  exec c p (evs ++ later) = EOk a later.
Proof.
  induction p as [a0|e|q|n e k IH|n e k IH|n k IH]; intros s x t a evs later E D; cbn [run exec] in *; try discriminate E.
  - injection E as -> Es. change (x :: t) with ([] ++ x :: t) in Es at 2. apply app_inv_tail in Es as ->.
    rewrite (delivered_nil _ D). reflexivity.
  - destruct (lenN (s ++ x :: t) <? n); [discriminate E|]. destruct (run_suffix _ _ _ _ _ E) as (u & Eu).
    destruct (taken_room _ _ _ _ _ Eu) as [Hn Ed]. destruct (exact_delivered n evs s later D Hn) as (evs' & -> & D').
    apply (IH _ (dropN n s) x t); [|exact D'].
    replace (s ++ x :: t) with (takeN n s ++ dropN n s ++ x :: t) in E by (rewrite app_assoc, take_drop; reflexivity).
    rewrite takeN_app_n, dropN_app_n in E by (rewrite lenN_takeN; lia). exact E.
  - destruct (run_suffix _ _ _ _ _ E) as (u & Eu).
    destruct (taken_room _ _ _ _ _ Eu) as [Hn Ed]. destruct (limit_delivered n evs s later D Hn) as (evs' & -> & D').
    apply (IH _ (dropN n s) x t); [|exact D'].
    replace (s ++ x :: t) with (takeN n s ++ dropN n s ++ x :: t) in E by (rewrite app_assoc, take_drop; reflexivity).
    rewrite takeN_app_n, dropN_app_n in E by (rewrite lenN_takeN; lia). exact E.
  - destruct (alloc_result c n); [discriminate E|]. apply (IH s x t); assumption.
Qed.
