(** * Failures and more input. *)
From Coq Require Import String.
From Verif Require Import Base BaseFacts Serde Typing SpecVarint SpecUtf8 Header SpecHeader HeaderFacts Body SpecBody SpecAccept AcceptFacts SpecReject RejectFacts.
Local Open Scope list_scope.
Local Open Scope N_scope.

Scheme rejects_mind := Induction for rejects Sort Prop
  with rejects_one_mind := Induction for rejects_one Sort Prop.
Combined Scheme rejects_mut from rejects_mind, rejects_one_mind.
Scheme body_rejects_mind := Induction for body_rejects Sort Prop
  with bodies_reject_mind := Induction for bodies_reject Sort Prop.
Combined Scheme body_rejects_mut from body_rejects_mind, bodies_reject_mind.

Lemma no_date_final c s x t : no_date c s x -> x <> read_error -> no_date c (s ++ t) x.
Proof.
  intros [[_ ->]|(l & y & r & -> & Hl & H)] Hx; [contradiction|]. right. exists l, y, (r ++ t). split; [rewrite app_assoc; reflexivity|]. split; [exact Hl|].
  cbv zeta in *. destruct H as [H|[(H & _ & ->)|(H & k & o & r' & -> & Hk & H')]]; [left; exact H|contradiction|].
  right. right. split; [exact H|]. exists k, o, (r' ++ t). split; [rewrite app_assoc; reflexivity|]. auto.
Qed.
Lemma rejects_final c :
  (forall d s x, rejects c d s x -> x <> read_error -> forall t, rejects c d (s ++ t) x) /\
  (forall ds s x, rejects_one c ds s x -> x <> read_error -> forall t, rejects_one c ds (s ++ t) x).
Proof.
  apply rejects_mut; intros; try contradiction; rewrite <- ?app_assoc, <- ?app_comm_cons; try (econstructor; eauto; fail).
  - constructor. apply no_date_final; assumption.
Qed.
Lemma body_rejects_final c :
  (forall h s x, body_rejects c h s x -> x <> read_error -> forall t, body_rejects c h (s ++ t) x) /\
  (forall hs s x, bodies_reject c hs s x -> x <> read_error -> forall t, bodies_reject c hs (s ++ t) x).
Proof.
  apply body_rejects_mut; intros; try contradiction; rewrite <- ?app_assoc, <- ?app_comm_cons; try (econstructor; eauto; fail).
  - constructor. apply no_date_final; assumption.
Qed.
Lemma header_rejects_final s e : header_rejects s e -> e <> EIo -> forall t, header_rejects (s ++ t) e.
Proof.
  induction 1; intros He t; try contradiction; cbn [app]; rewrite <- ?app_assoc.
  - apply hr_unknown. assumption.
  - eapply hr_box; eauto.
  - eapply hr_member; eauto.
Qed.

(** A header cut short can be completed. *)
Lemma headers_units k : headers_wire false (repeat 0 k) (repeat HUnit k).
Proof.
  induction k as [|k IH]; cbn [repeat]; [constructor|]. apply (hws_cons false [0] HUnit (repeat 0 k)); [|exact IH]. apply hw_leaf. cbn; tauto.
Qed.
Lemma headers_app u hs v hs' : headers_wire false u hs -> headers_wire false v hs' -> headers_wire false (u ++ v) (hs ++ hs').
Proof. intros H. revert v. induction H; intros w Hw; [exact Hw|]. rewrite <- app_assoc. cbn [app]. constructor; auto. Qed.
Lemma zeros_ok k : bytes_ok (repeat 0 k).
Proof. apply Forall_forall. intros x Hx. apply repeat_spec in Hx as ->. reflexivity. Qed.
Lemma header_complete s : bytes_ok s -> header_rejects s EIo -> exists t h, bytes_ok t /\ header_wire false (s ++ t) h.
Proof.
  intros Hs H. remember EIo as e eqn:Ee. induction H as [|b s Hk|b f s e Hk _ IH|b f s Hk Hsh|b f l n u hs s e Hk Hc W Hl _ IH]; try discriminate.
  - exists [0], HUnit. split; [apply (zeros_ok 1)|]. apply hw_leaf. cbn; tauto.
  - inversion Hs; subst. destruct IH as (t & h & Ht & W); [assumption|reflexivity|]. exists t, (f h). split; [exact Ht|]. apply hw_box; assumption.
  - inversion Hs as [|? ? _ Hs']; subst.
    assert (X : exists t p x n, bytes_ok t /\ s ++ t = p :: x /\ length x = varint_extra 2 p /\ n = varint_value 2 p x).
    { destruct Hsh as [->|(p & x & -> & Hx)].
      - exists [0], 0, [], 0. repeat split. apply (zeros_ok 1).
      - exists (repeat 0 (varint_extra 2 p - length x)), p, (x ++ repeat 0 (varint_extra 2 p - length x)). eexists. split; [apply zeros_ok|]. split; [reflexivity|]. split; [|reflexivity].
        rewrite app_length, repeat_length. lia. }
    destruct X as (t & p & x & n & Ht & E & Hx & Hn). exists (t ++ repeat 0 (N.to_nat n)), (f (repeat HUnit (N.to_nat n))).
    split; [apply Forall_app; split; [exact Ht|apply zeros_ok]|]. cbn [app]. rewrite app_assoc, E.
    assert (Hpx : bytes_ok (p :: x)) by (rewrite <- E; apply Forall_app; split; assumption). inversion Hpx; subst.
    apply hw_members; try assumption; [|discriminate|apply headers_units]. unfold lenN. rewrite repeat_length, N2Nat.id. reflexivity.
  - inversion Hs as [|? ? _ Hs']; subst. apply Forall_app in Hs' as [Hls Hs']. apply Forall_app in Hs' as [Hu Hs']. destruct IH as (t & h & Ht & Wh); [assumption|reflexivity|].
    destruct Hc as (p & x & -> & Hx & Hn). inversion Hls; subst.
    exists (t ++ repeat 0 (N.to_nat (varint_value 2 p x - lenN hs - 1))), (f (hs ++ h :: repeat HUnit (N.to_nat (varint_value 2 p x - lenN hs - 1)))).
    split; [apply Forall_app; split; [exact Ht|apply zeros_ok]|].
    replace ((b :: (p :: x) ++ u ++ s) ++ t ++ repeat 0 (N.to_nat (varint_value 2 p x - lenN hs - 1)))
      with (b :: (p :: x) ++ u ++ (s ++ t) ++ repeat 0 (N.to_nat (varint_value 2 p x - lenN hs - 1))) by (cbn [app]; rewrite <- !app_assoc; reflexivity).
    apply hw_members; try assumption; [|discriminate|].
    + unfold lenN in *. rewrite app_length. cbn [length]. rewrite repeat_length. lia.
    + apply headers_app; [exact W|]. constructor; [exact Wh|apply headers_units].
Qed.
