(** * Reading with another type than the one written: proofs. *)
From Coq Require Import String.
From Verif Require Import Base BaseFacts Varint SpecVarint VarintFacts ZigZagFacts PrimFacts Serde Typing SpecDty
  SpecEvolve SerdeFacts SerdeProps.
Local Open Scope list_scope.
Local Open Scope N_scope.

Definition w_m (w : width) : nat := match w with W16 => 2 | W32 => 4 | W64 => 8 end.
Lemma w_m_ok w : varint_m (w_m w).
Proof. destruct w; unfold varint_m; auto. Qed.
Lemma w_m_size w : N.of_nat (w_m w) = w_size w.
Proof. destruct w; reflexivity. Qed.

(** ** Unsigned widths *)
Lemma class_agree m1 m2 v : (0 < m1)%nat -> (0 < m2)%nat -> v < 2 ^ (7 * N.of_nat m1) -> v < 2 ^ (7 * N.of_nat m2) ->
  varint_class m1 0 v = varint_class m2 0 v.
Proof.
  intros P1 P2 H1 H2.
  destruct (class_props m1 0 v) as (A1 & B1 & C1); [exact H1|exact P1|left; reflexivity|].
  destruct (class_props m2 0 v) as (A2 & B2 & C2); [exact H2|exact P2|left; reflexivity|].
  set (k1 := varint_class m1 0 v) in *. set (k2 := varint_class m2 0 v) in *. clearbody k1 k2.
  destruct (Nat.lt_trichotomy k1 k2) as [L|[E|L]]; [|exact E|].
  - destruct C2 as [->|C2]; [lia|].
    assert (2 ^ (7 * (N.of_nat k1 + 1)) <= 2 ^ (7 * N.of_nat k2)) by (apply N.pow_le_mono_r; lia). lia.
  - destruct C1 as [->|C1]; [lia|].
    assert (2 ^ (7 * (N.of_nat k2 + 1)) <= 2 ^ (7 * N.of_nat k1)) by (apply N.pow_le_mono_r; lia). lia.
Qed.
Lemma bytes_agree m1 m2 v : (0 < m1)%nat -> (0 < m2)%nat -> v < 2 ^ (7 * N.of_nat m1) -> v < 2 ^ (7 * N.of_nat m2) ->
  varint_bytes m1 v = varint_bytes m2 v.
Proof.
  intros P1 P2 H1 H2. unfold varint_bytes.
  destruct (N.ltb_spec v (2 ^ (7 * N.of_nat m1))); [|lia].
  destruct (N.ltb_spec v (2 ^ (7 * N.of_nat m2))); [|lia].
  rewrite (class_agree m1 m2 v) by assumption. reflexivity.
Qed.

(** A narrower writer beyond the shared range: the reader takes 2^(7-m1) times the value. *)
Lemma cross_up m1 m2 e v rest : varint_m m1 -> varint_m m2 -> (m1 < m2)%nat ->
  2 ^ (7 * N.of_nat m1) <= v -> v < 2 ^ (8 * N.of_nat m1) ->
  varint_run m2 e (varint_bytes m1 v ++ rest) = OOk (2 ^ (7 - N.of_nat m1) * v) rest.
Proof.
  intros Hm1 Hm2 Hlt Hge Hv. unfold varint_bytes. destruct (N.ltb_spec v (2 ^ (7 * N.of_nat m1))); [lia|].
  assert (Hlo : leading_ones (256 - 2 ^ (8 - N.of_nat m1)) = m1).
  { destruct Hm1 as [->|[->| ->]]; [reflexivity..|]. destruct Hm2 as [->|[->| ->]]; lia. }
  cbn [app]. rewrite (varint_run_case m2 e _ _ m1 Hlo). cbv zeta.
  replace (Nat.min m1 m2) with m1 by lia. rewrite lenN_app, lenN_le_digits.
  destruct (N.ltb_spec (N.of_nat m1 + lenN rest) (N.of_nat m1)); [lia|].
  rewrite takeN_app_n, dropN_app_n by apply lenN_le_digits.
  destruct (Nat.ltb_spec m1 m2); [|lia].
  rewrite le_value_digits by (change 256 with (2 ^ 8); rewrite <- N.pow_mul_r; exact Hv).
  f_equal. replace ((256 - 2 ^ (8 - N.of_nat m1)) mod 2 ^ (7 - N.of_nat m1)) with 0; [lia|].
  destruct Hm1 as [->|[->| ->]]; reflexivity.
Qed.
(** A wider writer beyond the shared range. *)
Lemma cross_down m1 m2 e v rest : varint_m m1 -> varint_m m2 -> (m2 < m1)%nat ->
  2 ^ (7 * N.of_nat m2) <= v -> v < 2 ^ (8 * N.of_nat m1) ->
  exists w r, varint_run m2 e (varint_bytes m1 v ++ rest) = OOk w (r ++ rest) /\ w < 2 ^ (8 * N.of_nat m2) /\
    (v < 2 ^ (7 * (N.of_nat m2 + 1)) -> w = v / 2 ^ (7 - N.of_nat m2) /\ r = []).
Proof.
  intros Hm1 Hm2 Hlt Hge Hv.
  destruct (varint_bytes_shape m1 v Hm1 Hv) as (p & t & E & Hp & Ht & Hl & Hval).
  assert (Hm28 : (2 <= m2 <= 7)%nat) by (destruct Hm1 as [->|[->| ->]]; destruct Hm2 as [->|[->| ->]]; lia).
  assert (Hlen : (m2 <= length t)%nat).
  { destruct (Nat.le_gt_cases m2 (length t)) as [H|H]; [exact H|].
    assert (H' : (length (varint_bytes m1 v) <= (m2 - 1) + 1)%nat) by (rewrite E; cbn [length]; lia).
    apply varint_bytes_length_iff in H'; [|assumption..|lia].
    replace (N.of_nat (m2 - 1) + 1) with (N.of_nat m2) in H' by lia. lia. }
  assert (Hx : (m2 <= leading_ones p)%nat) by (unfold varint_extra in Hl; lia).
  assert (Hx2 : varint_extra m2 p = m2) by (unfold varint_extra; lia).
  exists (le_value (takeN (N.of_nat m2) t)), (dropN (N.of_nat m2) t).
  assert (Htk : takeN (N.of_nat m2) (t ++ rest) = takeN (N.of_nat m2) t).
  { rewrite !takeN_firstn, firstn_app. rewrite Nnat.Nat2N.id.
    replace (m2 - length t)%nat with 0%nat by lia. cbn [firstn]. apply app_nil_r. }
  assert (Hdr : dropN (N.of_nat m2) (t ++ rest) = dropN (N.of_nat m2) t ++ rest).
  { rewrite !dropN_skipn, skipn_app. rewrite Nnat.Nat2N.id.
    replace (m2 - length t)%nat with 0%nat by lia. reflexivity. }
  split; [|split].
  - rewrite E. cbn [app varint_run]. rewrite Hx2, Htk, Hdr, lenN_app.
    destruct (N.ltb_spec (lenN t + lenN rest) (N.of_nat m2)); [unfold lenN in *; lia|].
    unfold varint_value. destruct (Nat.ltb_spec (leading_ones p) m2); [lia|]. reflexivity.
  - assert (Hb : bytes_ok (takeN (N.of_nat m2) t)) by (apply Forall_takeN, Ht).
    apply le_value_bound in Hb. rewrite lenN_takeN in Hb.
    replace (N.min (N.of_nat m2) (lenN t)) with (N.of_nat m2) in Hb by (unfold lenN; lia).
    change 256 with (2 ^ 8) in Hb. rewrite <- N.pow_mul_r in Hb. exact Hb.
  - intros Hs. apply (proj2 (varint_bytes_length_iff m1 v m2 Hm1 Hv Hlt)) in Hs.
    rewrite E in Hs. cbn [length] in Hs.
    assert (Hlt2 : lenN t = N.of_nat m2) by (unfold lenN; lia).
    rewrite takeN_all, dropN_all by lia. split; [|reflexivity].
    assert (Hk : leading_ones p = m2) by (unfold varint_extra in Hl; unfold lenN in Hlt2; lia).
    unfold varint_value in Hval. rewrite Hk in Hval. destruct (Nat.ltb_spec m2 m1); [|lia].
    rewrite <- Hval. rewrite (N.mul_comm (2 ^ _)), N.div_add by (apply N.pow_nonzero; lia).
    rewrite N.div_small by (apply N.mod_lt, N.pow_nonzero; lia). lia.
Qed.

Lemma ser_u_val w n : u_ok w n -> wresult (ser (u_val w n)) = WeOk /\ wbytes (ser (u_val w n)) = varint_bytes (w_m w) n.
Proof.
  unfold u_ok. destruct w; cbn [u_val ser w_m w_size]; intros H; (split; [reflexivity|]);
    unfold ser_u16, ser_u32, ser_u64; cbn [wr wbytes]; rewrite app_nil_r;
    [apply enc_u16_spec|apply enc_u32_spec|apply enc_u64_spec]; exact H.
Qed.
Lemma de_u_val c w s : match s with [] => True | p :: t => p < 256 /\ bytes_ok (takeN (N.of_nat (varint_extra (w_m w) p)) t) end ->
  run c (de c (u_dty w)) s = obind (varint_run (w_m w) ERead s) (fun n r => OOk (u_val w n) r).
Proof.
  intros H. destruct w; cbn [u_dty w_m de u_val] in *; rewrite run_pmap;
    [unfold de_u16; rewrite dec_u16_run by exact H|unfold de_u32; rewrite dec_u32_run by exact H
    |unfold de_u64; rewrite dec_u64_run by exact H]; reflexivity.
Qed.
(** The bytes the reader looks at all belong to what was written. *)
Lemma cross_guard m1 m2 v rest : varint_m m1 -> varint_m m2 -> v < 2 ^ (8 * N.of_nat m1) ->
  match varint_bytes m1 v ++ rest with [] => True
  | p :: t => p < 256 /\ bytes_ok (takeN (N.of_nat (varint_extra m2 p)) t) end.
Proof.
  intros Hm1 Hm2 Hv. destruct (varint_bytes_shape m1 v Hm1 Hv) as (p & t & E & Hp & Ht & Hl & _).
  assert (Hx : (varint_extra m2 p <= length t)%nat).
  { unfold varint_extra in *. destruct (Nat.le_gt_cases (leading_ones p) m1) as [H|H]; [lia|].
    assert (p = 256 - 2 ^ (8 - N.of_nat m1)).
    { unfold varint_bytes in E. destruct (N.ltb_spec v (2 ^ (7 * N.of_nat m1))) as [Hs|Hs]; [|injection E; auto].
      exfalso. destruct (class_props m1 0 v) as (Hk & _); [exact Hs|destruct Hm1 as [->|[->| ->]]; lia|left; reflexivity|].
      assert (Hk7 : (varint_class m1 0 v <= 7)%nat) by (destruct Hm1 as [->|[->| ->]]; lia).
      destruct (class_head (varint_class m1 0 v) v Hk7) as (_ & Hlo & _).
      apply (f_equal (hd 0)) in E. unfold class_bytes, hd in E. rewrite E in Hlo. lia. }
    subst p. exfalso. destruct Hm1 as [->|[->| ->]]; vm_compute in H; lia. }
  rewrite E. cbn [app]. split; [exact Hp|].
  rewrite takeN_firstn, Nnat.Nat2N.id, firstn_app.
  replace (varint_extra m2 p - length t)%nat with 0%nat by lia. cbn [firstn]. rewrite app_nil_r.
  apply Forall_forall. intros x Hin. apply (proj1 (Forall_forall _ _) Ht). rewrite <- (firstn_skipn (varint_extra m2 p) t).
  apply in_or_app; left; exact Hin.
Qed.

Lemma u_val_inj w a b : u_val w a = u_val w b -> a = b.
Proof. destruct w; cbn [u_val]; intros H; injection H; auto. Qed.
Lemma w_m_inj a b : w_m a = w_m b -> a = b.
Proof. destruct a, b; cbn; congruence || discriminate. Qed.

Lemma cross_value c a b v rest : u_ok a v ->
  (u_shared a b v -> run c (de c (u_dty b)) (wbytes (ser (u_val a v)) ++ rest) = OOk (u_val b v) rest) /\
  (~ u_shared a b v -> exists w r,
     run c (de c (u_dty b)) (wbytes (ser (u_val a v)) ++ rest) = OOk (u_val b w) (r ++ rest) /\ w <> v /\
     (w_size a < w_size b -> w = 2 ^ (7 - w_size a) * v /\ r = []) /\
     (w_size b < w_size a -> v < 2 ^ (7 * (w_size b + 1)) -> w = v / 2 ^ (7 - w_size b) /\ r = [])).
Proof.
  intros Hv. destruct (ser_u_val a v Hv) as [_ ->].
  assert (Hv' : v < 2 ^ (8 * N.of_nat (w_m a))) by (rewrite w_m_size; exact Hv).
  rewrite de_u_val by (apply cross_guard; [apply w_m_ok..|exact Hv']).
  unfold u_shared. rewrite <- !w_m_size.
  pose proof (w_m_ok a) as Ma. pose proof (w_m_ok b) as Mb.
  assert (Pa : (2 <= w_m a <= 8)%nat) by (destruct a; cbn; lia).
  assert (Pb : (2 <= w_m b <= 8)%nat) by (destruct b; cbn; lia).
  split.
  - intros [->|H]; [rewrite varint_roundtrip by assumption; reflexivity|].
    rewrite (bytes_agree (w_m a) (w_m b)).
    + rewrite varint_roundtrip; [reflexivity|exact Mb|]. eapply N.lt_le_trans; [exact H|]. apply N.pow_le_mono_r; lia.
    + lia.
    + lia.
    + eapply N.lt_le_trans; [exact H|]. apply N.pow_le_mono_r; lia.
    + eapply N.lt_le_trans; [exact H|]. apply N.pow_le_mono_r; lia.
  - intros H. destruct (Nat.lt_trichotomy (w_m a) (w_m b)) as [L|[L|L]].
    + replace (N.min (N.of_nat (w_m a)) (N.of_nat (w_m b))) with (N.of_nat (w_m a)) in H by lia.
      destruct (N.lt_ge_cases v (2 ^ (7 * N.of_nat (w_m a)))) as [|Hge]; [tauto|].
      rewrite cross_up by assumption. exists (2 ^ (7 - N.of_nat (w_m a)) * v), []. cbn [obind app].
      split; [reflexivity|]. split; [|split; [auto|lia]].
      assert (2 <= 2 ^ (7 - N.of_nat (w_m a))).
      { change 2 with (2 ^ 1) at 1. apply N.pow_le_mono_r; [lia|]. destruct a; cbn; [lia|lia|].
        destruct b; cbn in L; lia. }
      assert (1 <= v). { pose proof (N.pow_nonzero 2 (7 * N.of_nat (w_m a)) ltac:(lia)). lia. }
      nia.
    + apply w_m_inj in L. tauto.
    + replace (N.min (N.of_nat (w_m a)) (N.of_nat (w_m b))) with (N.of_nat (w_m b)) in H by lia.
      destruct (N.lt_ge_cases v (2 ^ (7 * N.of_nat (w_m b)))) as [|Hge]; [tauto|].
      destruct (cross_down (w_m a) (w_m b) ERead v rest Ma Mb L Hge Hv') as (w & r & E & Hw & Hs).
      rewrite E. exists w, r. cbn [obind]. split; [reflexivity|]. split; [|split; [lia|intros _; exact Hs]].
      intros ->. assert (Hp7 : (w_m b <= 4)%nat) by (destruct a, b; cbn in *; lia).
      assert (Hv8 : v < 2 ^ (7 * (N.of_nat (w_m b) + 1))).
      { eapply N.lt_le_trans; [exact Hw|]. apply N.pow_le_mono_r; lia. }
      destruct (Hs Hv8) as [Hd _].
      assert (2 <= 2 ^ (7 - N.of_nat (w_m b))) by (change 2 with (2 ^ 1) at 1; apply N.pow_le_mono_r; lia).
      assert (1 <= v). { pose proof (N.pow_nonzero 2 (7 * N.of_nat (w_m b)) ltac:(lia)). lia. }
      pose proof (N.div_lt v (2 ^ (7 - N.of_nat (w_m b))) ltac:(lia) ltac:(lia)). lia.
Qed.

Lemma u_shared_dec a b v : u_shared a b v \/ ~ u_shared a b v.
Proof.
  unfold u_shared. destruct (N.lt_ge_cases v (2 ^ (7 * N.min (w_size a) (w_size b)))); [tauto|].
  destruct a, b; try tauto; right; intros [H'|H']; try discriminate H'; lia.
Qed.
Lemma cross_read_iff c a b v rest : u_ok a v ->
  ((exists r, run c (de c (u_dty b)) (wbytes (ser (u_val a v)) ++ rest) = OOk (u_val b v) r) <-> u_shared a b v).
Proof.
  intros Hv. destruct (cross_value c a b v rest Hv) as [Hy Hn]. split.
  - intros [r E]. destruct (u_shared_dec a b v) as [H|H]; [exact H|].
    destruct (Hn H) as (w & r' & E' & Hne & _). rewrite E in E'. injection E' as E1 _.
    apply u_val_inj in E1. congruence.
  - intros H. exists rest. exact (Hy H).
Qed.
Lemma same_bytes_iff a b v : u_ok a v -> u_ok b v ->
  (wbytes (ser (u_val a v)) = wbytes (ser (u_val b v)) <-> u_shared a b v).
Proof.
  intros Ha Hb. split.
  - intros E. apply (proj1 (cross_read_iff (Cfg true 64 1 1 4096) a b v [] Ha)). rewrite E.
    destruct (cross_value (Cfg true 64 1 1 4096) b b v [] Hb) as [H _]. eexists. apply H. left; reflexivity.
  - intros [->|H]; [reflexivity|]. destruct (ser_u_val a v Ha) as [_ ->]. destruct (ser_u_val b v Hb) as [_ ->].
    apply bytes_agree; [destruct a; cbn; lia|destruct b; cbn; lia|rewrite w_m_size..];
      (eapply N.lt_le_trans; [exact H|apply N.pow_le_mono_r; lia]).
Qed.

(** ** Signed widths *)
Lemma i_ok_in w z : i_ok w z -> in_s (8 * w_size w) z = true.
Proof. intros H. apply in_s_iff. exact H. Qed.
Lemma ser_i_val w z : i_ok w z -> ser (i_val w z) = ser (u_val w (zigzag z)) /\ u_ok w (zigzag z).
Proof.
  intros H. apply i_ok_in in H. split.
  - destruct w; cbn [i_val u_val ser w_size] in *; unfold ser_i16, ser_i32, ser_i64, ser_u16, ser_u32, ser_u64;
      rewrite enc_zigzag_spec by (try exact H; lia); reflexivity.
  - apply zigzag_bound; [destruct w; cbn; lia|exact H].
Qed.
Lemma de_i_val c w s n r : run c (de c (u_dty w)) s = OOk (u_val w n) r -> u_ok w n ->
  run c (de c (i_dty w)) s = OOk (i_val w (unzigzag n)) r.
Proof.
  unfold u_ok. intros H Hn.
  destruct w; cbn [u_dty i_dty u_val i_val w_size] in *; cbn [de] in *; rewrite run_pmap in H; rewrite run_pmap;
    unfold de_i16, de_i32, de_i64, de_u16, de_u32, de_u64 in *; rewrite run_pmap;
    match type of H with obind ?o _ = _ => destruct o as [x r'|x|x]; cbn [obind] in *; try discriminate end;
    injection H as -> ->; rewrite dec_zigzag_spec by (try exact Hn; lia); reflexivity.
Qed.
Lemma i_shared_u a b z : i_shared a b z <-> u_shared a b (zigzag z).
Proof.
  unfold i_shared, u_shared.
  assert (E : forall k, (0 < k)%N -> zigzag z < 2 ^ k <-> (- 2 ^ (Z.of_N k - 1) <= z < 2 ^ (Z.of_N k - 1))%Z).
  { intros k Hk. split.
    - intros H. rewrite <- in_s_iff. rewrite <- (unzigzag_zigzag z). apply unzigzag_in; [lia|exact H].
    - intros H. apply zigzag_bound; [lia|]. apply in_s_iff; exact H. }
  rewrite E by (destruct a, b; cbn; lia).
  replace (Z.of_N (7 * N.min (w_size a) (w_size b)) - 1)%Z with (7 * Z.of_N (N.min (w_size a) (w_size b)) - 1)%Z by lia.
  reflexivity.
Qed.
Lemma i_val_inj w a b : i_val w a = i_val w b -> a = b.
Proof. destruct w; cbn [i_val]; intros H; injection H; auto. Qed.
Lemma cross_read_signed c a b z rest : i_ok a z ->
  (i_shared a b z -> run c (de c (i_dty b)) (wbytes (ser (i_val a z)) ++ rest) = OOk (i_val b z) rest) /\
  ((exists r, run c (de c (i_dty b)) (wbytes (ser (i_val a z)) ++ rest) = OOk (i_val b z) r) -> i_shared a b z).
Proof.
  intros Hz. destruct (ser_i_val a z Hz) as [-> Hu]. rewrite i_shared_u.
  destruct (cross_value c a b (zigzag z) rest Hu) as [Hy Hn]. split.
  - intros H. rewrite <- (unzigzag_zigzag z) at 2. apply de_i_val; [exact (Hy H)|].
    destruct H as [->|H]; [exact Hu|]. unfold u_ok. eapply N.lt_le_trans; [exact H|apply N.pow_le_mono_r; lia].
  - intros [r E]. destruct (u_shared_dec a b (zigzag z)) as [H|H]; [exact H|].
    destruct (Hn H) as (w & r' & E' & Hne & _). exfalso. apply Hne.
    assert (Hw : u_ok b w).
    { assert (G : exists s', run c (de c (u_dty b)) s' = OOk (u_val b w) (r' ++ rest) /\
         match s' with [] => True | p :: t => p < 256 /\ bytes_ok (takeN (N.of_nat (varint_extra (w_m b) p)) t) end).
      { eexists; split; [exact E'|]. destruct (ser_u_val a _ Hu) as [_ ->]. apply cross_guard; [apply w_m_ok..|].
        rewrite w_m_size; exact Hu. }
      destruct G as (s' & Es & Hg). rewrite de_u_val in Es by exact Hg.
      destruct (varint_run (w_m b) ERead s') as [x q|x|x] eqn:Ev; cbn [obind] in Es; try discriminate.
      injection Es as Ex _. apply u_val_inj in Ex. subst x.
      destruct s' as [|p t]; cbn [varint_run] in Ev; [discriminate|].
      destruct (N.ltb_spec (lenN t) (N.of_nat (varint_extra (w_m b) p))) as [|Hlen]; [discriminate|].
      injection Ev as <- _. unfold u_ok. rewrite <- w_m_size. destruct Hg as [Hp Hb].
      apply varint_value_bound; [apply w_m_ok|exact Hp|exact Hb|].
      pose proof (lenN_takeN (N.of_nat (varint_extra (w_m b) p)) t) as Hl. unfold lenN in *. lia. }
    pose proof (de_i_val c b _ w _ E' Hw) as E2. rewrite E in E2. injection E2 as E3 _.
    apply i_val_inj in E3. rewrite E3. rewrite zigzag_unzigzag. reflexivity.
Qed.
