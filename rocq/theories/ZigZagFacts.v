(** * Proofs about zigzag (Varint.v, last part). *)
From Verif Require Import Base BaseFacts Varint SpecVarint.
Local Open Scope Z_scope.

Lemma pow2_pos w : 0 < 2 ^ Z.of_N w.
Proof. apply Z.pow_pos_nonneg; lia. Qed.
Lemma pow2_half w : (1 <= w)%N -> 2 ^ Z.of_N w = 2 * 2 ^ (Z.of_N w - 1).
Proof.
  intros H. replace (Z.of_N w) with (Z.succ (Z.of_N w - 1)) at 1 by lia.
  apply Z.pow_succ_r; lia.
Qed.
Lemma half_pos w : (1 <= w)%N -> 0 < 2 ^ (Z.of_N w - 1).
Proof. intros H; apply Z.pow_pos_nonneg; lia. Qed.

Lemma wrap_s_mod w z : (wrap_s w z) mod 2 ^ Z.of_N w = z mod 2 ^ Z.of_N w.
Proof.
  unfold wrap_s. pose proof (pow2_pos w).
  rewrite Zminus_mod_idemp_l. f_equal; lia.
Qed.
Lemma in_s_iff w z : in_s w z = true <-> - 2 ^ (Z.of_N w - 1) <= z < 2 ^ (Z.of_N w - 1).
Proof. unfold in_s; lia. Qed.
Lemma wrap_s_id w z : (1 <= w)%N -> in_s w z = true -> wrap_s w z = z.
Proof.
  intros Hw H; apply in_s_iff in H. unfold wrap_s. pose proof (pow2_half w Hw).
  rewrite Z.mod_small by lia. lia.
Qed.
Lemma wrap_s_in w z : (1 <= w)%N -> in_s w (wrap_s w z) = true.
Proof.
  intros Hw; apply in_s_iff. unfold wrap_s. pose proof (pow2_half w Hw). pose proof (half_pos w Hw).
  pose proof (Z.mod_pos_bound (z + 2 ^ (Z.of_N w - 1)) (2 ^ Z.of_N w)). lia.
Qed.
Lemma as_u_bound w z : (as_u w z < 2 ^ w)%N.
Proof.
  unfold as_u. pose proof (Z.mod_pos_bound z (2 ^ Z.of_N w) (pow2_pos w)) as H.
  apply N2Z.inj_lt. rewrite Z2N.id, N2Z.inj_pow by lia. exact (proj2 H).
Qed.
Lemma as_u_small w z : 0 <= z < 2 ^ Z.of_N w -> as_u w z = Z.to_N z.
Proof. intros H; unfold as_u; rewrite Z.mod_small by exact H; reflexivity. Qed.
Lemma as_i_as_u w z : (1 <= w)%N -> in_s w z = true -> as_i w (as_u w z) = z.
Proof.
  intros Hw H. unfold as_i, as_u.
  rewrite Z2N.id by (apply Z.mod_pos_bound, pow2_pos).
  rewrite <- (wrap_s_id w z Hw H) at 2. unfold wrap_s.
  rewrite Zplus_mod_idemp_l. reflexivity.
Qed.
Lemma as_u_as_i w v : (v < 2 ^ w)%N -> as_u w (as_i w v) = v.
Proof.
  intros H. unfold as_u, as_i. rewrite wrap_s_mod.
  apply N2Z.inj_lt in H; rewrite N2Z.inj_pow in H.
  rewrite Z.mod_small by lia. apply N2Z.id.
Qed.

Lemma lxor_m1 x : Z.lxor x (-1) = - x - 1.
Proof. rewrite Z.lxor_m1_r. unfold Z.lnot; lia. Qed.

Lemma enc_zigzag_spec w z : (1 <= w)%N -> in_s w z = true -> enc_zigzag w z = zigzag z.
Proof.
  intros Hw H. pose proof (proj1 (in_s_iff w z) H) as Hz. pose proof (pow2_half w Hw) as Hh.
  unfold enc_zigzag, zigzag. rewrite Z.shiftl_mul_pow2, Z.shiftr_div_pow2 by lia.
  change (2 ^ 1) with 2.
  destruct (Z.ltb_spec z 0) as [Hn|Hn].
  - replace (z / 2 ^ (Z.of_N w - 1)) with (-1)
      by (apply (Z.div_unique_pos _ _ (-1) (z + 2 ^ (Z.of_N w - 1))); lia).
    rewrite lxor_m1. unfold as_u. f_equal.
    rewrite <- Zminus_mod_idemp_l.
    replace (- wrap_s w (z * 2)) with (0 - wrap_s w (z * 2)) by lia.
    rewrite <- (Zminus_mod_idemp_r 0), wrap_s_mod, Zminus_mod_idemp_r, Zminus_mod_idemp_l.
    rewrite Z.mod_small by lia. lia.
  - rewrite (Z.div_small z) by lia. rewrite Z.lxor_0_r. unfold as_u. rewrite wrap_s_mod.
    rewrite Z.mod_small by lia. f_equal; lia.
Qed.

Lemma zigzag_bound w z : (1 <= w)%N -> in_s w z = true -> (zigzag z < 2 ^ w)%N.
Proof.
  intros Hw H; apply in_s_iff in H. pose proof (pow2_half w Hw). pose proof (N2Z.inj_pow 2 w).
  unfold zigzag; destruct (Z.ltb_spec z 0); lia.
Qed.

Lemma land1 x : Z.land x 1 = x mod 2.
Proof. change 1 with (Z.ones 1). rewrite Z.land_ones by lia. reflexivity. Qed.

Lemma dec_zigzag_spec w v : (1 <= w)%N -> (v < 2 ^ w)%N -> dec_zigzag w v = unzigzag v.
Proof.
  intros Hw H. pose proof (pow2_half w Hw) as Hh. pose proof (half_pos w Hw) as Hp.
  assert (Hv : Z.of_N v < 2 ^ Z.of_N w) by (apply N2Z.inj_lt in H; rewrite N2Z.inj_pow in H; exact H).
  unfold dec_zigzag, unzigzag. unfold shr; rewrite N.shiftr_div_pow2; change (2 ^ 1)%N with 2%N.
  assert (H2 : Z.of_N (v / 2) = Z.of_N v / 2) by (rewrite N2Z.inj_div; reflexivity).
  assert (Hq : Z.of_N v = 2 * (Z.of_N v / 2) + Z.of_N v mod 2) by (apply Z.div_mod; lia).
  pose proof (Z.mod_pos_bound (Z.of_N v) 2).
  assert (Ha : as_i w (v / 2) = Z.of_N (v / 2)).
  { unfold as_i. apply wrap_s_id; [exact Hw|]. apply in_s_iff. lia. }
  rewrite Ha, land1.
  assert (Hm : as_i w v mod 2 = Z.of_N v mod 2).
  { unfold as_i, wrap_s. rewrite Hh.
    rewrite Z.rem_mul_r by lia.
    set (q := (_ / 2) mod _). set (h := 2 ^ (Z.of_N w - 1)).
    replace ((Z.of_N v + h) mod 2 + 2 * q - h) with ((Z.of_N v + h) mod 2 - h + q * 2) by lia.
    rewrite Z.mod_add, Zminus_mod_idemp_l by lia. f_equal; lia. }
  rewrite Hm.
  assert (He : N.even v = (Z.of_N v mod 2 =? 0)).
  { rewrite Zmod_even. rewrite <- (N2Z.id v) at 1. destruct v as [|[p|p|]]; reflexivity. }
  rewrite He. destruct (Z.eqb_spec (Z.of_N v mod 2) 0) as [E|E].
  - rewrite E. change (- 0) with 0.
    assert (Hw0 : wrap_s w 0 = 0) by (apply wrap_s_id; [exact Hw|apply in_s_iff; lia]).
    rewrite Hw0, Z.lxor_0_r; reflexivity.
  - replace (Z.of_N v mod 2) with 1 by lia. change (Z.opp 1) with (-1).
    assert (Hw1 : wrap_s w (- 1) = -1) by (apply wrap_s_id; [exact Hw|apply in_s_iff; lia]).
    rewrite Hw1. rewrite lxor_m1; lia.
Qed.

Lemma unzigzag_zigzag z : unzigzag (zigzag z) = z.
Proof.
  unfold unzigzag, zigzag. destruct (Z.ltb_spec z 0) as [H|H].
  - assert (E : Z.to_N (-2 * z - 1) = (1 + 2 * Z.to_N (- z - 1))%N) by lia.
    rewrite E, N.even_add_mul_2; cbn [N.even].
    replace ((1 + 2 * Z.to_N (- z - 1)) / 2)%N with (Z.to_N (- z - 1)); [lia|].
    apply (N.div_unique _ _ _ 1%N); lia.
  - assert (E : Z.to_N (2 * z) = (0 + 2 * Z.to_N z)%N) by lia.
    rewrite E, N.even_add_mul_2; cbn [N.even].
    replace ((0 + 2 * Z.to_N z) / 2)%N with (Z.to_N z); [lia|].
    apply (N.div_unique _ _ _ 0%N); lia.
Qed.
Lemma zigzag_unzigzag n : zigzag (unzigzag n) = n.
Proof.
  unfold unzigzag, zigzag. pose proof (N.div_mod n 2 ltac:(lia)) as H.
  rewrite <- N.bit0_mod, N.bit0_odd, <- N.negb_even in H.
  destruct (N.even n); cbn [negb N.b2n] in H.
  - destruct (Z.ltb_spec (Z.of_N (n / 2)) 0); lia.
  - destruct (Z.ltb_spec (- Z.of_N (n / 2) - 1) 0); lia.
Qed.
Lemma unzigzag_in w n : (1 <= w)%N -> (n < 2 ^ w)%N -> in_s w (unzigzag n) = true.
Proof.
  intros Hw H. apply in_s_iff. pose proof (pow2_half w Hw) as Hh.
  apply N2Z.inj_lt in H; rewrite N2Z.inj_pow in H. change (Z.of_N 2) with 2 in H.
  unfold unzigzag. pose proof (N.div_mod n 2 ltac:(lia)). pose proof (N.mod_lt n 2 ltac:(lia)).
  destruct (N.even n); lia.
Qed.

Lemma dec_enc_zigzag w z : (1 <= w)%N -> in_s w z = true -> dec_zigzag w (enc_zigzag w z) = z.
Proof.
  intros Hw H. rewrite enc_zigzag_spec by assumption.
  rewrite dec_zigzag_spec by (first [exact Hw | apply zigzag_bound; assumption]).
  apply unzigzag_zigzag.
Qed.
Lemma enc_zigzag_bound w z : (1 <= w)%N -> in_s w z = true -> (enc_zigzag w z < 2 ^ w)%N.
Proof. intros Hw H; rewrite enc_zigzag_spec by assumption; apply zigzag_bound; assumption. Qed.
