(** * Proofs about Varint.v: encoder and decoder against the arithmetic specification. *)
From Verif Require Import Base BaseFacts Varint SpecVarint.

(** ** Little-endian bytes *)
Lemma le_digits_S n v : le_digits (S n) v = v mod 256 :: le_digits n (v / 256).
Proof.
  unfold le_digits; cbn [seq map]; f_equal.
  - change (256 ^ N.of_nat 0) with 1; rewrite N.div_1_r; reflexivity.
  - rewrite <- seq_shift, map_map; apply map_ext; intros i.
    rewrite N.div_div by (try apply N.pow_nonzero; lia).
    do 2 f_equal. rewrite Nnat.Nat2N.inj_succ, N.pow_succ_r'; reflexivity.
Qed.
Lemma le_bytes_digits n v : le_bytes n v = le_digits n v.
Proof.
  revert v; induction n as [|n IH]; intros v; [reflexivity|].
  rewrite le_digits_S; cbn [le_bytes]; rewrite IH; reflexivity.
Qed.
Lemma of_le_value bs : of_le bs = le_value bs.
Proof. induction bs as [|b t IH]; cbn [of_le le_value]; congruence. Qed.

Lemma lenN_le_digits n v : lenN (le_digits n v) = N.of_nat n.
Proof. unfold lenN, le_digits; rewrite map_length, seq_length; reflexivity. Qed.
Lemma le_digits_ok n v : bytes_ok (le_digits n v).
Proof.
  unfold le_digits; apply Forall_forall; intros x Hx.
  apply in_map_iff in Hx as (i & <- & _); apply N.mod_lt; lia.
Qed.

Lemma pow_S_nat b (n : nat) : b ^ N.of_nat (S n) = b * b ^ N.of_nat n.
Proof. rewrite Nnat.Nat2N.inj_succ, N.pow_succ_r'; reflexivity. Qed.

Lemma le_value_digits n v : v < 256 ^ N.of_nat n -> le_value (le_digits n v) = v.
Proof.
  revert v; induction n as [|n IH]; intros v H.
  - change (256 ^ N.of_nat 0) with 1 in H; assert (v = 0) by lia; subst; reflexivity.
  - rewrite le_digits_S; cbn [le_value]; rewrite pow_S_nat in H. rewrite IH.
    + rewrite (N.div_mod v 256) at 3 by lia; lia.
    + apply N.div_lt_upper_bound; lia.
Qed.
Lemma le_value_bound bs : bytes_ok bs -> le_value bs < 256 ^ lenN bs.
Proof.
  induction 1 as [|b t Hb Ht IH]; [reflexivity|].
  unfold lenN in *; cbn [length le_value]; rewrite pow_S_nat; unfold byte_ok in Hb; nia.
Qed.
Lemma le_digits_value bs : bytes_ok bs -> le_digits (length bs) (le_value bs) = bs.
Proof.
  induction 1 as [|b t Hb Ht IH]; [reflexivity|].
  cbn [length le_value]; rewrite le_digits_S; unfold byte_ok in Hb.
  replace ((b + 256 * le_value t) mod 256) with b.
  - replace ((b + 256 * le_value t) / 256) with (le_value t); [rewrite IH; reflexivity|].
    rewrite N.mul_comm, N.div_add, N.div_small by lia; lia.
  - rewrite N.mul_comm, N.mod_add, N.mod_small by lia; lia.
Qed.

(** ** Bits as arithmetic *)
Lemma shl_small w v k : v * 2 ^ k < 2 ^ w -> shl w v k = v * 2 ^ k.
Proof. intros H; unfold shl; rewrite N.shiftl_mul_pow2; apply N.mod_small; exact H. Qed.
Lemma shr_div v k : shr v k = v / 2 ^ k.
Proof. unfold shr; apply N.shiftr_div_pow2. Qed.

Lemma lor_add_low x y n : x < 2 ^ n -> N.lor x (y * 2 ^ n) = x + y * 2 ^ n.
Proof.
  intros H. rewrite <- N.lxor_lor, <- N.add_nocarry_lxor; [reflexivity| |].
  all: apply N.bits_inj; intros i; rewrite N.land_spec, N.bits_0;
    destruct (N.lt_ge_cases i n);
    [ rewrite N.mul_pow2_bits_low, andb_false_r by assumption; reflexivity
    | replace (N.testbit x i) with false; [reflexivity|];
      rewrite <- (N.mod_small x (2 ^ n)) by assumption;
      rewrite N.mod_pow2_bits_high by assumption; reflexivity ].
Qed.
Lemma lor_const x y n : x < 2 ^ n -> y mod 2 ^ n = 0 -> N.lor x y = x + y.
Proof.
  intros Hx Hy.
  assert (Hn : 2 ^ n <> 0) by (apply N.pow_nonzero; lia).
  rewrite (N.div_mod y (2 ^ n)) by exact Hn.
  rewrite Hy, N.add_0_r, (N.mul_comm (2 ^ n)); apply lor_add_low; exact Hx.
Qed.
Lemma land_mask p n : N.land p (N.ones n) = p mod 2 ^ n.
Proof. apply N.land_ones. Qed.

Lemma size_le v m : N.size v <= m <-> v < 2 ^ m.
Proof.
  split; intros H.
  - eapply N.lt_le_trans; [apply N.size_gt|]. apply N.pow_le_mono_r; lia.
  - destruct (N.eq_dec v 0) as [->|Hv]; [cbn; lia|].
    rewrite N.size_log2 by exact Hv.
    assert (N.log2 v < m); [|lia].
    apply N.log2_lt_pow2; lia.
Qed.
Lemma lead0_le w v j : j < w -> (lead0 w v <=? j) = negb (v <? 2 ^ (w - j - 1)).
Proof.
  intros Hj; unfold lead0. pose proof (size_le v (w - j - 1)) as H.
  destruct (N.leb_spec (w - N.size v) j); destruct (N.ltb_spec v (2 ^ (w - j - 1))); cbn [negb];
    try reflexivity; exfalso.
  - apply H in H1; lia.
  - apply N.le_ngt in H1; apply H1, H; lia.
Qed.

(** x = v << s; its byte at bit position k+s-.. is a digit of v *)
Lemma digit_shift w v s k : v * 2 ^ s < 2 ^ w -> s <= k ->
  as_u8 (shr (shl w v s) k) = v / 2 ^ (k - s) mod 256.
Proof.
  intros H Hs; rewrite shl_small, shr_div by exact H; unfold as_u8; f_equal.
  replace k with (s + (k - s)) at 1 by lia.
  rewrite N.pow_add_r, <- N.div_div by (apply N.pow_nonzero; lia).
  rewrite N.div_mul by (apply N.pow_nonzero; lia); reflexivity.
Qed.
Lemma low_shift w v s : v * 2 ^ s < 2 ^ w -> s <= 8 ->
  shr (as_u8 (shl w v s)) s = v mod 2 ^ (8 - s).
Proof.
  intros H Hs; rewrite shl_small, shr_div by exact H; unfold as_u8.
  change 256 with (2 ^ 8). replace 8 with (s + (8 - s)) at 1 by lia.
  rewrite N.pow_add_r, (N.mul_comm v), N.mul_mod_distr_l by (apply N.pow_nonzero; lia).
  rewrite N.mul_comm, N.div_mul by (apply N.pow_nonzero; lia); reflexivity.
Qed.

Lemma le_digits_explicit n v s :
  le_digits n (v / 2 ^ s) = map (fun i => v / 2 ^ (8 * N.of_nat i + s) mod 256) (seq 0 n).
Proof.
  unfold le_digits; apply map_ext; intros i. f_equal.
  rewrite N.div_div by (apply N.pow_nonzero; lia). f_equal.
  change 256 with (2 ^ 8); rewrite <- N.pow_mul_r, <- N.pow_add_r; f_equal; lia.
Qed.

Ltac pow_eval :=
  repeat match goal with
  | |- context [2 ^ ?k] => is_ground k; let r := eval vm_compute in (2 ^ k) in change (2 ^ k) with r
  | H : context [2 ^ ?k] |- _ => is_ground k; let r := eval vm_compute in (2 ^ k) in change (2 ^ k) with r in H
  end.

(** One class of an encoder: the first byte is (v << (k+1) as u8 >> (k+1)) | prefix, the others
    are the bytes above. *)
Lemma enc_class w v (k : nat) pre l :
  (k <= 6)%nat -> v * 2 ^ (N.of_nat k + 1) < 2 ^ w ->
  pre = 256 - 2 ^ (8 - N.of_nat k) ->
  l = map (fun i => as_u8 (shr (shl w v (N.of_nat k + 1)) (8 * (N.of_nat i + 1)))) (seq 0 k) ->
  N.lor (shr (as_u8 (shl w v (N.of_nat k + 1))) (N.of_nat k + 1)) pre :: l = class_bytes k v.
Proof.
  intros Hk Hv -> ->; unfold class_bytes. f_equal.
  - rewrite low_shift by (first [exact Hv | lia]). replace (8 - (N.of_nat k + 1)) with (7 - N.of_nat k) by lia.
    rewrite N.add_comm. apply lor_const with (n := 8 - N.of_nat k).
    + eapply N.lt_le_trans; [apply N.mod_lt, N.pow_nonzero; lia|]. apply N.pow_le_mono_r; lia.
    + do 7 (destruct k as [|k]; [reflexivity|]); lia.
  - rewrite le_digits_explicit; apply map_ext_in; intros i Hi. apply in_seq in Hi.
    rewrite digit_shift by (first [exact Hv | lia]). do 3 f_equal. lia.
Qed.

Ltac lead0_cases :=
  repeat rewrite lead0_le by reflexivity;
  repeat match goal with
  | |- context [2 ^ ?k] => is_ground k; let r := eval vm_compute in (2 ^ k) in change (2 ^ k) with r
  end.

Lemma class_first (fuel k : nat) v :
  (k < fuel)%nat -> v < 2 ^ (7 * (N.of_nat k + 1)) -> (k = 0%nat \/ 2 ^ (7 * N.of_nat k) <= v) ->
  varint_class fuel 0 v = k.
Proof.
  intros Hk Hv Hlow.
  assert (G : forall fuel j, (j <= k < j + fuel)%nat -> varint_class fuel j v = k).
  { clear fuel Hk; induction fuel as [|f IH]; intros j Hj; [lia|].
    cbn [varint_class]. destruct (N.ltb_spec v (2 ^ (7 * (N.of_nat j + 1)))) as [H|H].
    - destruct (Nat.eq_dec j k) as [|Hne]; [assumption|]. exfalso.
      destruct Hlow as [->|Hlow]; [lia|].
      assert (2 ^ (7 * (N.of_nat j + 1)) <= 2 ^ (7 * N.of_nat k)) by (apply N.pow_le_mono_r; lia).
      lia.
    - destruct (Nat.eq_dec j k) as [->|Hne]; [lia|]. apply IH; lia. }
  apply G; lia.
Qed.

Lemma bytes_class m k v :
  (k < m)%nat -> (m <= 8)%nat -> v < 2 ^ (7 * (N.of_nat k + 1)) ->
  (k = 0%nat \/ 2 ^ (7 * N.of_nat k) <= v) -> varint_bytes m v = class_bytes k v.
Proof.
  intros Hk Hm Hv Hlow; unfold varint_bytes.
  destruct (N.ltb_spec v (2 ^ (7 * N.of_nat m))) as [_|H].
  - rewrite (class_first m k) by assumption; reflexivity.
  - assert (2 ^ (7 * (N.of_nat k + 1)) <= 2 ^ (7 * N.of_nat m)) by (apply N.pow_le_mono_r; lia). lia.
Qed.
Lemma bytes_raw m v : 2 ^ (7 * N.of_nat m) <= v ->
  varint_bytes m v = (256 - 2 ^ (8 - N.of_nat m)) :: le_digits m v.
Proof.
  intros H; unfold varint_bytes. destruct (N.ltb_spec v (2 ^ (7 * N.of_nat m))); [lia|reflexivity].
Qed.
Lemma class0 v : v < 128 -> [as_u8 v] = class_bytes 0 v.
Proof.
  intros H; unfold class_bytes, as_u8; cbn [N.of_nat le_digits map seq].
  change (256 - 2 ^ (8 - 0)) with 0; change (2 ^ (7 - 0)) with 128.
  rewrite !N.mod_small by lia; reflexivity.
Qed.

Ltac use_class w v k :=
  rewrite (bytes_class _ k v) by
    (first [lia | pow_eval; cbn [N.of_nat Pos.of_succ_nat Pos.succ N.mul N.add Pos.mul Pos.add] in *; pow_eval; lia
           | right; cbn [N.of_nat Pos.of_succ_nat Pos.succ N.mul N.add Pos.mul Pos.add] in *; pow_eval; lia]);
  apply (enc_class w v k); [lia | cbn [N.of_nat Pos.of_succ_nat Pos.succ N.mul N.add Pos.mul Pos.add] in *; pow_eval; lia | reflexivity | reflexivity].

Lemma enc_u16_spec v : v < 2 ^ 16 -> enc_u16 v = varint_bytes 2 v.
Proof.
  intros Hv; unfold enc_u16; cbv zeta; lead0_cases; pow_eval.
  destruct (N.ltb_spec v 16384) as [H1|H1]; cbn [negb].
  - destruct (N.ltb_spec v 128) as [H2|H2]; cbn [negb].
    + rewrite (bytes_class 2 0 v) by (first [lia | pow_eval; lia]). apply class0; exact H2.
    + use_class 16 v 1%nat.
  - rewrite bytes_raw by exact H1. rewrite le_bytes_digits; reflexivity.
Qed.
Lemma enc_u32_spec v : v < 2 ^ 32 -> enc_u32 v = varint_bytes 4 v.
Proof.
  intros Hv; unfold enc_u32; cbv zeta; lead0_cases; pow_eval.
  destruct (N.ltb_spec v 268435456) as [H1|H1]; cbn [negb].
  2:{ rewrite bytes_raw by exact H1. rewrite le_bytes_digits; reflexivity. }
  destruct (N.ltb_spec v 2097152) as [H2|H2]; cbn [negb]; [|use_class 32 v 3%nat].
  destruct (N.ltb_spec v 16384) as [H3|H3]; cbn [negb]; [|use_class 32 v 2%nat].
  destruct (N.ltb_spec v 128) as [H4|H4]; cbn [negb]; [|use_class 32 v 1%nat].
  rewrite (bytes_class 4 0 v) by (first [lia | pow_eval; lia]). apply class0; exact H4.
Qed.
Lemma enc_u64_spec v : v < 2 ^ 64 -> enc_u64 v = varint_bytes 8 v.
Proof.
  intros Hv; unfold enc_u64; cbv zeta; lead0_cases; pow_eval.
  destruct (N.ltb_spec v 72057594037927936) as [H1|H1]; cbn [negb].
  2:{ rewrite bytes_raw by exact H1. rewrite le_bytes_digits; reflexivity. }
  destruct (N.ltb_spec v 562949953421312) as [H2|H2]; cbn [negb].
  2:{ rewrite (bytes_class 8 7 v) by (first [lia | pow_eval; lia | right; pow_eval; lia]).
      unfold class_bytes. change (N.of_nat 7) with 7. change (7 - 7) with 0. change (8 - 7) with 1.
      f_equal. { pow_eval. rewrite N.mod_1_r; reflexivity. }
      rewrite le_digits_explicit. cbn [map seq].
      rewrite !shr_div; unfold as_u8.
      change (2 ^ (8 * N.of_nat 0 + 0)) with 1; rewrite N.div_1_r. reflexivity. }
  destruct (N.ltb_spec v 4398046511104) as [H3|H3]; cbn [negb]; [|use_class 64 v 6%nat].
  destruct (N.ltb_spec v 34359738368) as [H4|H4]; cbn [negb]; [|use_class 64 v 5%nat].
  destruct (N.ltb_spec v 268435456) as [H5|H5]; cbn [negb]; [|use_class 64 v 4%nat].
  destruct (N.ltb_spec v 2097152) as [H6|H6]; cbn [negb]; [|use_class 64 v 3%nat].
  destruct (N.ltb_spec v 16384) as [H7|H7]; cbn [negb]; [|use_class 64 v 2%nat].
  destruct (N.ltb_spec v 128) as [H8|H8]; cbn [negb]; [|use_class 64 v 1%nat].
  rewrite (bytes_class 8 0 v) by (first [lia | pow_eval; lia]). apply class0; exact H8.
Qed.

(** ** Decoders *)
Definition byte_list : list N := map N.of_nat (seq 0 256).
Lemma byte_list_in b : b < 256 -> In b byte_list.
Proof.
  intros H; unfold byte_list; apply in_map_iff. exists (N.to_nat b); split; [lia|].
  apply in_seq; lia.
Qed.
Lemma byte_sweep (P : N -> bool) : forallb P byte_list = true -> forall b, b < 256 -> P b = true.
Proof. intros H b Hb; rewrite forallb_forall in H; apply H, byte_list_in, Hb. Qed.

Lemma lead1_spec p : p < 256 -> lead1_u8 p = N.of_nat (leading_ones p).
Proof.
  intros H. apply N.eqb_eq. revert p H. apply byte_sweep; vm_compute; reflexivity.
Qed.
Lemma leading_ones_le p : (leading_ones p <= 8)%nat.
Proof.
  unfold leading_ones.
  assert (G : forall f b, (ones f b <= f)%nat).
  { induction f as [|f IH]; intros b; cbn [ones]; [lia|].
    destruct (128 <=? b); [specialize (IH ((b - 128) * 2))|]; lia. }
  apply G.
Qed.

Lemma dec_prefix_run c e A (k : N -> prog A) p t :
  run c (bind (dec_prefix e) k) (p :: t) = run c (k p) t.
Proof.
  unfold dec_prefix; cbn [bind run]. rewrite lenN_cons.
  destruct (N.ltb_spec (lenN t + 1) 1); [lia|].
  rewrite takeN_firstn, dropN_skipn; reflexivity.
Qed.
Lemma dec_prefix_nil c e A (k : N -> prog A) : run c (bind (dec_prefix e) k) [] = OErr e.
Proof. reflexivity. Qed.

Lemma run_ReadExact_ret {A} c e n (f : list N -> A) (g : list N -> A) t :
  (forall bs, lenN bs = n -> bytes_ok bs -> f bs = g bs) ->
  bytes_ok (takeN n t) ->
  run c (ReadExact n e (fun b => Ret (f b))) t =
  if lenN t <? n then OErr e else OOk (g (takeN n t)) (dropN n t).
Proof.
  intros H Hb; cbn [run]. destruct (N.ltb_spec (lenN t) n); [reflexivity|].
  f_equal; apply H; [rewrite lenN_takeN; lia|assumption].
Qed.

Lemma len_explicit (bs : list N) n : lenN bs = n -> length bs = N.to_nat n.
Proof. unfold lenN; lia. Qed.

Ltac explode bs H :=
  apply len_explicit in H; cbv [N.to_nat Pos.to_nat Pos.iter_op Nat.add] in H;
  repeat (destruct bs as [|? bs]; cbn [length] in H; try discriminate H);
  clear H.

Ltac bytes_bounds :=
  repeat match goal with
  | H : bytes_ok (_ :: _) |- _ => inversion H; clear H; subst
  | H : Forall byte_ok (_ :: _) |- _ => inversion H; clear H; subst
  | H : byte_ok _ |- _ => unfold byte_ok in H
  end.

(** value of one class k *)
Lemma class_value w (k : nat) p mask x y :
  (k <= 7)%nat -> mask = N.ones (7 - N.of_nat k) -> x = y ->
  x * 2 ^ (7 - N.of_nat k) < 2 ^ w ->
  N.lor (N.land p mask) (shl w x (7 - N.of_nat k)) =
  p mod 2 ^ (7 - N.of_nat k) + 2 ^ (7 - N.of_nat k) * y.
Proof.
  intros Hk -> <- Hx. rewrite shl_small, land_mask by exact Hx.
  rewrite lor_add_low by (apply N.mod_lt, N.pow_nonzero; lia). lia.
Qed.
Lemma join_hi w hi lo n : lo < 2 ^ n -> hi * 2 ^ n < 2 ^ w ->
  N.lor (shl w hi n) lo = lo + 2 ^ n * hi.
Proof.
  intros Hl Hh; rewrite shl_small, N.lor_comm, lor_add_low by assumption; lia.
Qed.

Definition varint_run (m : nat) (e : derr) (s : list N) : outcome N :=
  match s with
  | [] => OErr e
  | p :: t =>
    let n := N.of_nat (varint_extra m p) in
    if lenN t <? n then OErr e else OOk (varint_value m p (takeN n t)) (dropN n t)
  end.

Ltac class_case w k bs :=
  let Hl := fresh "Hl" in let Hb := fresh "Hb" in
  intros bs Hl Hb; explode bs Hl; bytes_bounds; cbn [at_ nth of_le le_value];
  apply (class_value w k);
  [ lia | reflexivity
  | rewrite ?join_hi by (pow_eval; lia); pow_eval; lia
  | rewrite ?join_hi by (pow_eval; lia); pow_eval; lia ].

Lemma varint_run_case m e p t k :
  leading_ones p = k ->
  varint_run m e (p :: t) =
  let n := N.of_nat (Nat.min k m) in
  if lenN t <? n then OErr e
  else OOk (if (k <? m)%nat
            then p mod 2 ^ (7 - N.of_nat k) + 2 ^ (7 - N.of_nat k) * le_value (takeN n t)
            else le_value (takeN n t)) (dropN n t).
Proof. intros <-; reflexivity. Qed.

Lemma leading_ones_0 p : leading_ones p = 0%nat -> p < 128.
Proof.
  unfold leading_ones; cbn [ones]. destruct (N.leb_spec 128 p); [discriminate|auto].
Qed.
Lemma varint_run_0 m e p t : leading_ones p = 0%nat -> (0 < m)%nat ->
  varint_run m e (p :: t) = OOk p t.
Proof.
  intros Hk Hm; rewrite (varint_run_case m e p t 0 Hk); cbv zeta.
  cbn [Nat.min]; change (N.of_nat 0) with 0.
  destruct (N.ltb_spec (lenN t) 0); [lia|]. rewrite takeN_0, dropN_0.
  destruct m as [|m]; [lia|]. change (0 <? S m)%nat with true; cbv iota; cbn [le_value].
  apply leading_ones_0 in Hk. change (2 ^ (7 - 0)) with 128. rewrite N.mod_small by exact Hk.
  f_equal; lia.
Qed.

Ltac dec_start m :=
  match goal with |- _ -> run _ _ ?s = _ =>
    destruct s as [|p t]; [reflexivity|];
    let Hp := fresh "Hp" in let Hb := fresh "Hb" in
    intros [Hp Hb]; rewrite dec_prefix_run; cbv zeta; rewrite lead1_spec by exact Hp;
    pose proof (leading_ones_le p) as Hle; unfold varint_extra in Hb;
    remember (leading_ones p) as k eqn:Ek; symmetry in Ek
  end.
Ltac class_goal k :=
  match goal with
  | Hb : bytes_ok (takeN _ ?t) |- run ?c (ReadExact ?n ?e (fun b => Ret (@?f b))) ?t = _ =>
    let p := match goal with E : leading_ones ?p = _ |- _ => p end in
    etransitivity;
    [ apply (run_ReadExact_ret c e n f
               (fun bs => p mod 2 ^ (7 - N.of_nat k) + 2 ^ (7 - N.of_nat k) * le_value bs));
      [|exact Hb]
    | reflexivity ]
  end.
Ltac eval_tests :=
  repeat match goal with
  | |- context [?a =? ?b] =>
      is_ground a; is_ground b; let r := eval vm_compute in (a =? b) in change (a =? b) with r
  end; cbv iota.

(** remaining leading-one counts: raw little-endian *)
Ltac raw_case m :=
  match goal with |- context [N.of_nat ?k] =>
    repeat match goal with
    | |- context [N.of_nat k =? ?j] =>
        replace (N.of_nat k =? j) with false by (symmetry; apply N.eqb_neq; lia)
    end;
    rewrite (varint_run_case m _ _ _ k) by assumption; cbv zeta;
    replace (Nat.min k m) with m in * by lia;
    replace (k <? m)%nat with false by (symmetry; apply Nat.ltb_ge; lia);
    apply (run_ReadExact_ret _ _ _ _ le_value); [intros; apply of_le_value|assumption]
  end.

Lemma dec_u16_run c e s :
  match s with [] => True | p :: t => p < 256 /\ bytes_ok (takeN (N.of_nat (varint_extra 2 p)) t) end ->
  run c (dec_u16 e) s = varint_run 2 e s.
Proof.
  unfold dec_u16; dec_start 2%nat.
  destruct k as [|[|k]].
  - eval_tests. symmetry; apply varint_run_0; [exact Ek|lia].
  - eval_tests. rewrite (varint_run_case 2 e p t _ Ek).
    class_goal 1%nat. class_case 16 1%nat bs.
  - raw_case 2%nat.
Qed.
Lemma dec_u32_run c e s :
  match s with [] => True | p :: t => p < 256 /\ bytes_ok (takeN (N.of_nat (varint_extra 4 p)) t) end ->
  run c (dec_u32 e) s = varint_run 4 e s.
Proof.
  unfold dec_u32; dec_start 4%nat.
  destruct k as [|[|[|[|k]]]]; [| | | |raw_case 4%nat]; eval_tests.
  - symmetry; apply varint_run_0; [exact Ek|lia].
  - rewrite (varint_run_case 4 e p t _ Ek).
    class_goal 1%nat. class_case 32 1%nat bs.
  - rewrite (varint_run_case 4 e p t _ Ek).
    class_goal 2%nat. class_case 32 2%nat bs.
  - rewrite (varint_run_case 4 e p t _ Ek).
    class_goal 3%nat. class_case 32 3%nat bs.
Qed.
Lemma dec_u64_run c e s :
  match s with [] => True | p :: t => p < 256 /\ bytes_ok (takeN (N.of_nat (varint_extra 8 p)) t) end ->
  run c (dec_u64 e) s = varint_run 8 e s.
Proof.
  unfold dec_u64; dec_start 8%nat.
  destruct k as [|[|[|[|[|[|[|[|k]]]]]]]]; [| | | | | | | |raw_case 8%nat]; eval_tests.
  1: { symmetry; apply varint_run_0; [exact Ek|lia]. }
  all: rewrite (varint_run_case 8 e p t _ Ek).
  - class_goal 1%nat. class_case 64 1%nat bs.
  - class_goal 2%nat. class_case 64 2%nat bs.
  - class_goal 3%nat. class_case 64 3%nat bs.
  - class_goal 4%nat. class_case 64 4%nat bs.
  - class_goal 5%nat. class_case 64 5%nat bs.
  - class_goal 6%nat. class_case 64 6%nat bs.
  - class_goal 7%nat. intros bs Hl Hbs. rewrite shr_div, of_le_value; cbn [le_value].
    change (2 ^ (7 - N.of_nat 7)) with 1; change (2 ^ 8) with 256.
    rewrite N.mod_1_r, (N.mul_comm 256), N.div_add, N.div_small by lia. lia.
Qed.

(** ** Round trip on the specification *)
Lemma class_props fuel j v :
  v < 2 ^ (7 * (N.of_nat (j + fuel))) -> (0 < fuel)%nat -> (j = 0%nat \/ 2 ^ (7 * N.of_nat j) <= v) ->
  let k := varint_class fuel j v in
  (j <= k < j + fuel)%nat /\ v < 2 ^ (7 * (N.of_nat k + 1)) /\ (k = 0%nat \/ 2 ^ (7 * N.of_nat k) <= v).
Proof.
  revert j; induction fuel as [|f IH]; intros j Hv Hf Hlow; [lia|]. cbn [varint_class].
  destruct (N.ltb_spec v (2 ^ (7 * (N.of_nat j + 1)))) as [H|H].
  - repeat split; try lia; assumption.
  - destruct f as [|f].
    + exfalso. replace (N.of_nat (j + 1)) with (N.of_nat j + 1) in Hv by lia. lia.
    + destruct (IH (S j)) as (H1 & H2 & H3).
      * replace (S j + S f)%nat with (j + S (S f))%nat by lia; exact Hv.
      * lia.
      * right. replace (N.of_nat (S j)) with (N.of_nat j + 1) by lia; exact H.
      * repeat split; try lia; assumption.
Qed.

(** Leading ones as an interval. *)
Lemma leading_ones_iff k b : (k <= 7)%nat -> b < 256 ->
  leading_ones b = k <-> (256 - 2 ^ (8 - N.of_nat k) <= b /\ b < 256 - 2 ^ (7 - N.of_nat k)).
Proof.
  intros Hk Hb.
  assert (G : Bool.eqb (leading_ones b =? k)%nat
               ((256 - 2 ^ (8 - N.of_nat k) <=? b) && (b <? 256 - 2 ^ (7 - N.of_nat k))) = true).
  { revert b Hb. do 8 (destruct k as [|k]; [apply byte_sweep; vm_compute; reflexivity|]). lia. }
  apply eqb_prop in G.
  destruct (Nat.eqb_spec (leading_ones b) k); destruct (N.leb_spec (256 - 2 ^ (8 - N.of_nat k)) b);
    destruct (N.ltb_spec b (256 - 2 ^ (7 - N.of_nat k))); cbn [andb] in G; try discriminate;
    split; intros; try tauto; lia.
Qed.
Lemma leading_ones_8 b : b < 256 -> leading_ones b = 8%nat <-> b = 255.
Proof.
  intros Hb. assert (G : Bool.eqb (leading_ones b =? 8)%nat (b =? 255) = true).
  { revert b Hb; apply byte_sweep; vm_compute; reflexivity. }
  apply eqb_prop in G.
  destruct (Nat.eqb_spec (leading_ones b) 8); destruct (N.eqb_spec b 255); try discriminate; tauto.
Qed.
Lemma class_head k v : (k <= 7)%nat ->
  let b := 256 - 2 ^ (8 - N.of_nat k) + v mod 2 ^ (7 - N.of_nat k) in
  b < 256 /\ leading_ones b = k /\ b mod 2 ^ (7 - N.of_nat k) = v mod 2 ^ (7 - N.of_nat k).
Proof.
  intros Hk b.
  assert (Hx : v mod 2 ^ (7 - N.of_nat k) < 2 ^ (7 - N.of_nat k)) by (apply N.mod_lt, N.pow_nonzero; lia).
  assert (He : 2 ^ (8 - N.of_nat k) = 2 * 2 ^ (7 - N.of_nat k)).
  { replace (8 - N.of_nat k) with (N.succ (7 - N.of_nat k)) by lia. apply N.pow_succ_r'. }
  assert (Hle : 2 ^ (7 - N.of_nat k) <= 128).
  { change 128 with (2 ^ 7). apply N.pow_le_mono_r; lia. }
  assert (Hb : b < 256) by (unfold b; lia).
  repeat split; [exact Hb|apply leading_ones_iff; [exact Hk|exact Hb|unfold b; lia]|].
  unfold b. rewrite N.add_comm.
  assert (Hm : (256 - 2 ^ (8 - N.of_nat k)) mod 2 ^ (7 - N.of_nat k) = 0).
  { do 8 (destruct k as [|k]; [reflexivity|]). lia. }
  rewrite <- N.add_mod_idemp_r, Hm, N.add_0_r by lia.
  apply N.mod_mod; lia.
Qed.

Definition varint_m (m : nat) : Prop := m = 2%nat \/ m = 4%nat \/ m = 8%nat.

Lemma raw_head m : varint_m m ->
  let b := 256 - 2 ^ (8 - N.of_nat m) in b < 256 /\ (m <= leading_ones b)%nat.
Proof. intros [-> | [-> | ->]]; vm_compute; split; solve [reflexivity | repeat constructor]. Qed.

(** Shape of an encoding: the first byte announces the number of bytes that follow, and carries
    the value. *)
Lemma varint_bytes_shape m v : varint_m m -> v < 2 ^ (8 * N.of_nat m) ->
  exists p t, varint_bytes m v = p :: t /\ p < 256 /\ bytes_ok t
    /\ length t = varint_extra m p /\ varint_value m p t = v.
Proof.
  intros Hm Hv; unfold varint_bytes.
  assert (Hm8 : (2 <= m <= 8)%nat) by (destruct Hm as [-> | [-> | ->]]; lia).
  destruct (N.ltb_spec v (2 ^ (7 * N.of_nat m))) as [Hs|Hs].
  - destruct (class_props m 0 v) as (Hk & Hk1 & _); [exact Hs|lia|left; reflexivity|].
    set (k := varint_class m 0 v) in *. clearbody k.
    destruct (class_head k v) as (Hb & Hlo & Hmod); [lia|].
    unfold class_bytes. set (b := 256 - 2 ^ (8 - N.of_nat k) + v mod 2 ^ (7 - N.of_nat k)) in *. clearbody b.
    exists b, (le_digits k (v / 2 ^ (7 - N.of_nat k))).
    repeat split; [exact Hb|apply le_digits_ok| |].
    + unfold varint_extra; rewrite Hlo. unfold le_digits; rewrite map_length, seq_length.
      clear - Hk; lia.
    + unfold varint_value; rewrite Hlo. replace (k <? m)%nat with true by (symmetry; apply Nat.ltb_lt; lia).
      rewrite Hmod, le_value_digits.
      * rewrite (N.div_mod v (2 ^ (7 - N.of_nat k))) at 3 by (apply N.pow_nonzero; lia). lia.
      * apply N.div_lt_upper_bound; [apply N.pow_nonzero; lia|].
        change 256 with (2 ^ 8); rewrite <- N.pow_mul_r, <- N.pow_add_r.
        replace (7 - N.of_nat k + 8 * N.of_nat k) with (7 * (N.of_nat k + 1)) by (clear - Hk Hm8; lia). exact Hk1.
  - destruct (raw_head m Hm) as [Hb Hlo].
    exists (256 - 2 ^ (8 - N.of_nat m)), (le_digits m v).
    repeat split; [exact Hb|apply le_digits_ok| |].
    + unfold varint_extra, le_digits; rewrite map_length, seq_length. lia.
    + unfold varint_value. replace (leading_ones _ <? m)%nat with false by (symmetry; apply Nat.ltb_ge; exact Hlo).
      apply le_value_digits. change 256 with (2 ^ 8); rewrite <- N.pow_mul_r; exact Hv.
Qed.

Lemma varint_roundtrip m e v t : varint_m m -> v < 2 ^ (8 * N.of_nat m) ->
  varint_run m e (varint_bytes m v ++ t) = OOk v t.
Proof.
  intros Hm Hv. destruct (varint_bytes_shape m v Hm Hv) as (p & u & -> & Hp & Hu & Hl & Hval).
  cbn [app varint_run]. rewrite <- Hl. change (N.of_nat (length u)) with (lenN u).
  rewrite lenN_app, takeN_app, dropN_app.
  destruct (N.ltb_spec (lenN u + lenN t) (lenN u)); [lia|]. rewrite Hval; reflexivity.
Qed.

Lemma varint_bytes_ok m v : varint_m m -> v < 2 ^ (8 * N.of_nat m) -> bytes_ok (varint_bytes m v).
Proof.
  intros Hm Hv. destruct (varint_bytes_shape m v Hm Hv) as (p & u & -> & Hp & Hu & _).
  constructor; assumption.
Qed.

Lemma enc_guard m v t : varint_m m -> v < 2 ^ (8 * N.of_nat m) ->
  match varint_bytes m v ++ t with
  | [] => True
  | p :: t => p < 256 /\ bytes_ok (takeN (N.of_nat (varint_extra m p)) t) end.
Proof.
  intros Hm Hv. destruct (varint_bytes_shape m v Hm Hv) as (p & u & -> & Hp & Hu & Hl & _).
  cbn [app]. split; [exact Hp|]. rewrite <- Hl. change (N.of_nat (length u)) with (lenN u).
  rewrite takeN_app; exact Hu.
Qed.

(** ** Structure of the decoders *)
Lemma local_dec_prefix c e : local c e (dec_prefix e).
Proof. apply local_ReadExact; intros; apply local_Ret. Qed.
Ltac local_dec :=
  apply local_bind; [apply local_dec_prefix|]; intros ?p; cbv zeta;
  repeat match goal with |- local _ _ (if ?b then _ else _) => destruct b end;
  first [apply local_Ret | apply local_ReadExact; intros; apply local_Ret].
Lemma local_dec_u8 c e : local c e (dec_u8 e).
Proof. unfold dec_u8; local_dec. Qed.
Lemma local_dec_u16 c e : local c e (dec_u16 e).
Proof. unfold dec_u16; local_dec. Qed.
Lemma local_dec_u32 c e : local c e (dec_u32 e).
Proof. unfold dec_u32; local_dec. Qed.
Lemma local_dec_u64 c e : local c e (dec_u64 e).
Proof. unfold dec_u64; local_dec. Qed.

Lemma parses_u16 c e v : v < 2 ^ 16 -> parses c e (dec_u16 e) (enc_u16 v) v.
Proof.
  assert (Hm : varint_m 2) by (left; reflexivity).
  intros Hv; rewrite enc_u16_spec by exact Hv.
  apply local_parses; [apply local_dec_u16|apply varint_bytes_ok; [exact Hm|exact Hv]|]. rewrite <- (app_nil_r (varint_bytes 2 v)).
  rewrite dec_u16_run by (apply enc_guard; [exact Hm|exact Hv]).
  apply varint_roundtrip; [exact Hm|exact Hv].
Qed.
Lemma parses_u32 c e v : v < 2 ^ 32 -> parses c e (dec_u32 e) (enc_u32 v) v.
Proof.
  assert (Hm : varint_m 4) by (right; left; reflexivity).
  intros Hv; rewrite enc_u32_spec by exact Hv.
  apply local_parses; [apply local_dec_u32|apply varint_bytes_ok; [exact Hm|exact Hv]|]. rewrite <- (app_nil_r (varint_bytes 4 v)).
  rewrite dec_u32_run by (apply enc_guard; [exact Hm|exact Hv]).
  apply varint_roundtrip; [exact Hm|exact Hv].
Qed.
Lemma parses_u64 c e v : v < 2 ^ 64 -> parses c e (dec_u64 e) (enc_u64 v) v.
Proof.
  assert (Hm : varint_m 8) by (right; right; reflexivity).
  intros Hv; rewrite enc_u64_spec by exact Hv.
  apply local_parses; [apply local_dec_u64|apply varint_bytes_ok; [exact Hm|exact Hv]|]. rewrite <- (app_nil_r (varint_bytes 8 v)).
  rewrite dec_u64_run by (apply enc_guard; [exact Hm|exact Hv]).
  apply varint_roundtrip; [exact Hm|exact Hv].
Qed.
Lemma parses_u8_varint c e v : v < 2 ^ 8 -> parses c e (dec_u8 e) (enc_u8 v) v.
Proof.
  change (2 ^ 8) with 256. intros Hv; apply local_parses; [apply local_dec_u8| |].
  { unfold enc_u8; destruct (v <? 128); repeat constructor; unfold byte_ok; lia. }
  unfold enc_u8, dec_u8.
  destruct (N.ltb_spec v 128) as [H|H]; rewrite dec_prefix_run.
  - destruct (N.ltb_spec v 128); [reflexivity|lia].
  - reflexivity.
Qed.

(** ** Ranges, lengths, re-encoding *)
Lemma varint_value_bound m p t : varint_m m -> p < 256 -> bytes_ok t -> length t = varint_extra m p ->
  varint_value m p t < 2 ^ (8 * N.of_nat m).
Proof.
  intros Hm Hp Ht Hl. pose proof (le_value_bound t Ht) as Hb.
  unfold varint_value, varint_extra in *. pose proof (leading_ones_le p) as Hle.
  assert (Hm8 : (2 <= m <= 8)%nat) by (destruct Hm as [-> | [-> | ->]]; lia).
  unfold lenN in Hb; rewrite Hl in Hb. change 256 with (2 ^ 8) in Hb.
  rewrite <- N.pow_mul_r in Hb.
  destruct (Nat.ltb_spec (leading_ones p) m) as [H|H].
  - set (k := leading_ones p) in *. replace (Nat.min k m) with k in Hb by lia.
    assert (Hx : p mod 2 ^ (7 - N.of_nat k) < 2 ^ (7 - N.of_nat k)) by (apply N.mod_lt, N.pow_nonzero; lia).
    apply N.lt_le_trans with (2 ^ (7 - N.of_nat k) * 2 ^ (8 * N.of_nat k)).
    + nia.
    + rewrite <- N.pow_add_r. apply N.pow_le_mono_r; lia.
  - replace (Nat.min (leading_ones p) m) with m in Hb by lia. exact Hb.
Qed.

Lemma varint_bytes_len m v : varint_m m -> v < 2 ^ (8 * N.of_nat m) ->
  (length (varint_bytes m v) <= m + 1)%nat.
Proof.
  intros Hm Hv. destruct (varint_bytes_shape m v Hm Hv) as (p & u & -> & _ & _ & Hl & _).
  cbn [length]; rewrite Hl; unfold varint_extra; lia.
Qed.

(** An encoding that fits j extra bytes has at most j extra bytes. *)
Lemma varint_bytes_min m v j : varint_m m -> (j < m)%nat -> v < 2 ^ (7 * (N.of_nat j + 1)) ->
  (length (varint_bytes m v) <= j + 1)%nat.
Proof.
  intros Hm Hj Hv; unfold varint_bytes.
  assert (Hle : 2 ^ (7 * (N.of_nat j + 1)) <= 2 ^ (7 * N.of_nat m)) by (apply N.pow_le_mono_r; lia).
  destruct (N.ltb_spec v (2 ^ (7 * N.of_nat m))) as [Hs|Hs]; [|lia].
  destruct (class_props m 0 v) as (Hk & Hk1 & Hk2); [exact Hs|lia|left; reflexivity|].
  set (k := varint_class m 0 v) in *. clearbody k.
  unfold class_bytes, le_digits; cbn [length]; rewrite map_length, seq_length.
  assert (k <= j)%nat; [|lia].
  destruct Hk2 as [->|Hk2]; [lia|].
  destruct (Nat.le_gt_cases k j) as [|Hgt]; [assumption|].
  assert (2 ^ (7 * (N.of_nat j + 1)) <= 2 ^ (7 * N.of_nat k)) by (apply N.pow_le_mono_r; lia). lia.
Qed.

Lemma varint_reencode m p t : varint_m m -> p < 256 -> bytes_ok t -> length t = varint_extra m p ->
  (length (varint_bytes m (varint_value m p t)) <= length (p :: t))%nat.
Proof.
  intros Hm Hp Ht Hl. cbn [length].
  pose proof (varint_value_bound m p t Hm Hp Ht Hl) as Hbound.
  pose proof (le_value_bound t Ht) as Hb.
  unfold varint_extra in Hl. pose proof (leading_ones_le p).
  destruct (Nat.ltb_spec (leading_ones p) m) as [H1|H1].
  - replace (S (length t)) with (leading_ones p + 1)%nat by lia.
    apply varint_bytes_min; [exact Hm|exact H1|].
    unfold varint_value in *. replace (leading_ones p <? m)%nat with true in * by (symmetry; apply Nat.ltb_lt; lia).
    set (k := leading_ones p) in *. unfold lenN in Hb. replace (length t) with k in Hb by lia.
    change 256 with (2 ^ 8) in Hb; rewrite <- N.pow_mul_r in Hb.
    assert (Hx : p mod 2 ^ (7 - N.of_nat k) < 2 ^ (7 - N.of_nat k)) by (apply N.mod_lt, N.pow_nonzero; lia).
    assert (k <= 7)%nat by (destruct Hm as [-> | [-> | ->]]; lia).
    replace (7 * (N.of_nat k + 1)) with ((7 - N.of_nat k) + 8 * N.of_nat k) by lia.
    rewrite N.pow_add_r. nia.
  - pose proof (varint_bytes_len m _ Hm Hbound). lia.
Qed.

(** ** Values returned *)
Lemma bytes_guard m s : bytes_ok s ->
  match s with [] => True | p :: t => p < 256 /\ bytes_ok (takeN (N.of_nat (varint_extra m p)) t) end.
Proof.
  intros H; destruct s as [|p t]; [exact I|]. inversion H; subst.
  split; [assumption|apply Forall_takeN; assumption].
Qed.
(** A successful varint read, spelled out. *)
Lemma varint_run_inv m e s v r : bytes_ok s -> varint_run m e s = OOk v r ->
  exists p u, s = p :: u ++ r /\ p < 256 /\ bytes_ok u /\ length u = varint_extra m p /\ v = varint_value m p u.
Proof.
  intros Hs; destruct s as [|p t]; cbn [varint_run]; [discriminate|]. inversion Hs; subst.
  destruct (N.ltb_spec (lenN t) (N.of_nat (varint_extra m p))); [discriminate|].
  intros H'; injection H' as <- <-.
  exists p, (takeN (N.of_nat (varint_extra m p)) t).
  rewrite take_drop. repeat split; [assumption|apply Forall_takeN; assumption|].
  pose proof (lenN_takeN (N.of_nat (varint_extra m p)) t) as Hl. unfold lenN in *. lia.
Qed.
Lemma varint_run_bound m e s v r : varint_m m -> bytes_ok s -> varint_run m e s = OOk v r ->
  v < 2 ^ (8 * N.of_nat m).
Proof.
  intros Hm Hs H; apply varint_run_inv in H as (p & u & _ & Hp & Hu & Hl & ->); [|exact Hs].
  apply varint_value_bound; assumption.
Qed.
Lemma yields_u16 c e : yields c (dec_u16 e) (fun v => v < 2 ^ 16).
Proof.
  intros s v r Hs H. rewrite dec_u16_run in H by (apply bytes_guard, Hs).
  apply (varint_run_bound 2) in H; [exact H|left; reflexivity|exact Hs].
Qed.
Lemma yields_u32 c e : yields c (dec_u32 e) (fun v => v < 2 ^ 32).
Proof.
  intros s v r Hs H. rewrite dec_u32_run in H by (apply bytes_guard, Hs).
  apply (varint_run_bound 4) in H; [exact H|right; left; reflexivity|exact Hs].
Qed.
Lemma yields_u64 c e : yields c (dec_u64 e) (fun v => v < 2 ^ 64).
Proof.
  intros s v r Hs H. rewrite dec_u64_run in H by (apply bytes_guard, Hs).
  apply (varint_run_bound 8) in H; [exact H|right; right; reflexivity|exact Hs].
Qed.

(** ** Exact length *)
Lemma varint_bytes_length_iff m v j : varint_m m -> v < 2 ^ (8 * N.of_nat m) -> (j < m)%nat ->
  (length (varint_bytes m v) <= j + 1)%nat <-> v < 2 ^ (7 * (N.of_nat j + 1)).
Proof.
  intros Hm Hv Hj; split; [|apply varint_bytes_min; assumption].
  unfold varint_bytes. destruct (N.ltb_spec v (2 ^ (7 * N.of_nat m))) as [Hs|Hs].
  - destruct (class_props m 0 v) as (Hk & Hk1 & _); [exact Hs|lia|left; reflexivity|].
    set (k := varint_class m 0 v) in *. clearbody k.
    unfold class_bytes, le_digits; cbn [length]; rewrite map_length, seq_length. intros Hkj.
    eapply N.lt_le_trans; [exact Hk1|]. apply N.pow_le_mono_r; lia.
  - unfold le_digits; cbn [length]; rewrite map_length, seq_length. lia.
Qed.
