(** * Big integers and decimals: conversions are exact. *)
From Coq Require Import QArith Qpower.
From Verif Require Import Base BaseFacts Varint VarintFacts SpecVarint SpecBig Serde Big PrimFacts WireFacts Consume SerdeSize BodyFacts.
Local Open Scope N_scope.

(** ** Unsigned bytes *)
Lemma of_le_value bs : of_le bs = le_value bs.
Proof. reflexivity. Qed.
Definition lenp (bs : list N) : N := 256 ^ lenN bs.
Lemma lenp_cons b bs : lenp (b :: bs) = 256 * lenp bs.
Proof. unfold lenp. rewrite lenN_cons, N.pow_add_r. lia. Qed.
Lemma lenp_pos bs : 1 <= lenp bs.
Proof. unfold lenp. pose proof (N.pow_nonzero 256 (lenN bs)). lia. Qed.
Lemma le_value_lt bs : bytes_ok bs -> le_value bs < lenp bs.
Proof.
  induction 1 as [|b bs Hb _ IH]; [reflexivity|]. cbn [le_value]. rewrite lenp_cons. unfold byte_ok in Hb. lia.
Qed.
Lemma le_value_inj bs : forall bs', bytes_ok bs -> bytes_ok bs' -> length bs = length bs' -> le_value bs = le_value bs' -> bs = bs'.
Proof.
  induction bs as [|b bs IH]; intros [|b' bs'] H H' L E; try discriminate; [reflexivity|].
  inversion H as [|? ? Hb Hbs]; inversion H' as [|? ? Hb' Hbs']; subst. cbn [le_value] in E. unfold byte_ok in *.
  assert (b = b' /\ le_value bs = le_value bs') as [-> E'] by lia. f_equal. apply IH; auto.
Qed.
Lemma le_value_app a b : le_value (a ++ b) = le_value a + lenp a * le_value b.
Proof.
  induction a as [|x a IH]; [change (lenp []) with 1; cbn [app le_value]; lia|]. cbn [app le_value]. rewrite IH, lenp_cons. lia.
Qed.
Lemma mag_bytes_spec f : forall n, n < 2 ^ N.of_nat f ->
  le_value (mag_bytes f n) = n /\ bytes_ok (mag_bytes f n) /\ (n <> 0 -> lenp (mag_bytes f n) <= 256 * n) /\ (n = 0 -> mag_bytes f n = []).
Proof.
  induction f as [|f IH]; intros n Hn.
  - change (2 ^ N.of_nat 0) with 1 in Hn. assert (n = 0) as -> by lia. cbn. repeat split; [constructor|lia].
  - cbn [mag_bytes]. destruct (N.eqb_spec n 0) as [->|H0].
    + cbn. repeat split; [constructor|lia].
    + destruct (IH (n / 256)) as (E & B & L & Z0).
      { apply N.div_lt_upper_bound; [discriminate|]. rewrite Nnat.Nat2N.inj_succ, N.pow_succ_r' in Hn. lia. }
      pose proof (N.div_mod n 256 ltac:(discriminate)) as D.
      pose proof (N.mod_upper_bound n 256 ltac:(discriminate)) as M.
      split; [|split; [|split]].
      * cbn [le_value]. rewrite E. lia.
      * constructor; [exact M|exact B].
      * intros _. rewrite lenp_cons. destruct (N.eq_dec (n / 256) 0) as [Ez|En].
        -- rewrite (Z0 Ez). change (lenp []) with 1. lia.
        -- specialize (L En). revert D L M. generalize (n / 256) (n mod 256). intros; lia.
      * intros; contradiction.
Qed.
Lemma size_pow n : n < 2 ^ N.of_nat (N.to_nat (N.size n)).
Proof. rewrite N2Nat.id. apply N.size_gt. Qed.
Lemma to_bytes_spec n : n <> 0 ->
  le_value (to_bytes_le n) = n /\ bytes_ok (to_bytes_le n) /\ lenp (to_bytes_le n) <= 256 * n.
Proof.
  intros H. unfold to_bytes_le. destruct (N.eqb_spec n 0); [contradiction|].
  destruct (mag_bytes_spec _ n (size_pow n)) as (E & B & L & _). auto.
Qed.
Lemma pow_len_le (a b : nat) m : 256 ^ N.of_nat a <= m -> m < 256 * 256 ^ N.of_nat b -> (a <= b)%nat.
Proof.
  intros H1 H2. assert (N.of_nat a < N.succ (N.of_nat b)); [|lia].
  apply (N.pow_lt_mono_r_iff 256); [lia|]. rewrite N.pow_succ_r'. lia.
Qed.
Lemma biguint_from_shortest n : shortest le_value n (biguint_from n).
Proof.
  unfold biguint_from. destruct (N.eqb_spec n 0) as [->|H].
  - repeat split; [constructor|]. intros; cbn; lia.
  - destruct (to_bytes_spec n H) as (E & B & L). split; [exact B|]. split; [exact E|]. intros bs' B' E'.
    pose proof (le_value_lt bs' B') as Hlt. rewrite E' in Hlt. unfold lenp, lenN in *.
    eapply pow_len_le; [exact L|]. lia.
Qed.

(** ** Two's complement *)
Lemma twos_spec c bs : bytes_ok bs -> 
  bytes_ok (twos_complement c bs) /\ length (twos_complement c bs) = length bs /\
  le_value (twos_complement c bs) =
    if c then (if le_value bs =? 0 then 0 else lenp bs - le_value bs) else lenp bs - 1 - le_value bs.
Proof.
  intros H; revert c; induction H as [|b bs Hb Hbs IH]; intros c.
  - destruct c; repeat split; constructor.
  - unfold byte_ok in Hb. cbn [twos_complement]. pose proof (le_value_lt bs Hbs) as Hlt. pose proof (lenp_pos bs) as Hp.
    destruct c.
    + destruct (N.eqb_spec (255 - b) 255) as [E|E].
      * destruct (IH true) as (B & L & V). split; [constructor; [reflexivity|exact B]|]. split; [cbn [length]; congruence|].
        cbn [le_value]. rewrite V, lenp_cons. assert (b = 0) as -> by lia.
        destruct (N.eqb_spec (le_value bs) 0), (N.eqb_spec (0 + 256 * le_value bs) 0); lia.
      * destruct (IH false) as (B & L & V). split; [constructor; [unfold byte_ok; lia|exact B]|]. split; [cbn [length]; congruence|].
        cbn [le_value]. rewrite V, lenp_cons. destruct (N.eqb_spec (b + 256 * le_value bs) 0); lia.
    + destruct (IH false) as (B & L & V). split; [constructor; [unfold byte_ok; lia|exact B]|]. split; [cbn [length]; congruence|].
      cbn [le_value]. rewrite V, lenp_cons. lia.
Qed.
Lemma last_sign bs : bytes_ok bs -> bs <> [] -> (127 <? last bs 0) = (lenp bs <=? 2 * le_value bs).
Proof.
  intros H. induction H as [|b bs Hb Hbs IH]; [contradiction|]. intros _. unfold byte_ok in Hb. destruct bs as [|b' bs].
  - cbn [last]. unfold lenp. cbn [lenN length]. change (256 ^ lenN [b]) with 256. cbn [le_value].
    destruct (N.ltb_spec 127 b), (N.leb_spec 256 (2 * (b + 256 * 0))); lia.
  - change (last (b :: b' :: bs) 0) with (last (b' :: bs) 0). rewrite IH by discriminate.
    set (l := b' :: bs) in *. cbn [le_value]. rewrite lenp_cons. pose proof (le_value_lt l Hbs).
    assert (Hev : exists k, lenp l = 2 * k).
    { unfold l. rewrite lenp_cons. exists (128 * lenp bs). lia. }
    destruct Hev as [k Hk].
    destruct (N.leb_spec (lenp l) (2 * le_value l)), (N.leb_spec (256 * lenp l) (2 * (b + 256 * le_value l))); lia.
Qed.
Lemma zlenp bs : (256 ^ Z.of_nat (length bs))%Z = Z.of_N (lenp bs).
Proof. unfold lenp, lenN. rewrite N2Z.inj_pow, nat_N_Z. reflexivity. Qed.
Lemma signed_value_alt bs : signed_value bs =
  (if 2 * Z.of_N (le_value bs) <? Z.of_N (lenp bs) then Z.of_N (le_value bs) else Z.of_N (le_value bs) - Z.of_N (lenp bs))%Z.
Proof. unfold signed_value. rewrite zlenp. reflexivity. Qed.
Lemma from_signed_spec bs : bytes_ok bs -> from_signed_bytes_le bs = signed_value bs.
Proof.
  intros H. rewrite signed_value_alt. destruct bs as [|b bs]; [reflexivity|]. unfold from_signed_bytes_le, from_bytes_le.
  set (l := b :: bs) in *. assert (Hne : l <> []) by discriminate. rewrite (last_sign l H Hne).
  pose proof (le_value_lt l H) as Hlt. destruct (twos_spec true l H) as (_ & _ & V).
  change (of_le (twos_complement true l)) with (le_value (twos_complement true l)). change (of_le l) with (le_value l). clearbody l.
  destruct (N.leb_spec (lenp l) (2 * le_value l)), (Z.ltb_spec (2 * Z.of_N (le_value l)) (Z.of_N (lenp l))); try lia.
  rewrite V. destruct (N.eqb_spec (le_value l) 0); [pose proof (lenp_pos l)|]; lia.
Qed.
Lemma signed_value_inj bs bs' : bytes_ok bs -> bytes_ok bs' -> length bs = length bs' -> signed_value bs = signed_value bs' -> bs = bs'.
Proof.
  intros H H' L E. apply le_value_inj; auto. rewrite !signed_value_alt in E.
  assert (P : lenp bs = lenp bs') by (unfold lenp, lenN; rewrite L; reflexivity). rewrite P in E.
  pose proof (le_value_lt bs H). pose proof (le_value_lt bs' H'). rewrite P in *.
  destruct (Z.ltb_spec (2 * Z.of_N (le_value bs)) (Z.of_N (lenp bs'))), (Z.ltb_spec (2 * Z.of_N (le_value bs')) (Z.of_N (lenp bs'))); lia.
Qed.
Lemma signed_value_range bs : bytes_ok bs ->
  (- Z.of_N (lenp bs) <= 2 * signed_value bs < Z.of_N (lenp bs))%Z.
Proof.
  intros H. rewrite signed_value_alt. pose proof (le_value_lt bs H).
  destruct (Z.ltb_spec (2 * Z.of_N (le_value bs)) (Z.of_N (lenp bs))); lia.
Qed.

Lemma last_app_eq {A} (l : list A) d : l <> [] -> l = removelast l ++ [last l d].
Proof. apply app_removelast_last. Qed.
Lemma all_zero_value l : bytes_ok l -> forallb (fun b => b =? 0) l = (le_value l =? 0).
Proof.
  induction 1 as [|b l Hb _ IH]; [reflexivity|]. cbn [forallb le_value]. rewrite IH.
  destruct (N.eqb_spec b 0), (N.eqb_spec (le_value l) 0), (N.eqb_spec (b + 256 * le_value l) 0); try reflexivity; lia.
Qed.
(** The sign extension test: last byte 128, the rest zero, means exactly half the range. *)
Lemma half_test l : bytes_ok l -> l <> [] ->
  (last l 0 =? 128) && forallb (fun b => b =? 0) (removelast l) = (2 * le_value l =? lenp l).
Proof.
  intros H Hne. pose proof (app_removelast_last 0 Hne) as E. set (i := removelast l) in *. set (x := last l 0) in *. clearbody i x. subst l.
  apply Forall_app in H as [Hi Hx]. inversion Hx as [|? ? Hb _]; subst. unfold byte_ok in Hb.
  rewrite (all_zero_value i Hi), le_value_app. cbn [le_value]. pose proof (le_value_lt i Hi). pose proof (lenp_pos i).
  assert (El : lenp (i ++ [x]) = 256 * lenp i).
  { unfold lenp. rewrite lenN_app, N.pow_add_r. change (256 ^ lenN [x]) with 256. lia. }
  rewrite El.
  destruct (N.eqb_spec x 128) as [->|Hx'], (N.eqb_spec (le_value i) 0) as [E0|E0]; cbn [andb]; symmetry; [apply N.eqb_eq; lia| | |]; apply N.eqb_neq; nia.
Qed.
Lemma to_signed_spec z : z <> 0%Z ->
  bytes_ok (to_signed_bytes_le z) /\ signed_value (to_signed_bytes_le z) = z /\
  (Z.of_N (lenp (to_signed_bytes_le z)) <= 512 * z \/ Z.of_N (lenp (to_signed_bytes_le z)) < - 512 * z)%Z.
Proof.
  intros Hz. unfold to_signed_bytes_le. destruct (to_bytes_spec (Z.abs_N z)) as (E & B & L); [lia|].
  set (l := to_bytes_le (Z.abs_N z)) in *.
  assert (Hne : l <> []) by (intros El; rewrite El in E; cbn in E; lia).
  rewrite (last_sign l B Hne), (half_test l B Hne). clearbody l.
  pose proof (le_value_lt l B) as Hlt.
  assert (E0 : lenp (l ++ [0]) = 256 * lenp l) by (unfold lenp; rewrite lenN_app, N.pow_add_r; change (256 ^ lenN [0]) with 256; lia).
  assert (V0 : le_value (l ++ [0]) = le_value l) by (rewrite le_value_app; cbn [le_value]; lia).
  assert (B0 : bytes_ok (l ++ [0])) by (apply Forall_app; split; [exact B|repeat constructor]).
  destruct (N.leb_spec (lenp l) (2 * le_value l)) as [Hs|Hs], (N.eqb_spec (2 * le_value l) (lenp l)) as [Hh|Hh], (Z.ltb_spec z 0) as [Hn|Hn];
    cbn [andb negb]; try lia.
  - (* exactly half, negative *)
    destruct (twos_spec true l B) as (B' & L' & V'). split; [exact B'|].
    assert (El : lenp (twos_complement true l) = lenp l) by (unfold lenp, lenN; rewrite L'; reflexivity).
    rewrite signed_value_alt, V', El. destruct (N.eqb_spec (le_value l) 0); [lia|].
    destruct (Z.ltb_spec (2 * Z.of_N (lenp l - le_value l)) (Z.of_N (lenp l))); lia.
  - (* exactly half, positive *)
    split; [exact B0|]. rewrite signed_value_alt, V0, E0.
    destruct (Z.ltb_spec (2 * Z.of_N (le_value l)) (Z.of_N (256 * lenp l))); lia.
  - destruct (twos_spec true (l ++ [0]) B0) as (B' & L' & V'). split; [exact B'|].
    assert (El : lenp (twos_complement true (l ++ [0])) = 256 * lenp l) by (rewrite <- E0; unfold lenp, lenN; rewrite L'; reflexivity).
    rewrite signed_value_alt, V', V0, El, E0. destruct (N.eqb_spec (le_value l) 0); [lia|].
    destruct (Z.ltb_spec (2 * Z.of_N (256 * lenp l - le_value l)) (Z.of_N (256 * lenp l))); lia.
  - split; [exact B0|]. rewrite signed_value_alt, V0, E0.
    destruct (Z.ltb_spec (2 * Z.of_N (le_value l)) (Z.of_N (256 * lenp l))); lia.
  - destruct (twos_spec true l B) as (B' & L' & V'). split; [exact B'|].
    assert (El : lenp (twos_complement true l) = lenp l) by (unfold lenp, lenN; rewrite L'; reflexivity).
    rewrite signed_value_alt, V', El. destruct (N.eqb_spec (le_value l) 0); [lia|].
    destruct (Z.ltb_spec (2 * Z.of_N (lenp l - le_value l)) (Z.of_N (lenp l))); lia.
  - split; [exact B|]. rewrite signed_value_alt.
    destruct (Z.ltb_spec (2 * Z.of_N (le_value l)) (Z.of_N (lenp l))); lia.
Qed.
Lemma to_signed_shortest z : z <> 0%Z -> shortest signed_value z (to_signed_bytes_le z).
Proof.
  intros Hz. destruct (to_signed_spec z Hz) as (B & V & L). split; [exact B|]. split; [exact V|]. intros bs' B' V'.
  pose proof (signed_value_range bs' B') as R. rewrite V' in R. unfold lenp, lenN in *.
  apply (pow_len_le _ _ (256 ^ N.of_nat (length (to_signed_bytes_le z)))); lia.
Qed.
Lemma bigint_from_shortest z : shortest signed_value z (bigint_from z).
Proof.
  unfold bigint_from. destruct (Z.eqb_spec z 0) as [->|H]; [|apply to_signed_shortest, H].
  repeat split; [constructor|]. intros; cbn; lia.
Qed.
Lemma shortest_unique {A} (value : list N -> A) x bs bs' :
  (forall a b, bytes_ok a -> bytes_ok b -> length a = length b -> value a = value b -> a = b) ->
  shortest value x bs -> shortest value x bs' -> bs = bs'.
Proof.
  intros Hinj (B & V & L) (B' & V' & L'). apply Hinj; auto; [|congruence]. pose proof (L bs' B' V'). pose proof (L' bs B V). lia.
Qed.
Lemma biguint_unique n bs : shortest le_value n bs -> bs = biguint_from n.
Proof. intros H; eapply shortest_unique; [|exact H|apply biguint_from_shortest]. intros a b Ha Hb. apply le_value_inj; assumption. Qed.
Lemma bigint_unique z bs : shortest signed_value z bs -> bs = bigint_from z.
Proof. intros H; eapply shortest_unique; [|exact H|apply bigint_from_shortest]. intros a b Ha Hb. apply signed_value_inj; assumption. Qed.

(** ** Through the wire *)
Lemma big_roundtrip c bs rest : wf_cfg c -> lenN bs < 2 ^ usize_bits c ->
  wresult (ser (big_sval bs)) = WeOk /\ run c (de_big c) (wbytes (ser (big_sval bs)) ++ rest) = OOk bs rest.
Proof.
  intros Hw Hl. destruct (big_ser bs) as [H1 H2]. split; [exact H1|]. rewrite H2. apply (parses_vec_u8 c bs Hw Hl).
Qed.
Lemma ser_fmt_biguint n : ser (fmt_biguint_sval n) = ser (big_sval (biguint_from n)).
Proof. unfold fmt_biguint_sval, biguint_from. destruct (n =? 0); reflexivity. Qed.
Lemma ser_fmt_bigint z : ser (fmt_bigint_sval z) = ser (big_sval (bigint_from z)).
Proof. unfold fmt_bigint_sval, bigint_from. destruct (z =? 0)%Z; reflexivity. Qed.
Lemma to_signed_nonempty z : z <> 0%Z -> to_signed_bytes_le z <> [].
Proof. intros H E. destruct (to_signed_spec z H) as (_ & V & _). rewrite E in V. cbn in V. lia. Qed.

(** ** Decimals *)
Lemma pow10_pos k : (0 <= k)%Z -> (0 < 10 ^ k)%Z.
Proof. intros; apply Z.pow_pos_nonneg; lia. Qed.
Lemma strip_spec f : forall d, d <> 0%Z -> (Z.abs d < 2 ^ Z.of_nat f)%Z ->
  let '(d', k) := strip_zeros f d in (0 <= k)%Z /\ d = (d' * 10 ^ k)%Z /\ (d' mod 10 <> 0)%Z.
Proof.
  induction f as [|f IH]; intros d Hd Hf.
  - change (2 ^ Z.of_nat 0)%Z with 1%Z in Hf. lia.
  - cbn [strip_zeros]. destruct (Z.eqb_spec d 0) as [|_]; [contradiction|]. destruct (Z.eqb_spec (d mod 10) 0) as [E|E].
    + pose proof (Z.div_mod d 10 ltac:(lia)) as D. rewrite E in D.
      specialize (IH (d / 10)%Z). destruct (strip_zeros f (d / 10)) as [d' k]. destruct IH as (K & E' & M).
      * lia.
      * rewrite Nat2Z.inj_succ, Z.pow_succ_r in Hf by lia. lia.
      * split; [lia|]. split; [|exact M]. rewrite Z.pow_add_r by lia. change (10 ^ 1)%Z with 10%Z. lia.
    + split; [lia|]. split; [change (10 ^ 0)%Z with 1%Z; lia|exact E].
Qed.
Lemma size_zpow d : (Z.abs d < 2 ^ Z.of_nat (N.to_nat (N.size (Z.abs_N d))))%Z.
Proof. rewrite N_nat_Z. pose proof (N.size_gt (Z.abs_N d)) as H. apply N2Z.inj_lt in H. rewrite N2Z.inj_pow in H. rewrite N2Z.inj_abs_N in H. exact H. Qed.

Lemma normalized_spec c d s : d <> 0%Z -> exists d' k, (0 <= k)%Z /\ d = (d' * 10 ^ k)%Z /\ (d' mod 10 <> 0)%Z /\
  normalized c (d, s) = match arith_s c 64 (s - k) with Some s' => Some (d', s') | None => None end.
Proof.
  intros Hd. unfold normalized. destruct (Z.eqb_spec d 0); [contradiction|].
  pose proof (strip_spec _ d Hd (size_zpow d)) as H. destruct (strip_zeros _ d) as [d' k]. exists d', k. tauto.
Qed.
Lemma ten_nz : ~ ((10 # 1) == 0)%Q.
Proof. discriminate. Qed.
Lemma dec_eq d1 s1 d2 s2 : (s1 <= s2)%Z ->
  (dec_value (d1, s1) == dec_value (d2, s2))%Q <-> (d1 * 10 ^ (s2 - s1) = d2)%Z.
Proof.
  intros H. unfold dec_value. cbn [fst snd].
  assert (E : (Qpower (10 # 1) (- s1) == inject_Z (10 ^ (s2 - s1)) * Qpower (10 # 1) (- s2))%Q).
  { rewrite Zpower_Qpower by lia. change (inject_Z 10) with (10 # 1). rewrite <- Qpower_plus by exact ten_nz.
    replace (s2 - s1 + - s2)%Z with (- s1)%Z by lia. reflexivity. }
  rewrite E, Qmult_assoc, <- inject_Z_mult, Qmult_inj_r by (apply Qpower_not_0, ten_nz).
  unfold Qeq, inject_Z. cbn [Qnum Qden]. rewrite !Z.mul_1_r. reflexivity.
Qed.
Lemma dec_value_zero d s : (dec_value (d, s) == 0)%Q <-> d = 0%Z.
Proof.
  unfold dec_value; cbn [fst snd]. split.
  - intros H. apply Qmult_integral in H as [H|H]; [unfold Qeq, inject_Z in H; cbn in H; lia|destruct (Qpower_not_0 _ _ ten_nz H)].
  - intros ->. change (inject_Z 0) with 0%Q. apply Qmult_0_l.
Qed.
Lemma dec_canonical d1 s1 d2 s2 : (d1 mod 10 <> 0)%Z -> (d2 mod 10 <> 0)%Z ->
  (dec_value (d1, s1) == dec_value (d2, s2))%Q -> d1 = d2 /\ s1 = s2.
Proof.
  assert (Hgen : forall d1 s1 d2 s2, (s1 <= s2)%Z -> (d2 mod 10 <> 0)%Z -> (dec_value (d1, s1) == dec_value (d2, s2))%Q -> d1 = d2 /\ s1 = s2).
  { clear. intros d1 s1 d2 s2 Hs H2 E. apply dec_eq in E; [|exact Hs]. destruct (Z.eq_dec s1 s2) as [->|Hne].
    - rewrite Z.sub_diag in E. change (10 ^ 0)%Z with 1%Z in E. lia.
    - destruct H2. rewrite <- E. replace (s2 - s1)%Z with (s2 - s1 - 1 + 1)%Z by lia. rewrite Z.pow_add_r by lia. change (10 ^ 1)%Z with 10%Z.
      rewrite Z.mul_assoc. apply Z.mod_mul. lia. }
  intros H1 H2 E. destruct (Z.le_ge_cases s1 s2) as [Hs|Hs]; [eapply Hgen; eassumption|].
  symmetry in E. destruct (Hgen d2 s2 d1 s1 Hs H1 E); auto.
Qed.
(** What conversion does under room for the scale. *)
Lemma bigdecimal_from_spec c d s : scale_room (d, s) -> d <> 0%Z -> exists d' s',
  bigdecimal_from c (d, s) = Some (to_signed_bytes_le d', s') /\ (d' mod 10 <> 0)%Z /\ in_s 64 s' = true /\
  (dec_value (d', s') == dec_value (d, s))%Q.
Proof.
  intros (R1 & R2 & R3) Hd. cbn [fst snd] in *. destruct (normalized_spec c d s Hd) as (d' & k & Hk & E & M & Hn).
  assert (Hin : in_s 64 (s - k) = true).
  { specialize (R3 k Hk Hd ltac:(exists d'; exact E)). unfold in_s. change (2 ^ (Z.of_N 64 - 1))%Z with (2 ^ 63)%Z. lia. }
  exists d', (s - k)%Z. unfold bigdecimal_from. cbn [fst]. destruct (Z.eqb_spec d 0); [contradiction|]. rewrite Hn. unfold arith_s. rewrite Hin.
  split; [reflexivity|]. split; [exact M|]. split; [reflexivity|]. apply dec_eq; [lia|]. replace (s - (s - k))%Z with k by lia. symmetry; exact E.
Qed.
Lemma mod10_nz d : (d mod 10 <> 0)%Z -> d <> 0%Z.
Proof. intros H ->. apply H. reflexivity. Qed.
Lemma big_decimal_roundtrip c bs s rest : wf_cfg c -> lenN bs < 2 ^ usize_bits c -> in_s 64 s = true -> (bs = [] -> s = 0%Z) ->
  wresult (ser (big_decimal_sval bs s)) = WeOk /\
  run c (de_big_decimal c) (wbytes (ser (big_decimal_sval bs s)) ++ rest) = OOk (bs, s) rest.
Proof.
  intros Hw Hl Hs H0. destruct bs as [|b bs].
  - rewrite (H0 eq_refl). split; [reflexivity|]. unfold de_big_decimal. rewrite run_bind.
    change (wbytes (ser (big_decimal_sval [] 0))) with (enc_u64 (lenN (@nil N)) ++ []). rewrite (proj1 (parses_vec_u8 c [] Hw Hl)). reflexivity.
  - destruct (big_decimal_ser b bs s) as [H1 H2]. split; [exact H1|]. rewrite H2, <- app_assoc. unfold de_big_decimal. rewrite run_bind.
    rewrite (proj1 (parses_vec_u8 c (b :: bs) Hw Hl)). cbn [obind]. rewrite run_bind, (proj1 (parses_de_i64 c s Hs)). reflexivity.
Qed.
Lemma ser_fmt_bigdecimal c v : match bigdecimal_from c v with
  | Some w => ser (fmt_bigdecimal_sval c v) = ser (big_decimal_sval (fst w) (snd w))
  | None => ser (fmt_bigdecimal_sval c v) = WPanic POverflow
  end.
Proof.
  destruct v as [d s]. unfold bigdecimal_from, fmt_bigdecimal_sval. cbn [fst]. destruct (Z.eqb_spec d 0) as [->|Hd]; [reflexivity|].
  destruct (normalized_spec c d s Hd) as (d' & k & Hk & E & M & Hn). rewrite Hn. destruct (arith_s c 64 (s - k)) as [s'|]; [|reflexivity].
  cbn [fst snd]. pose proof (to_signed_nonempty d' (mod10_nz d' M)) as Hne. destruct (to_signed_bytes_le d'); [contradiction|reflexivity].
Qed.
(** Reading: the format module against the wrapper. *)
Definition into_dec (o : outcome (list N * Z)) : outcome (Z * Z) :=
  match o with OOk w r => OOk (bigdecimal_into w) r | OErr e => OErr e | OPanic p => OPanic p end.
Lemma fmt_de_bigdecimal_iff c s : bytes_ok s ->
  (run c (fmt_de_bigdecimal c) s = into_dec (run c (de_big_decimal c) s) <->
   forall bs r, run c (de_vec c de_u8) s = OOk bs r -> bs = [] \/ signed_value bs <> 0%Z).
Proof.
  intros Hs. unfold fmt_de_bigdecimal, de_big_decimal. rewrite !run_bind.
  destruct (run c (de_vec c de_u8) s) as [bs r|e|p] eqn:E; cbn [obind into_dec]; [|split; [discriminate|reflexivity]|split; [discriminate|reflexivity]].
  pose proof (run_rest _ _ _ _ _ Hs E) as Hr.
  assert (Hb : bytes_ok bs).
  { destruct (yields_vec c de_u8 byte_ok (yields_byte c) s bs r Hs E) as [_ H]. exact H. }
  rewrite (from_signed_spec bs Hb). destruct bs as [|b bs].
  - cbn [signed_value]. change (signed_value []) with 0%Z. cbn [Z.eqb run into_dec bigdecimal_into fst snd]. split; [|intros _; reflexivity].
    intros _ bs' r' H; injection H as <- <-; auto.
  - destruct (Z.eqb_spec (signed_value (b :: bs)) 0) as [Ez|Ez].
    + split.
      * intros H. exfalso. cbn [run] in H. rewrite run_bind in H. destruct (run c de_i64 r) as [z r'|e|p] eqn:E2; cbn [obind run into_dec] in H; try discriminate.
        injection H as _ _ Hrr. destruct (consumes_i64 c r z r' Hr E2) as (n & En & [_ Hn]). subst r'.
        lia.
      * intros H. destruct (H _ _ eq_refl) as [|]; [discriminate|contradiction].
    + split; [|intros _].
      * intros _ bs' r' H; injection H as <- <-; auto.
      * rewrite !run_bind. destruct (run c de_i64 r) as [z r'|e|p]; cbn [obind run into_dec]; try reflexivity.
        unfold bigdecimal_into. cbn [fst snd]. rewrite (from_signed_spec _ Hb). reflexivity.
Qed.
Lemma dec_wrap s1 s2 : (s1 < s2)%Z -> ~ (dec_value (bigdecimal_into ([1%N], s2)) == dec_value (10%Z, s1))%Q.
Proof.
  intros Hs H. change (bigdecimal_into ([1%N], s2)) with (1%Z, s2) in H. symmetry in H. apply dec_eq in H; [|lia].
  pose proof (Z.pow_pos_nonneg 10 (s2 - s1) ltac:(lia) ltac:(lia)). generalize dependent (10 ^ (s2 - s1))%Z. lia.
Qed.
