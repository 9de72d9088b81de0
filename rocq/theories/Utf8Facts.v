(** * Proofs about Utf8.v. *)
From Verif Require Import Base BaseFacts Varint VarintFacts Utf8 SpecUtf8.


Lemma is_scalar_iff c : is_scalar c = true <-> scalar c.
Proof. unfold is_scalar, scalar; lia. Qed.

(** ** Encoding one character *)
Lemma lor_add x y n : x < 2 ^ n -> y mod 2 ^ n = 0 -> N.lor x y = y + x.
Proof. intros; rewrite lor_const with (n := n) by assumption; lia. Qed.
Lemma land_mod x n m : m = N.ones n -> N.land x m = x mod 2 ^ n.
Proof. intros ->; apply N.land_ones. Qed.

Lemma cont_byte x : N.lor (as_u8 (N.land x 63)) 128 = 128 + x mod 64.
Proof.
  rewrite (land_mod x 6 63) by reflexivity. change (2 ^ 6) with 64.
  assert (H : x mod 64 < 64) by (apply N.mod_lt; lia).
  unfold as_u8; rewrite N.mod_small by lia.
  apply (lor_add _ _ 6); [exact H|reflexivity].
Qed.
Lemma lead_byte x n m k : m = N.ones n -> x < 2 ^ n -> n <= 6 -> k mod 2 ^ n = 0 ->
  N.lor (as_u8 (N.land x m)) k = k + x.
Proof.
  intros Hm Hx Hn Hk. rewrite (land_mod x n m Hm). rewrite (N.mod_small x) by exact Hx.
  assert (2 ^ n <= 2 ^ 6) by (apply N.pow_le_mono_r; lia). change (2 ^ 6) with 64 in *.
  unfold as_u8; rewrite N.mod_small by lia. apply (lor_add _ _ n); assumption.
Qed.

Lemma char_utf8_spec c : c < 1114112 -> char_utf8 c = utf8 c.
Proof.
  intros Hc; unfold char_utf8, utf8.
  destruct (N.ltb_spec c 128); [unfold as_u8; rewrite N.mod_small by lia; reflexivity|].
  destruct (N.ltb_spec c 2048).
  { rewrite cont_byte, !shr_div. rewrite (lead_byte _ 5); [reflexivity|reflexivity| |lia|reflexivity].
    apply N.div_lt_upper_bound; pow_eval; lia. }
  destruct (N.ltb_spec c 65536).
  { rewrite !cont_byte, !shr_div. rewrite (lead_byte _ 4); [reflexivity|reflexivity| |lia|reflexivity].
    apply N.div_lt_upper_bound; pow_eval; lia. }
  rewrite !cont_byte, !shr_div. rewrite (lead_byte _ 3); [reflexivity|reflexivity| |lia|reflexivity].
  apply N.div_lt_upper_bound; pow_eval; lia.
Qed.

(** ** Validation *)
Section Arith.
Local Ltac Zify.zify_post_hook ::= Z.div_mod_to_equations.

Lemma utf8_bytes c : scalar c -> bytes_ok (utf8 c).
Proof.
  unfold scalar, utf8; intros H.
  destruct (N.ltb_spec c 128); [repeat constructor; unfold byte_ok; lia|].
  destruct (N.ltb_spec c 2048); [repeat constructor; unfold byte_ok; lia|].
  destruct (N.ltb_spec c 65536); repeat constructor; unfold byte_ok; lia.
Qed.

Lemma valid_cons c t : scalar c -> utf8_valid (utf8 c ++ t) = utf8_valid t.
Proof.
  unfold scalar, utf8; intros H.
  destruct (N.ltb_spec c 128) as [H1|H1].
  { cbn [app utf8_valid]. unfold utf8_width. destruct (N.ltb_spec c 128); [reflexivity|lia]. }
  destruct (N.ltb_spec c 2048) as [H2|H2].
  { cbn [app utf8_valid].
    assert (W : utf8_width (192 + c / 64) = 2).
    { unfold utf8_width.
      destruct (N.ltb_spec (192 + c / 64) 128); [lia|].
      destruct (N.ltb_spec (192 + c / 64) 194); [lia|].
      destruct (N.ltb_spec (192 + c / 64) 224); [reflexivity|lia]. }
    rewrite W. change (2 =? 1) with false; change (2 =? 2) with true; cbv iota.
    replace (is_cont (128 + c mod 64)) with true by (unfold is_cont; lia). reflexivity. }
  destruct (N.ltb_spec c 65536) as [H3|H3].
  { cbn [app utf8_valid].
    assert (W : utf8_width (224 + c / 4096) = 3).
    { unfold utf8_width.
      destruct (N.ltb_spec (224 + c / 4096) 128); [lia|].
      destruct (N.ltb_spec (224 + c / 4096) 194); [lia|].
      destruct (N.ltb_spec (224 + c / 4096) 224); [lia|].
      destruct (N.ltb_spec (224 + c / 4096) 240); [reflexivity|lia]. }
    rewrite W. change (3 =? 1) with false; change (3 =? 2) with false; change (3 =? 3) with true; cbv iota.
    replace (is_cont (128 + c mod 64)) with true by (unfold is_cont; lia).
    replace (ok3 (224 + c / 4096) (128 + c / 64 mod 64)) with true; [reflexivity|].
    unfold ok3; lia. }
  cbn [app utf8_valid].
  assert (W : utf8_width (240 + c / 262144) = 4).
  { unfold utf8_width.
    destruct (N.ltb_spec (240 + c / 262144) 128); [lia|].
    destruct (N.ltb_spec (240 + c / 262144) 194); [lia|].
    destruct (N.ltb_spec (240 + c / 262144) 224); [lia|].
    destruct (N.ltb_spec (240 + c / 262144) 240); [lia|].
    destruct (N.ltb_spec (240 + c / 262144) 245); [reflexivity|lia]. }
  rewrite W. change (4 =? 1) with false; change (4 =? 2) with false; change (4 =? 3) with false;
    change (4 =? 4) with true; cbv iota.
  replace (is_cont (128 + c mod 64)) with true by (unfold is_cont; lia).
  replace (is_cont (128 + c / 64 mod 64)) with true by (unfold is_cont; lia).
  replace (ok4 (240 + c / 262144) (128 + c / 4096 mod 64)) with true; [reflexivity|].
  unfold ok4; lia.
Qed.

(** A valid nonempty string starts with the encoding of a scalar value. *)
Lemma valid_inv b t : utf8_valid (b :: t) = true ->
  exists c t', scalar c /\ b :: t = utf8 c ++ t' /\ utf8_valid t' = true.
Proof.
  cbn [utf8_valid]. unfold utf8_width.
  destruct (N.ltb_spec b 128) as [H1|H1].
  { change (1 =? 1) with true; cbv iota. intros H; exists b, t.
    repeat split; [left; lia| |exact H]. unfold utf8. destruct (N.ltb_spec b 128); [reflexivity|lia]. }
  destruct (N.ltb_spec b 194) as [H2|H2]; [discriminate|].
  destruct (N.ltb_spec b 224) as [H3|H3].
  { change (2 =? 1) with false; change (2 =? 2) with true; cbv iota.
    destruct t as [|b1 t]; [discriminate|]. intros H; apply andb_prop in H as [Hc H].
    unfold is_cont in Hc. exists ((b - 192) * 64 + (b1 - 128)), t.
    repeat split; [left; lia| |exact H].
    unfold utf8. destruct (N.ltb_spec ((b - 192) * 64 + (b1 - 128)) 128); [lia|].
    destruct (N.ltb_spec ((b - 192) * 64 + (b1 - 128)) 2048); [|lia].
    cbn [app]; repeat f_equal; lia. }
  destruct (N.ltb_spec b 240) as [H4|H4].
  { change (3 =? 1) with false; change (3 =? 2) with false; change (3 =? 3) with true; cbv iota.
    destruct t as [|b1 [|b2 t]]; [discriminate|discriminate|].
    intros H; apply andb_prop in H as [Hc H]; apply andb_prop in Hc as [Ho Hc].
    unfold is_cont in Hc; unfold ok3 in Ho.
    assert (Hb1 : 128 <= b1 <= 191 /\ (b = 224 -> 160 <= b1) /\ (b = 237 -> b1 <= 159)) by lia.
    clear Ho. exists ((b - 224) * 4096 + (b1 - 128) * 64 + (b2 - 128)), t.
    repeat split; [unfold scalar; lia| |exact H].
    set (c := (b - 224) * 4096 + (b1 - 128) * 64 + (b2 - 128)).
    assert (Ec : c = (b - 224) * 4096 + (b1 - 128) * 64 + (b2 - 128)) by reflexivity. clearbody c.
    assert (E1 : c / 4096 = b - 224) by lia.
    assert (E2 : c / 64 = (b - 224) * 64 + (b1 - 128)) by lia.
    assert (E3 : c mod 64 = b2 - 128) by lia.
    unfold utf8. destruct (N.ltb_spec c 128); [lia|].
    destruct (N.ltb_spec c 2048); [lia|].
    destruct (N.ltb_spec c 65536); [|lia].
    rewrite E1, E2, E3. clear E1 E2 E3 Ec. cbn [app]; repeat f_equal; lia. }
  destruct (N.ltb_spec b 245) as [H5|H5]; [|discriminate].
  change (4 =? 1) with false; change (4 =? 2) with false; change (4 =? 3) with false;
    change (4 =? 4) with true; cbv iota.
  destruct t as [|b1 [|b2 [|b3 t]]]; [discriminate|discriminate|discriminate|].
  intros H; apply andb_prop in H as [Hc H]; apply andb_prop in Hc as [Hc Hc3];
    apply andb_prop in Hc as [Ho Hc2].
  unfold is_cont in Hc3, Hc2; unfold ok4 in Ho.
  assert (Hb1 : 128 <= b1 <= 191 /\ (b = 240 -> 144 <= b1) /\ (b = 244 -> b1 <= 143)) by lia.
  clear Ho. exists ((b - 240) * 262144 + (b1 - 128) * 4096 + (b2 - 128) * 64 + (b3 - 128)), t.
  repeat split; [unfold scalar; lia| |exact H].
  set (c := (b - 240) * 262144 + (b1 - 128) * 4096 + (b2 - 128) * 64 + (b3 - 128)).
  assert (Ec : c = (b - 240) * 262144 + (b1 - 128) * 4096 + (b2 - 128) * 64 + (b3 - 128)) by reflexivity.
  clearbody c.
  assert (E1 : c / 262144 = b - 240) by lia.
  assert (E2 : c / 4096 = (b - 240) * 64 + (b1 - 128)) by lia.
  assert (E3 : c / 64 = ((b - 240) * 64 + (b1 - 128)) * 64 + (b2 - 128)) by lia.
  assert (E4 : c mod 64 = b3 - 128) by lia.
  unfold utf8. destruct (N.ltb_spec c 128); [lia|].
  destruct (N.ltb_spec c 2048); [lia|].
  destruct (N.ltb_spec c 65536); [lia|].
  rewrite E1, E2, E3, E4. clear E1 E2 E3 E4 Ec. cbn [app]; repeat f_equal; lia.
Qed.
End Arith.

Lemma utf8_nonempty c : utf8 c <> [].
Proof.
  unfold utf8; destruct (c <? 128), (c <? 2048), (c <? 65536); discriminate.
Qed.

Lemma utf8_valid_iff bs : utf8_valid bs = true <-> wellformed bs.
Proof.
  split.
  - remember (length bs) as n eqn:En. revert bs En.
    induction n as [n IH] using lt_wf_ind; intros bs -> H.
    destruct bs as [|b t]; [exists []; split; [constructor|reflexivity]|].
    apply valid_inv in H as (c & t' & Hc & E & H).
    destruct (IH (length t')) with (bs := t') as (cs & Hcs & ->); [|reflexivity|exact H|].
    + rewrite E, app_length. pose proof (utf8_nonempty c). destruct (utf8 c); [congruence|]. cbn [length]; lia.
    + exists (c :: cs); split; [constructor; assumption|]. rewrite E; reflexivity.
  - intros (cs & Hcs & ->). induction Hcs as [|c cs Hc Hcs IH]; [reflexivity|].
    cbn [map concat]. rewrite valid_cons by exact Hc. exact IH.
Qed.

Lemma wellformed_bytes bs : wellformed bs -> bytes_ok bs.
Proof.
  intros (cs & Hcs & ->). induction Hcs as [|c cs Hc Hcs IH]; [constructor|].
  cbn [map concat]. apply Forall_app; split; [apply utf8_bytes; exact Hc|exact IH].
Qed.
Lemma utf8_valid_bytes bs : utf8_valid bs = true -> bytes_ok bs.
Proof. intros H; apply wellformed_bytes, utf8_valid_iff, H. Qed.

(** ** Decoding the first character *)
Lemma acc_cont_spec ch b : acc_cont ch (128 + b) = ch * 64 + b mod 64.
Proof.
  unfold acc_cont. rewrite (land_mod _ 6 63) by reflexivity.
  change (2 ^ 6) with 64. replace ((128 + b) mod 64) with (b mod 64).
  - rewrite N.lor_comm, N.shiftl_mul_pow2, lor_add_low by (apply N.mod_lt; pow_eval; lia).
    change (2 ^ 6) with 64. lia.
  - rewrite <- N.add_mod_idemp_l by lia. reflexivity.
Qed.
Lemma land_cont b : N.land (128 + b) 63 = b mod 64.
Proof.
  rewrite (land_mod _ 6 63) by reflexivity. change (2 ^ 6) with 64.
  rewrite <- N.add_mod_idemp_l by lia. reflexivity.
Qed.

Section Arith2.
Local Ltac Zify.zify_post_hook ::= Z.div_mod_to_equations.
Lemma next_char_utf8 c t : scalar c -> next_char (utf8 c ++ t) = Some c.
Proof.
  intros H; assert (Hc : c < 1114112) by (unfold scalar in H; lia). clear H. unfold utf8.
  destruct (N.ltb_spec c 128) as [H1|H1].
  { cbn [app next_char]. destruct (N.ltb_spec c 128); [reflexivity|lia]. }
  destruct (N.ltb_spec c 2048) as [H2|H2].
  { cbn [app next_char at_ nth].
    assert (Hq : c / 64 < 32) by lia.
    assert (E : c = c / 64 * 64 + c mod 64) by lia.
    destruct (N.ltb_spec (192 + c / 64) 128); [lia|].
    destruct (N.ltb_spec (192 + c / 64) 224); [|lia].
    rewrite (land_mod _ 5 31) by reflexivity. change (2 ^ 5) with 32.
    rewrite acc_cont_spec. f_equal.
    replace ((192 + c / 64) mod 32) with (c / 64) by lia.
    rewrite N.mod_mod by lia. lia. }
  destruct (N.ltb_spec c 65536) as [H3|H3].
  { cbn [app next_char at_ nth].
    assert (Hq : c / 4096 < 16) by lia.
    destruct (N.ltb_spec (224 + c / 4096) 128); [lia|].
    destruct (N.ltb_spec (224 + c / 4096) 224); [lia|].
    destruct (N.ltb_spec (224 + c / 4096) 240); [|lia].
    rewrite (land_mod _ 5 31) by reflexivity. change (2 ^ 5) with 32.
    rewrite land_cont, acc_cont_spec. f_equal.
    replace ((224 + c / 4096) mod 32) with (c / 4096) by lia.
    rewrite !N.mod_mod by lia.
    rewrite N.lor_comm, N.shiftl_mul_pow2, lor_add_low by (change (2 ^ 12) with 4096; lia).
    change (2 ^ 12) with 4096. lia. }
  cbn [app next_char at_ nth].
  assert (Hq : c / 262144 < 5) by lia.
  destruct (N.ltb_spec (240 + c / 262144) 128); [lia|].
  destruct (N.ltb_spec (240 + c / 262144) 224); [lia|].
  destruct (N.ltb_spec (240 + c / 262144) 240); [lia|].
  rewrite (land_mod _ 5 31) by reflexivity. change (2 ^ 5) with 32.
  rewrite land_cont, !acc_cont_spec. f_equal.
  replace ((240 + c / 262144) mod 32) with (16 + c / 262144) by lia.
  rewrite !N.mod_mod by lia.
  rewrite (land_mod _ 3 7) by reflexivity. change (2 ^ 3) with 8.
  replace ((16 + c / 262144) mod 8) with (c / 262144) by lia.
  rewrite N.lor_comm, N.shiftl_mul_pow2, lor_add_low by (change (2 ^ 18) with 262144; lia).
  change (2 ^ 18) with 262144. lia.
Qed.
End Arith2.

Lemma next_char_nil_iff s : utf8_valid s = true -> next_char s = None <-> s = [].
Proof.
  intros H; destruct s as [|b t]; [split; reflexivity|].
  apply valid_inv in H as (c & t' & Hc & E & _). rewrite E, next_char_utf8 by exact Hc.
  split; [discriminate|]. pose proof (utf8_nonempty c). destruct (utf8 c); [congruence|discriminate].
Qed.
