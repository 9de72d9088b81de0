(** * Proofs about VarintBuf.v. *)
From Verif Require Import Base BaseFacts Varint VarintFacts SpecVarint VarintBuf.
Local Open Scope N_scope.

(** The buffer after the call: the encoding, then what was there before. *)
Definition filled (enc : list N) (buf : list N) : option (list N * nat) :=
  Some (enc ++ skipn (length enc) buf, length enc).

Ltac split_buf H := repeat match type of H with
  | length ?b = S _ => destruct b as [|? b]; [discriminate H|cbn [length] in H; apply Nat.succ_inj in H]
  | length ?b = O => destruct b; [|discriminate H] end.
Lemma put_u8_enc v buf : length buf = 2%nat -> put_u8 v buf = filled (enc_u8 v) buf.
Proof. intros H. split_buf H. unfold put_u8, enc_u8, arm. destruct (v <? 128); reflexivity. Qed.
Lemma put_u16_enc v buf : length buf = 3%nat -> put_u16 v buf = filled (enc_u16 v) buf.
Proof.
  intros H. split_buf H. unfold put_u16, enc_u16. cbv zeta.
  destruct (_ <=? 1); [reflexivity|]. destruct (_ <=? 8); reflexivity.
Qed.
Lemma put_u32_enc v buf : length buf = 5%nat -> put_u32 v buf = filled (enc_u32 v) buf.
Proof.
  intros H. split_buf H. unfold put_u32, enc_u32. cbv zeta.
  destruct (_ <=? 3); [reflexivity|]. destruct (_ <=? 10); [reflexivity|]. destruct (_ <=? 17); [reflexivity|].
  destruct (_ <=? 24); reflexivity.
Qed.
Lemma put_u64_enc v buf : length buf = 9%nat -> put_u64 v buf = filled (enc_u64 v) buf.
Proof.
  intros H. split_buf H. unfold put_u64, enc_u64. cbv zeta.
  destruct (_ <=? 7); [reflexivity|]. destruct (_ <=? 14); [reflexivity|]. destruct (_ <=? 21); [reflexivity|].
  destruct (_ <=? 28); [reflexivity|]. destruct (_ <=? 35); [reflexivity|]. destruct (_ <=? 42); [reflexivity|].
  destruct (_ <=? 49); [reflexivity|]. destruct (_ <=? 56); reflexivity.
Qed.

Lemma enc_u8_spec v : v < 2 ^ 8 -> enc_u8 v = varint_bytes 1 v.
Proof.
  intros H. unfold enc_u8, varint_bytes. change (2 ^ (7 * N.of_nat 1)) with 128. destruct (N.ltb_spec v 128) as [L|L].
  - unfold varint_class. change (2 ^ (7 * (N.of_nat 0 + 1))) with 128. destruct (N.ltb_spec v 128); [|lia].
    unfold class_bytes. cbn [le_digits map seq]. change (2 ^ (7 - N.of_nat 0)) with 128. rewrite N.mod_small by exact L. reflexivity.
  - unfold le_digits. cbn [map seq]. change (256 ^ N.of_nat 0) with 1. rewrite N.div_1_r, N.mod_small by exact H. reflexivity.
Qed.
Lemma put_vec_spec n (put : N -> list N -> option (list N * nat)) v bytes : (forall buf, length buf = n -> put v buf = filled bytes buf) ->
  (length bytes <= n)%nat -> put_vec n (put v) = Some bytes.
Proof.
  intros H L. unfold put_vec. rewrite (H (repeat 0 n) (repeat_length 0 n)). unfold filled.
  rewrite app_length. destruct (Nat.leb_spec (length bytes) (length bytes + length (skipn (length bytes) (repeat 0 n)))); [|lia].
  f_equal. rewrite firstn_app, firstn_all, Nat.sub_diag. cbn [firstn]. apply app_nil_r.
Qed.

(** ** The varint decoder for u8 *)
Lemma read_one {A} c e (k : list N -> prog A) p t : run c (ReadExact 1 e k) (p :: t) = run c (k [p]) t.
Proof. cbn [run]. destruct (N.ltb_spec (lenN (p :: t)) 1) as [L|L]; [rewrite lenN_cons in L; lia|].
  unfold takeN, dropN. rewrite lenN_cons. destruct t as [|q t]; [reflexivity|]. rewrite lenN_cons.
  destruct (N.leb_spec (lenN t + 1 + 1) 1); [lia|]. reflexivity.
Qed.
Lemma dec_u8_run c e s : bytes_ok s -> run c (dec_u8 e) s =
  match s with
  | [] => OErr e
  | p :: t => let k := varint_extra 1 p in
    if (length t <? k)%nat then OErr e else OOk (varint_value 1 p (firstn k t)) (skipn k t)
  end.
Proof.
  intros H. destruct s as [|p t]; [reflexivity|]. inversion H as [|? ? Hp Ht]; subst. red in Hp.
  unfold dec_u8, dec_prefix. cbn [bind]. rewrite read_one. cbn [at_ nth bind run].
  unfold varint_value, varint_extra, leading_ones. cbn [ones]. rewrite N.leb_antisym.
  destruct (N.ltb_spec p 128) as [L|L]; cbn [negb].
  - cbn. change (2 ^ (7 - 0)) with 128. rewrite N.mod_small by exact L. rewrite N.add_0_r. reflexivity.
  - destruct t as [|q t].
    + reflexivity.
    + rewrite read_one. cbn [run at_ nth Nat.min]. rewrite Nat.min_0_r. cbn. f_equal. lia.
Qed.
Lemma u8_reencode p t : bytes_ok (p :: t) -> let k := varint_extra 1 p in (k <= length t)%nat ->
  (length (varint_bytes 1 (varint_value 1 p (firstn k t))) <= 1 + k)%nat.
Proof.
  intros H k Hk. assert (L : forall v, (length (varint_bytes 1 v) <= 2)%nat).
  { intros v. unfold varint_bytes. destruct (v <? _); [|reflexivity]. unfold varint_class, class_bytes. destruct (v <? _); [repeat constructor|reflexivity]. }
  subst k. inversion H as [|? ? Hp Ht]; subst. red in Hp. unfold varint_extra, varint_value, leading_ones in *. cbn [ones] in *. destruct (N.leb_spec 128 p) as [P|P].
  - cbn [Nat.min] in *. rewrite Nat.min_0_r in *. exact (L _).
  - cbn. change (2 ^ (7 - 0)) with 128. rewrite N.add_0_r, (N.mod_small p 128) by exact P.
    unfold varint_bytes, varint_class. change (2 ^ (7 * N.of_nat 1)) with 128. change (2 ^ (7 * (N.of_nat 0 + 1))) with 128.
    rewrite (proj2 (N.ltb_lt p 128) P). repeat constructor.
Qed.
