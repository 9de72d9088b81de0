(** * The serializer writes bytes. *)
From Coq Require Import String.
From Verif Require Import Base BaseFacts Varint Utf8 Serde Typing Header Body SpecBody SerdeProps BodyFacts.
Local Open Scope list_scope.
Local Open Scope N_scope.

(** The parts of a value that are copied to the output are bytes. *)
Fixpoint raw_ok (v : sval) : bool :=
  match v with
  | SU8 n => n <? 256
  | SStr bs | SBytes bs => bytes_okb bs
  | SSome v | SNewtypeStruct v | SNewtypeVariant _ v => raw_ok v
  | SSeq _ l | STuple l | STupleStruct l | STupleVariant _ l => forallb raw_ok l
  | SMap _ l => forallb (fun kv => raw_ok (fst kv) && raw_ok (snd kv)) l
  | SStruct l | SStructVariant _ l => forallb (fun kv => raw_ok (snd kv)) l
  | _ => true
  end.

Lemma lor_byte a b : a < 256 -> b < 256 -> N.lor a b < 256.
Proof.
  intros Ha Hb. assert (E : N.lor a b = N.land (N.lor a b) (N.ones 8)).
  { rewrite N.land_lor_distr_l, !N.land_ones. change (2 ^ 8) with 256. rewrite !N.mod_small by assumption. reflexivity. }
  rewrite E, N.land_ones. apply N.mod_upper_bound. discriminate.
Qed.
Lemma as_u8_byte v : as_u8 v < 256.
Proof. apply N.mod_upper_bound; discriminate. Qed.
Lemma shr_byte v k : shr (as_u8 v) k < 256.
Proof.
  unfold shr. rewrite N.shiftr_div_pow2. pose proof (as_u8_byte v).
  apply N.le_lt_trans with (as_u8 v); [|assumption]. apply N.div_le_upper_bound; [apply N.pow_nonzero; discriminate|].
  pose proof (N.pow_nonzero 2 k ltac:(discriminate)). nia.
Qed.
Lemma le_bytes_ok k v : bytes_ok (le_bytes k v).
Proof.
  revert v; induction k as [|k IH]; intros v; [constructor|]. constructor; [apply N.mod_upper_bound; discriminate|apply IH].
Qed.
Ltac enc_ok := repeat first
  [ constructor | apply le_bytes_ok | apply as_u8_byte
  | apply lor_byte; [apply shr_byte|reflexivity] | reflexivity
  | match goal with |- bytes_ok (if ?b then _ else _) => destruct b end ].
Lemma enc_u16_ok v : bytes_ok (enc_u16 v).
Proof. unfold enc_u16. cbv zeta. enc_ok. Qed.
Lemma enc_u32_ok v : bytes_ok (enc_u32 v).
Proof. unfold enc_u32. cbv zeta. enc_ok. Qed.
Lemma enc_u64_ok v : bytes_ok (enc_u64 v).
Proof. unfold enc_u64. cbv zeta. enc_ok. Qed.

Lemma bytes_ok_app a b : bytes_ok a -> bytes_ok b -> bytes_ok (a ++ b).
Proof. intros; apply Forall_app; auto. Qed.
Lemma wseq_bytes_ok a b : bytes_ok (wbytes a) -> bytes_ok (wbytes b) -> bytes_ok (wbytes (wseq a b)).
Proof.
  intros Ha Hb; induction a as [|e|p|bs k IH]; cbn [wseq wbytes]; auto; try constructor.
  cbn [wbytes] in Ha. apply Forall_app in Ha as [H1 H2]. apply bytes_ok_app; auto.
Qed.
Lemma wconcat_bytes_ok {A} (f : A -> wprog) l : Forall (fun a => bytes_ok (wbytes (f a))) l -> bytes_ok (wbytes (wconcat (map f l))).
Proof. induction 1 as [|a l Ha _ IH]; [constructor|]. apply wseq_bytes_ok; assumption. Qed.
Lemma wr_bytes_ok bs : bytes_ok bs -> bytes_ok (wbytes (wr bs)).
Proof. cbn [wr wbytes]; rewrite app_nil_r; auto. Qed.
Lemma ser_str_ok bs : bytes_ok bs -> bytes_ok (wbytes (ser_str bs)).
Proof. intros H; apply wseq_bytes_ok; apply wr_bytes_ok; [apply enc_u64_ok|exact H]. Qed.
Lemma ser_len_ok n : bytes_ok (wbytes (ser_len n)).
Proof. destruct n; [apply wr_bytes_ok, enc_u64_ok|constructor]. Qed.
Lemma char_utf8_ok ch : bytes_ok (char_utf8 ch).
Proof.
  unfold char_utf8. repeat (match goal with |- bytes_ok (if ?b then _ else _) => destruct b end);
    repeat (constructor; [first [apply as_u8_byte | apply lor_byte; [apply as_u8_byte|reflexivity]]|]); constructor.
Qed.
Lemma forallb_map {A B} (f : B -> bool) (g : A -> B) l : forallb f (map g l) = forallb (fun a => f (g a)) l.
Proof. induction l as [|a l IH]; [reflexivity|]. cbn [map forallb]. rewrite IH. reflexivity. Qed.

Lemma ser_bytes_ok v : raw_ok v = true -> bytes_ok (wbytes (ser v)).
Proof.
  assert (Hl : forall l, Forall (fun v => raw_ok v = true -> bytes_ok (wbytes (ser v))) l -> forallb raw_ok l = true ->
     bytes_ok (wbytes (wconcat (map ser l)))).
  { intros l H Hr. rewrite forallb_forall in Hr. apply wconcat_bytes_ok. rewrite Forall_forall in *. auto. }
  assert (Hs : forall l : list (string * sval), Forall (fun kv => raw_ok (snd kv) = true -> bytes_ok (wbytes (ser (snd kv)))) l ->
     forallb (fun kv => raw_ok (snd kv)) l = true -> bytes_ok (wbytes (wconcat (map (fun kv => ser (snd kv)) l)))).
  { intros l H Hr. rewrite forallb_forall in Hr. apply wconcat_bytes_ok. rewrite Forall_forall in *. auto. }
  revert v; apply (sval_ind2 (fun v => raw_ok v = true -> bytes_ok (wbytes (ser v)))).
  - intros v; destruct v; try exact I; cbn [raw_ok ser]; intros H;
      first [ exact (Forall_nil _)
            | apply wr_bytes_ok; first [apply enc_u16_ok|apply enc_u32_ok|apply enc_u64_ok|apply le_bytes_ok]
            | apply ser_str_ok; first [apply char_utf8_ok|apply bytes_okb_ok, H] | idtac ].
    + destruct b; repeat constructor.
    + apply wr_bytes_ok. constructor; [|constructor]. unfold i8_byte, as_u, byte_ok. change (2 ^ Z.of_N 8)%Z with 256%Z.
      pose proof (Z.mod_pos_bound z 256). lia.
    + apply wr_bytes_ok. constructor; [|constructor]. apply N.ltb_lt, H.
    + repeat constructor.
  - intros v IH H. apply wseq_bytes_ok; [repeat constructor|apply IH, H].
  - intros v IH H. apply IH, H.
  - intros i v IH H. apply wseq_bytes_ok; [apply wr_bytes_ok, enc_u32_ok|apply IH, H].
  - intros n l IH H. apply wseq_bytes_ok; [apply ser_len_ok|apply Hl; assumption].
  - intros l IH H. apply Hl; assumption.
  - intros l IH H. apply Hl; assumption.
  - intros i l IH H. apply wseq_bytes_ok; [apply wr_bytes_ok, enc_u32_ok|apply Hl; assumption].
  - intros n l IH H. apply wseq_bytes_ok; [apply ser_len_ok|]. cbn [raw_ok] in H. rewrite forallb_forall in H.
    apply wconcat_bytes_ok. rewrite Forall_forall in *. intros kv Hkv. specialize (H kv Hkv). apply andb_prop in H as [H1 H2].
    apply wseq_bytes_ok; [|apply IH; assumption]. destruct (fst kv); cbn [ser_key wbytes]; try constructor.
    apply ser_str_ok, bytes_okb_ok, H1.
  - intros l IH H. apply Hs; assumption.
  - intros i l IH H. apply wseq_bytes_ok; [apply wr_bytes_ok, enc_u32_ok|apply Hs; assumption].
Qed.

Lemma raw_vec_u8 bs : bytes_okb bs = true -> raw_ok (vec_u8 bs) = true.
Proof. intros H. cbn [vec_u8 raw_ok]. rewrite forallb_map. exact H. Qed.
Lemma raw_big bs : bytes_okb bs = true -> raw_ok (big_sval bs) = true.
Proof. intros H. cbn [big_sval raw_ok forallb]. rewrite raw_vec_u8 by exact H. reflexivity. Qed.

Lemma body_raw c b : body_ok c b = true -> raw_ok (body_sval c b) = true.
Proof.
  unfold body_ok. revert b. apply (body_ind2 (fun b => every (node_ok c) b = true -> raw_ok (body_sval c b) = true)).
  - intros b; destruct b as [|[ob|]|b|n|n|n|n|z|z|z|z|n|n|bs|bs|bs s|bs|bs|l|l|m|i b|y o|t n]; try exact I; cbn [every node_ok]; rewrite ?andb_true_r;
      intros Hok; cbn [body_sval raw_ok]; try reflexivity.
    + exact Hok.
    + apply andb_prop in Hok as [Hok _]. apply raw_big, Hok.
    + apply andb_prop in Hok as [Hok _]. apply raw_big, Hok.
    + destruct bs as [|x bs]; [reflexivity|]. do 3 apply andb_prop in Hok as [Hok _]. unfold big_decimal_sval. cbn [raw_ok forallb].
      rewrite raw_vec_u8 by exact Hok. reflexivity.
    + apply andb_prop in Hok as [Hok _]. apply bytes_okb_ok, Utf8Facts.utf8_valid_bytes, Hok.
    + apply andb_prop in Hok as [Hok _]. exact Hok.
    + unfold date_sval. cbn [raw_ok forallb]. destruct (arith_s _ _ _), (arith_u _ _ _); reflexivity.
  - intros b IH H. exact (IH H).
  - intros l IH H. cbn [every node_ok] in H. apply andb_prop in H as [_ H]. cbn [body_sval raw_ok]. rewrite forallb_map, forallb_forall in *.
    rewrite Forall_forall in IH. auto.
  - intros l IH H. cbn [every node_ok andb] in H. cbn [body_sval raw_ok]. rewrite forallb_map, forallb_forall in *.
    rewrite Forall_forall in IH. auto.
  - intros m IH H. cbn [every node_ok] in H. apply andb_prop in H as [Hk H]. apply andb_prop in Hk as [_ Hk]. cbn [body_sval raw_ok]. rewrite forallb_map, forallb_forall in *.
    rewrite Forall_forall in IH. intros kv Hkv. cbn [fst snd raw_ok]. rewrite IH by auto. specialize (Hk kv Hkv). apply andb_prop in Hk as [Hk _].
    rewrite andb_true_r. apply bytes_okb_ok, Utf8Facts.utf8_valid_bytes, Hk.
  - intros i b IH H. cbn [every node_ok] in H. apply andb_prop in H as [_ H]. exact (IH H).
Qed.
Lemma body_bytes_ok c b : body_ok c b = true -> bytes_ok (wbytes (bser c b)).
Proof. intros H; apply ser_bytes_ok, body_raw, H. Qed.
