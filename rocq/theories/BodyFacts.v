(** * Proofs about Body.v. *)
From Coq Require Import String.
From Verif Require Import Base BaseFacts Varint VarintFacts ZigZagFacts Utf8 SpecVarint SpecRequest
  Serde Typing PrimFacts SerdeFacts SerdeMore SerdeSize SerdeSafe Consume Header HeaderFacts SpecHeader Body SpecBody.
Local Open Scope list_scope.
Local Open Scope N_scope.

Section BodyInd.
  Variable P : body -> Prop.
  Hypothesis Hleaf : forall b,
    match b with BOptional (Some _) | BArray _ | BTuple _ | BMap _ | BEnum _ _ => True | _ => P b end.
  Hypothesis Hopt : forall b, P b -> P (BOptional (Some b)).
  Hypothesis Harr : forall l, Forall P l -> P (BArray l).
  Hypothesis Htup : forall l, Forall P l -> P (BTuple l).
  Hypothesis Hmap : forall m, Forall (fun kv => P (snd kv)) m -> P (BMap m).
  Hypothesis Henum : forall i b, P b -> P (BEnum i b).
  Fixpoint body_ind2 (b : body) : P b :=
    let lst := fix lst (l : list body) : Forall P l :=
      match l with [] => Forall_nil _ | x :: t => Forall_cons _ (body_ind2 x) (lst t) end in
    let lstm := fix lstm (l : list (list N * body)) : Forall (fun kv => P (snd kv)) l :=
      match l with [] => Forall_nil _ | x :: t => Forall_cons _ (body_ind2 (snd x)) (lstm t) end in
    match b with
    | BOptional (Some b) => Hopt b (body_ind2 b)
    | BArray l => Harr l (lst l)
    | BTuple l => Htup l (lst l)
    | BMap m => Hmap m (lstm m)
    | BEnum i b => Henum i b (body_ind2 b)
    | b => Hleaf b
    end.
End BodyInd.

(** ** Dates *)
Lemma date_write c y o : in_s 32 y = true -> o < 2 ^ 16 -> date_room c y o = true ->
  exists y0 o0, in_s 32 y0 = true /\ o0 < 2 ^ 16 /\
    arith_s c 32 (y - YEAR_OFFSET) = Some y0 /\ arith_u c 16 (Z.of_N o - Z.of_N ORDINAL_OFFSET) = Some o0 /\
    arith_s c 32 (y0 + YEAR_OFFSET) = Some y /\ arith_u c 16 (Z.of_N o0 + Z.of_N ORDINAL_OFFSET) = Some o.
Proof.
  unfold date_room, arith_s, arith_u, in_s, wrap_s, YEAR_OFFSET, ORDINAL_OFFSET.
  change (2 ^ Z.of_N 32)%Z with 4294967296%Z. change (2 ^ (Z.of_N 32 - 1))%Z with 2147483648%Z.
  change (2 ^ Z.of_N 16)%Z with 65536%Z. change (2 ^ 16) with 65536. change (Z.of_N 1) with 1%Z.
  change (- (2147483648))%Z with (-2147483648)%Z. intros Hy Ho Hr.
  assert (exists y0, (-2147483648 <= y0 < 2147483648)%Z /\ 
    (((y - 2000 = y0)%Z) \/ (overflow_checks c = false /\ (y - 2000 = y0 - 4294967296)%Z))) as (y0 & Hy0 & Ey0).
  { destruct (Z.leb_spec (-2147483648) (y - 2000)); [exists (y - 2000)%Z; lia|exists (y - 2000 + 4294967296)%Z].
    destruct (overflow_checks c); cbn [negb orb] in Hr; lia. }
  assert (exists o0, o0 < 65536 /\ 
    (((Z.of_N o - 1 = Z.of_N o0)%Z) \/ (overflow_checks c = false /\ (o = 0) /\ o0 = 65535))) as (o0 & Ho0 & Eo0).
  { destruct (N.eqb_spec o 0); [exists 65535|exists (o - 1); lia].
    destruct (overflow_checks c); cbn [negb orb] in Hr; lia. }
  exists y0, o0. split; [lia|]. split; [lia|]. repeat split.
  - destruct Ey0 as [->|[-> Ey0]].
    + replace ((-2147483648 <=? y0) && (y0 <? 2147483648))%Z with true by lia. reflexivity.
    + rewrite Ey0. replace ((-2147483648 <=? y0 - 4294967296) && (y0 - 4294967296 <? 2147483648))%Z with false by lia.
      f_equal. replace (y0 - 4294967296 + 2147483648)%Z with (y0 + 2147483648 + (-1) * 4294967296)%Z by lia.
      rewrite Z_mod_plus_full, Z.mod_small by lia. lia.
  - destruct Eo0 as [->|(-> & -> & ->)]; [|reflexivity].
    replace ((0 <=? Z.of_N o0) && (Z.of_N o0 <? 65536))%Z with true by lia. rewrite N2Z.id; reflexivity.
  - destruct Ey0 as [E|[-> E]].
    + replace (y0 + 2000)%Z with y by lia. rewrite Hy; reflexivity.
    + replace ((-2147483648 <=? y0 + 2000) && (y0 + 2000 <? 2147483648))%Z with false by lia.
      f_equal. replace (y0 + 2000 + 2147483648)%Z with (y + 2147483648 + 1 * 4294967296)%Z by lia.
      rewrite Z_mod_plus_full, Z.mod_small by lia. lia.
  - destruct Eo0 as [E|(-> & -> & ->)]; [|reflexivity].
    replace (Z.of_N o0 + 1)%Z with (Z.of_N o) by lia.
    replace ((0 <=? Z.of_N o) && (Z.of_N o <? 65536))%Z with true by lia. rewrite N2Z.id; reflexivity.
Qed.
Lemma date_read c y0 o0 y o : in_s 32 y0 = true -> o0 < 2 ^ 16 ->
  arith_s c 32 (y0 + YEAR_OFFSET) = Some y -> arith_u c 16 (Z.of_N o0 + Z.of_N ORDINAL_OFFSET) = Some o ->
  in_s 32 y = true /\ o < 2 ^ 16 /\ date_room c y o = true.
Proof.
  unfold date_room, arith_s, arith_u, YEAR_OFFSET, ORDINAL_OFFSET. intros Hy Ho.
  destruct (in_s 32 (y0 + 2000)) eqn:E1.
  - intros H; injection H as <-. destruct (_ && _) eqn:E2.
    + intros H; injection H as <-. split; [exact E1|]. change (2 ^ Z.of_N 16)%Z with 65536%Z in E2. change (2 ^ 16) with 65536.
      split; [lia|]. replace (y0 + 2000 - 2000)%Z with y0 by lia. rewrite Hy. 
      cbn [andb]. apply orb_true_intro; right. lia.
    + destruct (overflow_checks c); [discriminate|]. intros H; injection H as <-. split; [exact E1|].
      split; [|reflexivity]. change (2 ^ Z.of_N 16)%Z with 65536%Z. change (2 ^ 16) with 65536.
      pose proof (Z.mod_pos_bound (Z.of_N o0 + Z.of_N 1) 65536 ltac:(lia)). lia.
  - destruct (overflow_checks c); [discriminate|]. intros H; injection H as <-. intros Hu.
    split; [|split; [|reflexivity]].
    + unfold in_s, wrap_s. change (2 ^ Z.of_N 32)%Z with 4294967296%Z. change (2 ^ (Z.of_N 32 - 1))%Z with 2147483648%Z.
      pose proof (Z.mod_pos_bound (y0 + 2000 + 2147483648) 4294967296 ltac:(lia)). lia.
    + change (2 ^ Z.of_N 16)%Z with 65536%Z in Hu. change (2 ^ 16) with 65536.
      destruct (_ && _) eqn:E2; injection Hu as <-; [lia|].
      pose proof (Z.mod_pos_bound (Z.of_N o0 + Z.of_N 1) 65536 ltac:(lia)). lia.
Qed.

(** ** Round trip *)
Definition rtb (c : cfg) (h : header) (b : body) : Prop :=
  wresult (bser c b) = WeOk /\ parses c ERead (bde c h) (wbytes (bser c b)) b.

Lemma vec_room_alloc c n : vec_room c n = true <-> alloc_result c (n * size_of_body c) = None.
Proof.
  unfold vec_room, alloc_result. generalize (n * size_of_body c); intros m.
  destruct (isize_max c <? m) eqn:E1; [split; [lia|discriminate]|].
  destruct (heap_limit c <? m) eqn:E2; [split; [lia|discriminate]|]. split; [reflexivity|lia].
Qed.

Lemma big_ser bs : wresult (ser (big_sval bs)) = WeOk /\ wbytes (ser (big_sval bs)) = enc_u64 (lenN bs) ++ bs.
Proof.
  destruct (ser_vec_u8 bs) as [Hw Hb]. unfold big_sval.
  change (ser (SSeq None [vec_u8 bs])) with (wseq (ser (vec_u8 bs)) WDone).
  rewrite wresult_wseq, wbytes_wseq_done, Hw, Hb by exact Hw. cbn [wbytes wresult]. rewrite app_nil_r. auto.
Qed.
Lemma big_decimal_ser b bs s : let l := b :: bs in
  wresult (ser (big_decimal_sval l s)) = WeOk /\
  wbytes (ser (big_decimal_sval l s)) = (enc_u64 (lenN l) ++ l) ++ enc_u64 (enc_zigzag 64 s).
Proof.
  intros l. destruct (ser_vec_u8 l) as [Hw Hb]. unfold big_decimal_sval, l; fold l.
  change (ser (SSeq None [vec_u8 l; SI64 s])) with (wseq (ser (vec_u8 l)) (wseq (ser_i64 s) WDone)).
  rewrite wresult_wseq, wbytes_wseq_done, Hw, Hb by exact Hw. cbn [ser_i64 wseq wr wbytes wresult].
  rewrite app_nil_r. auto.
Qed.

Lemma bser_list c (R : body -> Prop) l : Forall (fun b => wresult (bser c b) = WeOk) l ->
  wresult (wconcat (map ser (map (body_sval c) l))) = WeOk /\
  wbytes (wconcat (map ser (map (body_sval c) l))) = concat (map (fun b => wbytes (bser c b)) l).
Proof. intros H. rewrite map_map. apply (wconcat_ok (fun b => ser (body_sval c b)) l), H. Qed.

Lemma all2_Forall2 hs l : (length hs =? length l)%nat && all2 (fun f b => f b) (map validate hs) l = true <->
  Forall2 (fun h b => validate h b = true) hs l.
Proof.
  revert l; induction hs as [|h hs IH]; intros [|b l]; cbn [length map all2 Nat.eqb andb].
  - split; constructor.
  - split; [discriminate|intros H; inversion H].
  - split; [discriminate|intros H; inversion H].
  - specialize (IH l). split.
    + intros H. apply andb_prop in H as [H1 H2]. apply andb_prop in H2 as [H2 H3]. constructor; [exact H2|].
      apply IH. rewrite H1, H3; reflexivity.
    + intros H; inversion H; subst. apply IH in H5. apply andb_prop in H5 as [-> ->]. rewrite H3. reflexivity.
Qed.

Lemma body_roundtrip c h b : wf_cfg c -> 4096 <= heap_limit c ->
  validate h b = true -> body_ok c b = true -> body_fits c b = true -> rtb c h b.
Proof.
  intros Hc Hh. revert b. apply (header_ind2 (fun h => forall b,
    validate h b = true -> body_ok c b = true -> body_fits c b = true -> rtb c h b)).
  - clear h. intros h; destruct h; try exact I;
      (intros b Hv Hok Hfit; destruct b; try discriminate Hv; unfold body_ok, body_fits in Hok, Hfit;
       cbn [every node_ok] in Hok, Hfit; rewrite ?andb_true_r in Hok, Hfit;
       unfold rtb, bser; cbn [body_sval bde]).
    + split; [reflexivity|apply parses_ret].
    + split; [reflexivity|]. apply parses_pmap, parses_bool.
    + split; [reflexivity|]. apply parses_pmap, parses_byte.
    + split; [reflexivity|]. cbn [ser ser_u16 wr wbytes]; rewrite app_nil_r. apply parses_pmap, parses_u16, N.ltb_lt, Hok.
    + split; [reflexivity|]. cbn [ser ser_u32 wr wbytes]; rewrite app_nil_r. apply parses_pmap, parses_u32, N.ltb_lt, Hok.
    + split; [reflexivity|]. cbn [ser ser_u64 wr wbytes]; rewrite app_nil_r. apply parses_pmap, parses_u64, N.ltb_lt, Hok.
    + split; [reflexivity|]. apply parses_pmap, parses_i8, Hok.
    + split; [reflexivity|]. cbn [ser ser_i16 wr wbytes]; rewrite app_nil_r. apply parses_pmap, parses_de_i16, Hok.
    + split; [reflexivity|]. cbn [ser ser_i32 wr wbytes]; rewrite app_nil_r. apply parses_pmap, parses_de_i32, Hok.
    + split; [reflexivity|]. cbn [ser ser_i64 wr wbytes]; rewrite app_nil_r. apply parses_pmap, parses_de_i64, Hok.
    + split; [reflexivity|]. cbn [ser wr wbytes]; rewrite app_nil_r.
      apply parses_pmap, (parses_float c 4 4); [reflexivity|apply N.ltb_lt, Hok].
    + split; [reflexivity|]. cbn [ser wr wbytes]; rewrite app_nil_r.
      apply parses_pmap, (parses_float c 8 8); [reflexivity|apply N.ltb_lt, Hok].
    + destruct (big_ser bs) as [Hw Hb]. rewrite Hb. split; [exact Hw|]. apply andb_prop in Hok as [_ H].
      apply parses_pmap, parses_vec_u8; [exact Hc|apply N.ltb_lt, H].
    + destruct (big_ser bs) as [Hw Hb]. rewrite Hb. split; [exact Hw|]. apply andb_prop in Hok as [_ H].
      apply parses_pmap, parses_vec_u8; [exact Hc|apply N.ltb_lt, H].
    + apply andb_prop in Hok as [Hok Hz]. apply andb_prop in Hok as [Hok Hs]. apply andb_prop in Hok as [_ H].
      apply N.ltb_lt in H. destruct bs as [|x bs].
      * apply Z.eqb_eq in Hz; subst scale. split; [reflexivity|]. cbn.
        apply (parses_pmap _ _ (de_big_decimal c) (fun p => BBigDecimal (fst p) (snd p)) [0] ([], 0%Z)).
        eapply (parses_bind_ret _ _ _ _ _ []); [|reflexivity]. apply (parses_vec_u8 c [] Hc H).
      * destruct (big_decimal_ser x bs scale) as [Hw Hb]. rewrite Hb. split; [exact Hw|].
        apply (parses_pmap _ _ (de_big_decimal c) (fun p => BBigDecimal (fst p) (snd p)) _ (x :: bs, scale)).
        eapply parses_bind; [apply parses_vec_u8; assumption|]. cbv iota.
        eapply parses_bind_ret; [apply parses_de_i64, Hs|reflexivity].
    + split; [reflexivity|]. cbn [ser ser_str ser_u64 wseq wr wbytes]; rewrite app_nil_r.
      apply andb_prop in Hok as [H1 H2]. apply parses_pmap, parses_string; [assumption|assumption|apply N.ltb_lt, H2].
    + split; [reflexivity|]. cbn [ser ser_bytes ser_u64 wseq wr wbytes]; rewrite app_nil_r.
      apply andb_prop in Hok as [H1 H2]. apply parses_pmap, parses_byte_buf; [assumption|assumption|apply N.ltb_lt, H2].
    + apply andb_prop in Hok as [H1 H2]. apply N.ltb_lt in H2.
      destruct (date_write c year ordinal H1 H2 Hfit) as (y0 & o0 & Hy0 & Ho0 & E1 & E2 & E3 & E4).
      unfold date_sval. rewrite E1, E2. cbn [ser map wconcat fold_right ser_i32 ser_u16 wseq wr wbytes]. split; [reflexivity|].
      rewrite app_nil_r.
      apply (parses_pmap _ _ (de_date c) (fun p => BDate (fst p) (snd p)) _ (year, ordinal)).
      eapply parses_bind; [apply parses_de_i32, Hy0|]. rewrite E3; cbn [or_overflow bind].
      rewrite <- (app_nil_r (enc_u16 o0)). eapply parses_bind; [apply parses_u16, Ho0|].
      rewrite E4; cbn [or_overflow bind]. apply parses_ret.
    + apply andb_prop in Hok as [H1 H2]. apply N.ltb_lt in H2. unfold date_time_sval.
      cbn [ser map wconcat fold_right snd ser_i64 ser_u32 wseq wr wbytes]. split; [reflexivity|].
      rewrite app_nil_r.
      apply (parses_pmap _ _ de_date_time (fun p => BDateTime (fst p) (snd p)) _ (ts, ns)).
      eapply parses_bind; [apply parses_de_i64, H1|]. eapply parses_bind_ret; [apply parses_u32; exact H2|reflexivity].
  - (* optional *)
    clear h. intros h IH b Hv Hok Hfit; destruct b as [|o| | | | | | | | | | | | | | | | | | | | | |]; try discriminate Hv.
    unfold body_ok, body_fits in Hok, Hfit. cbn [every node_ok validate] in Hok, Hfit, Hv. cbn [andb] in Hok, Hfit.
    unfold rtb, bser. cbn [bde]. destruct o as [b|]; cbn [body_sval ser].
    + destruct (IH b Hv Hok Hfit) as [Hw Hp]. rewrite wbytes_seq_wr, wresult_seq_wr. split; [exact Hw|].
      apply (parses_pmap _ _ (de_option (bde c h)) BOptional _ (Some b)).
      eapply parses_bind; [apply (parses_bool c true)|]. apply parses_pmap, Hp.
    + split; [reflexivity|]. apply (parses_pmap _ _ (de_option (bde c h)) BOptional [0] None).
      apply (parses_bind_ret c ERead _ _ [0] false); [apply (parses_bool c false)|reflexivity].
  - (* array *)
    clear h. intros h IH b Hv Hok Hfit; destruct b; try discriminate Hv.
    unfold body_ok, body_fits in Hok, Hfit. cbn [every node_ok validate] in Hok, Hfit, Hv.
    apply andb_prop in Hok as [Hl Hok]. apply andb_prop in Hfit as [Hr Hfit].
    rewrite forallb_forall in Hok, Hfit, Hv.
    assert (HF : Forall (rtb c h) l) by (apply Forall_forall; intros b Hb; apply IH; [apply Hv|apply Hok|apply Hfit]; exact Hb).
    destruct (bser_list c (fun _ => True) l) as [Hw Hb]; [eapply Forall_impl; [|exact HF]; intros b [H _]; exact H|].
    unfold rtb, bser. cbn [body_sval bde ser ser_len]. unfold ser_u64. rewrite wbytes_seq_wr, wresult_seq_wr, Hw, Hb.
    split; [reflexivity|]. apply N.ltb_lt in Hl.
    eapply parses_bind; [apply parses_u64, (lt_usize_64 c); assumption|].
    rewrite as_usize_id by exact Hl. apply parses_Alloc; [apply vec_room_alloc, Hr|].
    apply (parses_pmap _ _ _ BArray). apply parses_repeatN; [|reflexivity].
    clear - HF. induction HF as [|b l [_ H] HF IH]; constructor; assumption.
  - (* map *)
    clear h. intros h IH b Hv Hok Hfit; destruct b; try discriminate Hv.
    unfold body_ok, body_fits in Hok, Hfit. cbn [every node_ok validate] in Hok, Hfit, Hv.
    apply andb_prop in Hok as [Hl Hok]. apply andb_prop in Hl as [Hl Hk]. apply andb_prop in Hl as [Hl Hs].
    cbn [andb] in Hfit. rewrite forallb_forall in Hok, Hfit, Hv, Hk. apply N.ltb_lt in Hl.
    assert (HF : Forall (fun kv => str_ok c (fst kv) = true /\ rtb c h (snd kv)) m).
    { apply Forall_forall. intros kv Hkv. split; [apply Hk, Hkv|]. apply IH; [apply Hv|apply Hok|apply Hfit]; exact Hkv. }
    unfold rtb, bser. cbn [body_sval bde ser ser_len]. unfold ser_u64. rewrite wbytes_seq_wr, wresult_seq_wr, map_map. cbn [fst snd ser_key].
    destruct (wconcat_ok (fun kv => wseq (ser_str (fst kv)) (ser (body_sval c (snd kv)))) m) as [Hw Hb].
    { eapply Forall_impl; [|exact HF]. intros kv [_ [Hw _]]. exact Hw. }
    rewrite Hw, Hb. split; [reflexivity|].
    assert (E : map (fun kv => wbytes (wseq (ser_str (fst kv)) (ser (body_sval c (snd kv))))) m =
                map (fun kv => enc_str (fst kv) ++ wbytes (bser c (snd kv))) m).
    { apply map_ext; intros kv. unfold ser_str, ser_u64, enc_str, bser. cbn [wseq wr wbytes]. rewrite <- app_assoc. reflexivity. }
    rewrite E.
    eapply parses_bind; [apply parses_u64, (lt_usize_64 c); assumption|].
    pose proof (parses_map_n c (bde c h) (fun kv => wbytes (bser c (snd kv))) m Hc) as P.
    rewrite insert_all_sorted in P; [|exact Hs|apply Forall_forall; intros; constructor].
    rewrite app_nil_l in P. apply (parses_pmap _ _ _ BMap). apply P.
    eapply Forall_impl; [|exact HF]. intros kv [H1 [_ H2]]; auto.
  - (* tuple *)
    clear h. intros hs IH b Hv Hok Hfit; destruct b; try discriminate Hv.
    unfold body_ok, body_fits in Hok, Hfit. cbn [every node_ok] in Hok, Hfit.
    change (validate (HTuple hs) (BTuple l)) with ((length hs =? length l)%nat && all2 (fun f b => f b) (map validate hs) l) in Hv.
    cbn [andb] in Hok. apply andb_prop in Hfit as [Hr Hfit].
    apply all2_Forall2 in Hv. rewrite forallb_forall in Hok, Hfit.
    assert (HF : Forall2 (rtb c) hs l).
    { clear - IH Hv Hok Hfit. induction Hv as [|h b hs l H Hv IHv]; constructor; inversion IH; subst.
      - apply H2; [exact H|apply Hok; left; reflexivity|apply Hfit; left; reflexivity].
      - apply IHv; [assumption|intros x Hx; apply Hok; right; exact Hx|intros x Hx; apply Hfit; right; exact Hx]. }
    destruct (bser_list c (fun _ => True) l) as [Hw Hb].
    { clear - HF. induction HF as [|h b hs l [H _] HF IH]; constructor; assumption. }
    unfold rtb, bser. cbn [body_sval bde ser]. rewrite Hw, Hb. split; [reflexivity|].
    assert (Hlen : lenN hs = lenN l) by (unfold lenN; apply Forall2_length in HF; rewrite HF; reflexivity).
    apply parses_Alloc; [rewrite Hlen; apply vec_room_alloc, Hr|].
    apply (parses_pmap _ _ _ BTuple). apply parses_sequence.
    + clear - HF. induction HF as [|h b hs l [_ H] HF IH]; cbn [map combine]; constructor; assumption.
    + rewrite !map_length. unfold lenN in Hlen; lia.
  - (* enum *)
    clear h. intros hs IH b Hv Hok Hfit; destruct b; try discriminate Hv.
    unfold body_ok, body_fits in Hok, Hfit. cbn [every node_ok] in Hok, Hfit. cbn [andb] in Hfit.
    apply andb_prop in Hok as [Hi Hok]. apply N.ltb_lt in Hi.
    change (validate (HEnum hs) (BEnum i b)) with (match pickN (map validate hs) i with Some f => f b | None => false end) in Hv.
    rewrite pickN_map in Hv. destruct (pickN hs i) as [h|] eqn:E; [|discriminate]. cbn [option_map] in Hv.
    apply pickN_some in E as Hin. destruct Hin as [Hin _]. rewrite Forall_forall in IH.
    destruct (IH h Hin b Hv Hok Hfit) as [Hw Hp].
    unfold rtb, bser. cbn [body_sval ser]. unfold ser_u32. rewrite wbytes_seq_wr, wresult_seq_wr. split; [exact Hw|].
    cbn [bde]. eapply parses_bind; [apply parses_u32, Hi|]. rewrite as_usize_id.
    + rewrite pickN_map, E. cbn [option_map]. apply parses_pmap, Hp.
    + destruct (usize_bits_cases c Hc) as [->| ->]; [exact Hi|]. eapply N.lt_trans; [exact Hi|reflexivity].
Qed.

(** ** Every decoded body *)
Lemma yields_eq {A} c (p q : prog A) P : (forall s, bytes_ok s -> run c p s = run c q s) -> yields c q P -> yields c p P.
Proof. intros H Hq s a r Hs Hr. rewrite H in Hr by exact Hs. eauto. Qed.
Lemma consumes_eq {A} c (p q : prog A) R : (forall s, bytes_ok s -> run c p s = run c q s) -> consumes c q R -> consumes c p R.
Proof. intros H Hq s a r Hs Hr. rewrite H in Hr by exact Hs. eauto. Qed.
Lemma yields_Alloc_dep {A} c n (k : prog A) P : (alloc_result c n = None -> yields c k P) -> yields c (Alloc n k) P.
Proof.
  intros H s a r Hs Hr. cbn [run] in Hr. destruct (alloc_result c n) eqn:E; [discriminate|]. exact (H eq_refl s a r Hs Hr).
Qed.
Lemma map_eq64 {A} c (p : prog A) s : usize_bits c = 64 -> bytes_ok s ->
  run c (len <- de_u64 ;; de_map_n c len p) s = run c (de_map c p) s.
Proof.
  intros Hc Hs. unfold de_map, de_u64. rewrite !run_bind. destruct (run c (dec_u64 ERead) s) as [n r|e|q] eqn:E; [|reflexivity|reflexivity].
  cbn [obind]. rewrite as_usize_id; [reflexivity|]. rewrite Hc. exact (yields_u64 c ERead s n r Hs E).
Qed.
Lemma bde_map_eq c h s : usize_bits c = 64 -> bytes_ok s ->
  run c (bde c (HMap h)) s = run c (pmap BMap (de_map c (bde c h))) s.
Proof.
  intros Hc Hs. rewrite run_pmap, <- map_eq64 by assumption. cbn [bde]. rewrite !run_bind, obind_obind. apply obind_ext.
  intros n r. apply run_pmap.
Qed.

Definition good (c : cfg) (h : header) (b : body) : Prop :=
  validate h b = true /\ body_ok c b = true /\ body_fits c b = true.
Lemma body_yields c h : wf_cfg c -> usize_bits c = 64 -> 4096 <= heap_limit c ->
  yields c (bde c h) (good c h).
Proof.
  intros Hw Hc Hh. apply (header_ind2 (fun h => yields c (bde c h) (good c h))).
  - clear h. unfold good, body_ok, body_fits. intros h; destruct h; try exact I; cbn [bde].
    + apply yields_Ret. auto.
    + eapply yields_pmap with (P := fun _ => True); [intros s a r _ _; exact I|auto].
    + eapply yields_pmap; [apply yields_byte|]. intros a Ha; cbn [validate every node_ok]. split; [reflexivity|]. split; [|reflexivity].
      rewrite andb_true_r. apply N.ltb_lt; exact Ha.
    + eapply yields_pmap; [apply yields_u16|]. intros a Ha; cbn [validate every node_ok]. split; [reflexivity|]. split; [|reflexivity].
      rewrite andb_true_r. apply N.ltb_lt; exact Ha.
    + eapply yields_pmap; [apply yields_u32|]. intros a Ha; cbn [validate every node_ok]. split; [reflexivity|]. split; [|reflexivity].
      rewrite andb_true_r. apply N.ltb_lt; exact Ha.
    + eapply yields_pmap; [apply yields_u64|]. intros a Ha; cbn [validate every node_ok]. split; [reflexivity|]. split; [|reflexivity].
      rewrite andb_true_r. apply N.ltb_lt; exact Ha.
    + eapply yields_pmap with (P := fun z => in_s 8 z = true).
      * eapply yields_pmap; [apply yields_byte|]. intros a _. apply as_i_in; lia.
      * intros a Ha; cbn [validate every node_ok]. rewrite Ha. auto.
    + eapply yields_pmap; [apply yields_i16|]. intros a Ha; cbn [validate every node_ok]. rewrite Ha. auto.
    + eapply yields_pmap; [apply yields_i32|]. intros a Ha; cbn [validate every node_ok]. rewrite Ha. auto.
    + eapply yields_pmap; [apply yields_i64|]. intros a Ha; cbn [validate every node_ok]. rewrite Ha. auto.
    + eapply yields_pmap; [apply yields_float|]. intros a Ha; cbn [validate every node_ok]. split; [reflexivity|]. split; [|reflexivity].
      rewrite andb_true_r. apply N.ltb_lt; exact Ha.
    + eapply yields_pmap; [apply yields_float|]. intros a Ha; cbn [validate every node_ok]. split; [reflexivity|]. split; [|reflexivity].
      rewrite andb_true_r. apply N.ltb_lt; exact Ha.
    + eapply yields_pmap; [apply yields_vec_u8|]. intros bs Hb; cbn [validate every node_ok].
      unfold vec_u8_ok in Hb; rewrite vec_u8_of_vec_u8 in Hb; rewrite Hb. auto.
    + eapply yields_pmap; [apply yields_vec_u8|]. intros bs Hb; cbn [validate every node_ok].
      unfold vec_u8_ok in Hb; rewrite vec_u8_of_vec_u8 in Hb; rewrite Hb. auto.
    + eapply yields_pmap with (P := fun p => node_ok c (BBigDecimal (fst p) (snd p)) = true).
      * eapply yields_bind; [apply yields_vec_u8|]. intros [|b bs] Hb; unfold vec_u8_ok in Hb; rewrite vec_u8_of_vec_u8 in Hb.
        -- apply yields_Ret. cbn [fst snd node_ok]. rewrite Hb. reflexivity.
        -- eapply yields_bind; [apply yields_i64|]. intros z Hz; apply yields_Ret. cbn [fst snd node_ok]. rewrite Hb, Hz. reflexivity.
      * intros p Hp. cbn [validate every]. rewrite Hp. auto.
    + eapply yields_pmap; [apply yields_string, Hw|]. intros bs [H1 H2]; cbn [validate every node_ok]. unfold str_ok, usize_ok.
      apply N.ltb_lt in H2. rewrite H1, H2; auto.
    + intros s v r Hs H. apply run_pmap_ok in H as (bs & H & ->).
      cbn [validate every node_ok]. unfold buf_ok, usize_ok. split; [reflexivity|]. split; [|reflexivity].
      rewrite andb_true_r. apply andb_true_intro; split.
      * apply bytes_okb_ok. eapply yields_byte_buf; eassumption.
      * apply N.ltb_lt. eapply (yields_byte_buf_len c); eassumption.
    + eapply yields_pmap with (P := fun p => in_s 32 (fst p) = true /\ snd p < 2 ^ 16 /\ date_room c (fst p) (snd p) = true).
      * eapply yields_bind; [apply yields_i32|]. intros y0 Hy0.
        destruct (arith_s c 32 (y0 + YEAR_OFFSET)) as [y|] eqn:Ey; cbn [or_overflow bind]; [|apply yields_Crash].
        eapply yields_bind; [apply yields_u16|]. intros o0 Ho0.
        destruct (arith_u c 16 (Z.of_N o0 + Z.of_N ORDINAL_OFFSET)) as [o|] eqn:Eo; cbn [or_overflow bind]; [|apply yields_Crash].
        apply yields_Ret. cbn [fst snd]. exact (date_read c y0 o0 y o Hy0 Ho0 Ey Eo).
      * intros p (H1 & H2 & H3). cbn [validate every node_ok]. apply N.ltb_lt in H2. rewrite H1, H2, H3. auto.
    + eapply yields_pmap with (P := fun p => in_s 64 (fst p) = true /\ snd p < 2 ^ 32).
      * eapply yields_bind; [apply yields_i64|]. intros t Ht. eapply yields_bind; [apply yields_u32|]. intros n Hn.
        apply yields_Ret; auto.
      * intros [t n] [Ht Hn]; cbn [fst snd] in *. cbn [validate every node_ok]. apply N.ltb_lt in Hn. rewrite Ht, Hn. auto.
  - clear h. intros h IH. cbn [bde].
    eapply yields_pmap with (P := fun o => match o with Some v => good c h v | None => True end).
    + eapply yields_bind with (P := fun _ => True); [intros s a r _ _; exact I|].
      intros [|] _; [eapply yields_pmap; [apply IH|auto]|apply yields_Ret; exact I].
    + intros [b|]; unfold good, body_ok, body_fits; cbn [validate every node_ok]; auto.
  - clear h. intros h IH. cbn [bde]. eapply yields_bind; [apply yields_u64|]. intros len Hlen.
    apply yields_Alloc_dep. rewrite as_usize_id by (rewrite Hc; exact Hlen). intros Ha. apply vec_room_alloc in Ha.
    eapply yields_pmap; [apply yields_repeatN, IH|]. intros l [<- HF]. unfold good, body_ok, body_fits. cbn [validate every node_ok].
    unfold usize_ok. rewrite Hc. apply N.ltb_lt in Hlen. rewrite Hlen, Ha. cbn [andb].
    rewrite Forall_forall in HF. rewrite !forallb_forall.
    split; [intros b Hb; apply (HF b Hb)|]. split; [intros b Hb; apply (HF b Hb)|intros b Hb; apply (HF b Hb)].
  - clear h. intros h IH. eapply yields_eq; [intros s Hs; apply bde_map_eq; assumption|].
    eapply yields_pmap; [apply yields_map; [exact Hw|apply IH]|].
    intros m (Hl & Hs & HF). unfold good, body_ok, body_fits. cbn [validate every node_ok]. apply N.ltb_lt in Hl.
    unfold usize_ok. rewrite Hl, Hs. cbn [andb]. rewrite Forall_forall in HF.
    assert (Hk : forallb (fun kv : list N * body => str_ok c (fst kv)) m = true).
    { apply forallb_forall. intros kv Hkv. apply (HF kv Hkv). }
    rewrite Hk. cbn [andb]. rewrite !forallb_forall.
    split; [intros kv Hkv; apply (HF kv Hkv)|]. split; [intros kv Hkv; apply (HF kv Hkv)|intros kv Hkv; apply (HF kv Hkv)].
  - clear h. intros hs IH. cbn [bde]. apply yields_Alloc_dep. intros Ha. apply vec_room_alloc in Ha.
    eapply yields_pmap with (P := Forall2 (good c) hs).
    + assert (HF : Forall2 (yields c) (map (bde c) hs) (map (good c) hs)).
      { clear - IH. induction IH; cbn [map]; constructor; assumption. }
      eapply yields_weaken; [apply yields_sequence, HF|]. intros l Hl.
      clear - Hl. revert l Hl; induction hs as [|d ds IH]; cbn [map]; intros l Hl; inversion Hl; subst; constructor; auto.
    + intros l Hl. assert (Hlen : lenN hs = lenN l) by (unfold lenN; apply Forall2_length in Hl; rewrite Hl; reflexivity).
      unfold good, body_ok, body_fits. split.
      * apply (proj2 (all2_Forall2 hs l)). clear - Hl. induction Hl as [|h b hs l (H & _) Hl IH]; constructor; assumption.
      * cbn [every node_ok]. rewrite <- Hlen, Ha. cbn [andb]. rewrite !forallb_forall.
        assert (HF : Forall (fun b => body_ok c b = true /\ body_fits c b = true) l).
        { clear - Hl. induction Hl as [|h b hs l (_ & H) Hl IH]; constructor; assumption. }
        rewrite Forall_forall in HF. split; intros b Hb; apply (HF b Hb).
  - clear h. intros hs IH. cbn [bde]. rewrite Forall_forall in IH.
    eapply yields_bind; [apply yields_u32|]. intros i Hi. rewrite as_usize_id by (rewrite Hc; eapply N.lt_trans; [exact Hi|reflexivity]).
    rewrite pickN_map. destruct (pickN hs i) as [h|] eqn:E; [|apply yields_Fail]. cbn [option_map].
    apply pickN_some in E as Hin. destruct Hin as [Hin _].
    eapply yields_pmap; [apply (IH h Hin)|]. intros b (H1 & H2 & H3). unfold good, body_ok, body_fits in *. split.
    + change (validate (HEnum hs) (BEnum i b)) with (match pickN (map validate hs) i with Some f => f b | None => false end).
      rewrite pickN_map, E. exact H1.
    + cbn [every node_ok]. apply N.ltb_lt in Hi. rewrite Hi. cbn [andb]. auto.
Qed.

(** Whatever is decoded under a header validates against it, on every target. *)
Lemma body_validates c h : wf_cfg c -> yields c (bde c h) (fun b => validate h b = true).
Proof.
  intros Hw. apply (header_ind2 (fun h => yields c (bde c h) (fun b => validate h b = true))).
  - clear h. intros h; destruct h; try exact I; cbn [bde];
      first [apply yields_Ret; reflexivity
            |eapply yields_pmap with (P := fun _ => True); [intros s a r _ _; exact I|reflexivity]].
  - clear h. intros h IH. cbn [bde].
    eapply yields_pmap with (P := fun o => match o with Some v => validate h v = true | None => True end).
    + eapply yields_bind with (P := fun _ => True); [intros s a r _ _; exact I|].
      intros [|] _; [eapply yields_pmap; [apply IH|auto]|apply yields_Ret; exact I].
    + intros [b|]; cbn [validate]; auto.
  - clear h. intros h IH. cbn [bde]. eapply yields_bind; [apply yields_u64|]. intros len _.
    apply yields_Alloc. eapply yields_pmap; [apply yields_repeatN, IH|]. intros l [_ HF]. cbn [validate].
    apply forallb_forall. rewrite Forall_forall in HF. exact HF.
  - clear h. intros h IH. cbn [bde]. eapply yields_bind; [apply yields_u64|]. intros len _.
    eapply yields_pmap with (P := Forall (fun kv : list N * body => True /\ validate h (snd kv) = true)).
    + unfold de_map_n. apply yields_foldN; [constructor|]. intros m Hm.
      eapply yields_bind with (P := fun _ => True); [intros s a r _ _; exact I|]. intros k _.
      eapply yields_bind; [apply IH|]. intros v Hv. apply yields_Ret.
      apply (map_insert_keys (fun _ => True) (fun b => validate h b = true)); auto.
    + intros m Hm. cbn [validate]. apply forallb_forall. rewrite Forall_forall in Hm. intros kv Hkv. apply (Hm kv Hkv).
  - clear h. intros hs IH. cbn [bde]. apply yields_Alloc.
    eapply yields_pmap with (P := Forall2 (fun h b => validate h b = true) hs).
    + assert (HF : Forall2 (yields c) (map (bde c) hs) (map (fun h b => validate h b = true) hs)).
      { clear - IH. induction IH; cbn [map]; constructor; assumption. }
      eapply yields_weaken; [apply yields_sequence, HF|]. intros l Hl.
      clear - Hl. revert l Hl; induction hs as [|d ds IH]; cbn [map]; intros l Hl; inversion Hl; subst; constructor; auto.
    + intros l Hl. apply (proj2 (all2_Forall2 hs l)). exact Hl.
  - clear h. intros hs IH. cbn [bde]. rewrite Forall_forall in IH.
    eapply yields_bind; [apply yields_u32|]. intros i Hi.
    rewrite as_usize_id by (destruct Hw as [[E|E] _]; rewrite E; [exact Hi|eapply N.lt_trans; [exact Hi|reflexivity]]).
    rewrite pickN_map. destruct (pickN hs i) as [h|] eqn:E; [|apply yields_Fail]. cbn [option_map].
    apply pickN_some in E as Hin. destruct Hin as [Hin _].
    eapply yields_pmap; [apply (IH h Hin)|]. intros b H1.
    change (validate (HEnum hs) (BEnum i b)) with (match pickN (map validate hs) i with Some f => f b | None => false end).
    rewrite pickN_map, E. exact H1.
Qed.

Lemma body_local c h : usize_bits c = 64 -> local c ERead (bde c h).
Proof.
  intros Hc. apply (header_ind2 (fun h => local c ERead (bde c h))).
  - clear h. intros h; destruct h; try exact I; cbn [bde].
    all: try (apply local_pmap; first [apply local_bool | apply local_byte | apply local_dec_u16 | apply local_dec_u32 | apply local_dec_u64
       | apply local_i8 | apply local_i16 | apply local_i32 | apply local_i64 | apply local_float | apply local_string, Hc
       | apply local_byte_buf | apply local_date | apply local_vec, local_byte]).
    + apply local_Ret.
    + apply local_pmap, local_bind; [apply local_vec, local_byte|]. intros [|b bs]; [apply local_Ret|].
      apply local_bind; [apply local_i64|intros; apply local_Ret].
    + apply local_pmap, local_bind; [apply local_i64|]. intros t. apply local_bind; [apply local_dec_u32|intros; apply local_Ret].
  - clear h. intros h IH. cbn [bde]. apply local_pmap, local_bind; [apply local_bool|]. intros [|]; [apply local_pmap, IH|apply local_Ret].
  - clear h. intros h IH. cbn [bde]. apply local_bind; [apply local_dec_u64|]. intros len. apply local_Alloc, local_pmap, local_repeatN, IH.
  - clear h. intros h IH. cbn [bde]. apply local_bind; [apply local_dec_u64|]. intros len. apply local_pmap, local_foldN.
    intros m. apply local_bind; [apply local_string, Hc|]. intros k. apply local_bind; [apply IH|]. intros; apply local_Ret.
  - clear h. intros hs IH. cbn [bde]. apply local_Alloc, local_pmap, local_sequence, Forall_map, IH.
  - clear h. intros hs IH. cbn [bde]. apply local_bind; [apply local_dec_u32|]. intros i. rewrite pickN_map.
    destruct (pickN hs (as_usize c i)) as [h|] eqn:E; [|apply local_Fail]. cbn [option_map]. apply pickN_some in E as [Hin _].
    rewrite Forall_forall in IH. apply local_pmap, IH, Hin.
Qed.

(** ** Size of the re-encoding *)
Definition bsize (c : cfg) (b : body) : N := wsize (bser c b).
Lemma consumes_big c : consumes c (de_big c) (fun bs n => wsize (ser (big_sval bs)) <= n).
Proof.
  eapply consumes_weaken; [apply consumes_vec_u8|]. cbv beta. intros bs n Hn. unfold big_sval.
  change (ser (SSeq None [vec_u8 bs])) with (wseq (ser (vec_u8 bs)) WDone).
  pose proof (wsize_wseq (ser (vec_u8 bs)) WDone). unfold vsize in Hn. change (wsize WDone) with 0 in *. lia.
Qed.
Lemma body_reencode c h : wf_cfg c -> 4096 <= heap_limit c ->
  consumes c (bde c h) (fun b n => bsize c b <= n).
Proof.
  intros Hw Hh. unfold bsize, bser. apply (header_ind2 (fun h => consumes c (bde c h) (fun b n => wsize (ser (body_sval c b)) <= n))).
  - clear h. intros h; destruct h; try exact I.
    + apply consumes_Ret. cbn; lia.
    + eapply consumes_pmap; [apply consumes_bool|]. cbv beta. intros b n Hn. cbn [body_sval ser]. rewrite wsize_wr. exact Hn.
    + eapply consumes_pmap; [apply consumes_byte|]. cbv beta. intros b n [Hn _]. cbn [body_sval ser]. rewrite wsize_wr. exact Hn.
    + eapply consumes_pmap; [apply consumes_u16|]. cbv beta. intros z n [Hn _]. cbn [body_sval ser]. unfold ser_u16. rewrite wsize_wr. exact Hn.
    + eapply consumes_pmap; [apply consumes_u32|]. cbv beta. intros z n [Hn _]. cbn [body_sval ser]. unfold ser_u32. rewrite wsize_wr. exact Hn.
    + eapply consumes_pmap; [apply consumes_u64|]. cbv beta. intros z n [Hn _]. cbn [body_sval ser]. unfold ser_u64. rewrite wsize_wr. exact Hn.
    + eapply consumes_pmap with (R := fun _ n => 1 <= n).
      * eapply consumes_pmap; [apply consumes_byte|]. cbv beta; tauto.
      * cbv beta. intros b n Hn. cbn [body_sval ser]. rewrite wsize_wr. exact Hn.
    + eapply consumes_pmap; [apply consumes_i16|]. cbv beta. intros z n [Hn _]. cbn [body_sval ser]. unfold ser_i16. rewrite wsize_wr. exact Hn.
    + eapply consumes_pmap; [apply consumes_i32|]. cbv beta. intros z n [Hn _]. cbn [body_sval ser]. unfold ser_i32. rewrite wsize_wr. exact Hn.
    + eapply consumes_pmap; [apply consumes_i64|]. cbv beta. intros z n [Hn _]. cbn [body_sval ser]. unfold ser_i64. rewrite wsize_wr. exact Hn.
    + eapply consumes_pmap; [apply consumes_float|]. cbv beta. intros z n ->. cbn [body_sval ser]. rewrite wsize_wr, lenN_le_bytes. lia.
    + eapply consumes_pmap; [apply consumes_float|]. cbv beta. intros z n ->. cbn [body_sval ser]. rewrite wsize_wr, lenN_le_bytes. lia.
    + eapply consumes_pmap; [apply consumes_big|]. auto.
    + eapply consumes_pmap; [apply consumes_big|]. auto.
    + eapply consumes_pmap with (R := fun p n => wsize (ser (big_decimal_sval (fst p) (snd p))) <= n); [|auto].
      eapply consumes_bind; [apply consumes_vec_u8|]. cbv beta. intros [|b bs] n Hn.
      * apply consumes_Ret. cbn [fst snd big_decimal_sval]. cbn in Hn |- *. lia.
      * eapply consumes_bind; [apply consumes_i64|]. cbv beta. intros z m [Hz _]. apply consumes_Ret. cbn [fst snd].
        destruct (big_decimal_ser b bs z) as [_ E]. unfold wsize. rewrite E, lenN_app. 
        unfold vsize, wsize in Hn. rewrite (proj2 (ser_vec_u8 (b :: bs))) in Hn. lia.
    + eapply consumes_pmap; [apply consumes_string|]. auto.
    + eapply consumes_pmap; [apply consumes_byte_buf; assumption|]. auto.
    + eapply consumes_pmap with (R := fun p n => wsize (ser (date_sval c (fst p) (snd p))) <= n); [|auto].
      eapply consumes_bind; [apply consumes_yields; [apply consumes_i32|apply yields_i32]|]. cbv beta. intros y0 n [[Hn _] Hy0].
      destruct (arith_s c 32 (y0 + YEAR_OFFSET)) as [y|] eqn:Ey; cbn [or_overflow bind]; [|apply consumes_Crash].
      eapply consumes_bind; [apply consumes_u16|]. cbv beta. intros o0 m (Hm & _ & Ho0).
      destruct (arith_u c 16 (Z.of_N o0 + Z.of_N ORDINAL_OFFSET)) as [o|] eqn:Eo; cbn [or_overflow bind]; [|apply consumes_Crash].
      apply consumes_Ret. cbn [fst snd]. unfold date_sval.
      rewrite (arith_s_inv _ _ _ Hy0 Ey), (arith_u_inv _ _ _ Ho0 Eo).
      unfold wsize. cbn [ser map wconcat fold_right ser_i32 ser_u16 wseq wr wbytes]. rewrite app_nil_r, lenN_app. lia.
    + eapply consumes_pmap with (R := fun p n => lenN (enc_u64 (enc_zigzag 64 (fst p))) + lenN (enc_u32 (snd p)) <= n).
      * eapply consumes_bind; [apply consumes_i64|]. cbv beta. intros t n [Ht _]. eapply consumes_bind; [apply consumes_u32|].
        cbv beta. intros m k [Hm _]. apply consumes_Ret. cbn [fst snd]. lia.
      * cbv beta. intros [t n] k Hk. unfold wsize. cbn [body_sval]. unfold date_time_sval.
        cbn [ser map wconcat fold_right snd fst ser_i64 ser_u32 wseq wr wbytes] in *. rewrite app_nil_r, lenN_app. lia.
  - clear h. intros h IH. cbn [bde].
    eapply consumes_pmap with (R := fun o n => match o with Some v => 1 + wsize (ser (body_sval c v)) <= n | None => 1 <= n end).
    + eapply consumes_bind; [apply consumes_bool|]. cbv beta. intros [|] n Hn.
      * eapply consumes_pmap; [apply IH|]. cbv beta. intros v m Hv; lia.
      * apply consumes_Ret; lia.
    + intros [v|] n Hn; cbn [body_sval ser]; rewrite ?wsize_wr; [|exact Hn].
      pose proof (wsize_wseq (wr [1]) (ser (body_sval c v))). rewrite wsize_wr in *. change (lenN [1]) with 1 in *. lia.
  - clear h. intros h IH. cbn [bde]. eapply consumes_bind; [apply consumes_u64|]. cbv beta. intros len n (Hn & _ & Hlen).
    apply consumes_Alloc. eapply consumes_pmap; [apply consumes_repeatN, IH|]. cbv beta. intros l m [<- Hm].
    cbn [body_sval ser ser_len]. rewrite map_map.
    pose proof (wsize_wseq (ser_u64 (lenN l)) (wconcat (map (fun b => ser (body_sval c b)) l))) as H1.
    pose proof (wsize_wconcat_map (fun b => ser (body_sval c b)) l) as H2. unfold ser_u64 in *. rewrite wsize_wr in H1. lia.
  - clear h. intros h IH. cbn [bde]. eapply consumes_bind; [apply consumes_u64|]. cbv beta. intros len k (Hk & _ & Hlen).
    eapply consumes_pmap; [apply consumes_map_n, IH|]. cbv beta. intros m n [Hl Hn].
    pose proof (enc_u64_mono (lenN m) len Hl Hlen) as Hm.
    cbn [body_sval ser ser_len]. rewrite map_map. cbn [fst snd ser_key].
    match goal with |- wsize (wseq ?a ?b) <= _ => pose proof (wsize_wseq a b) as H1 end.
    pose proof (wsize_wconcat_map (fun kv : list N * body => wseq (ser_str (fst kv)) (ser (body_sval c (snd kv)))) m) as H2.
    assert (H3 : sumN (fun kv : list N * body => wsize (wseq (ser_str (fst kv)) (ser (body_sval c (snd kv))))) m <=
                 sumN (fun kv => wsize (ser_str (fst kv)) + wsize (ser (body_sval c (snd kv)))) m).
    { apply sumN_le. intros kv _. apply wsize_wseq. }
    unfold ser_u64 in *. rewrite wsize_wr in H1. lia.
  - clear h. intros hs IH. cbn [bde]. apply consumes_Alloc. eapply consumes_pmap; [apply consumes_sequence, Forall_map, IH|].
    cbv beta. intros l n Hn. cbn [body_sval ser]. rewrite map_map.
    pose proof (wsize_wconcat_map (fun b => ser (body_sval c b)) l) as H2. lia.
  - clear h. intros hs IH. cbn [bde]. rewrite Forall_forall in IH.
    eapply consumes_bind; [apply consumes_u32|]. cbv beta. intros i n (Hi & _ & _). rewrite pickN_map.
    destruct (pickN hs (as_usize c i)) as [h|] eqn:E; [|apply consumes_Fail]. cbn [option_map]. apply pickN_some in E as [Hin _].
    eapply consumes_pmap; [apply (IH h Hin)|]. cbv beta. intros b m Hb. cbn [body_sval ser].
    pose proof (wsize_wseq (ser_u32 i) (ser (body_sval c b))) as G. unfold ser_u32 in *. rewrite wsize_wr in G. lia.
Qed.

(** ** How decoding can fail *)
Definition bpanic_of (c : cfg) (h : header) (q : panic) : Prop :=
  (q = POverflow /\ overflow_checks c = true /\ hoccurs is_hdate h = true) \/
  ((q = PCapacity \/ q = PAlloc) /\ (hoccurs is_harray h = true \/ hoccurs (is_bigtuple c) h = true)).
Lemma ends_bchild {A} c h h' (p : prog A) : ends c (eq ERead) (bpanic_of c h') p ->
  (forall f, hoccurs f h' = true -> hoccurs f h = true) -> ends c (eq ERead) (bpanic_of c h) p.
Proof.
  intros H Hf. eapply ends_weaken; [exact H|auto|]. intros q [(H1 & H2 & H3)|(H1 & [H2|H2])]; unfold bpanic_of; auto.
Qed.
Lemma ends_Alloc {A} c (E : derr -> Prop) (Q : panic -> Prop) n (k : prog A) :
  (forall q, alloc_result c n = Some q -> Q q) -> ends c E Q k -> ends c E Q (Alloc n k).
Proof.
  intros Hq Hk s Hs. cbn [run]. destruct (alloc_result c n) as [q|] eqn:Ea; [apply Hq; reflexivity|apply Hk, Hs].
Qed.
Lemma alloc_result_cases c n q : alloc_result c n = Some q -> q = PCapacity \/ q = PAlloc.
Proof. unfold alloc_result. destruct (_ <? _); [intros H; injection H as <-; auto|]. destruct (_ <? _); [intros H; injection H as <-; auto|discriminate]. Qed.
Lemma body_ends c h : wf_cfg c -> 4096 <= heap_limit c -> ends c (eq ERead) (bpanic_of c h) (bde c h).
Proof.
  intros Hw Hh. pose proof (eq_refl ERead) as He. apply (header_ind2 (fun h => ends c (eq ERead) (bpanic_of c h) (bde c h))).
  - clear h. intros h; destruct h; try exact I; cbn [bde].
    all: try (apply ends_pmap; first [apply ends_bool, He | apply ends_byte, He | apply ends_u16, He | apply ends_u32, He | apply ends_u64, He | apply ends_string, He | apply ends_byte_buf; auto
      | apply ends_pmap; first [apply ends_byte, He | apply ends_u16, He | apply ends_u32, He | apply ends_u64, He]
      | apply ends_ReadExact; [apply He|intros; apply ends_Ret]]).
    + apply ends_Ret.
    + apply ends_pmap, ends_vec; [apply He|apply ends_byte, He].
    + apply ends_pmap, ends_vec; [apply He|apply ends_byte, He].
    + apply ends_pmap, ends_bind; [apply ends_vec; [apply He|apply ends_byte, He]|]. intros [|b bs]; [apply ends_Ret|].
      apply ends_bind; [apply ends_pmap, ends_u64, He|]. intros; apply ends_Ret.
    + assert (Ho : overflow_checks c = true -> bpanic_of c HDate POverflow) by (intros; left; auto).
      apply ends_pmap, ends_bind; [apply ends_pmap, ends_u32, He|]. intros y0. apply ends_bind.
      { unfold arith_s. destruct (in_s _ _); [apply ends_Ret|]. destruct (overflow_checks c); [apply ends_Crash, Ho, eq_refl|apply ends_Ret]. }
      intros y. apply ends_bind; [apply ends_u16, He|]. intros o0. apply ends_bind.
      { unfold arith_u. destruct (_ && _); [apply ends_Ret|]. destruct (overflow_checks c); [apply ends_Crash, Ho, eq_refl|apply ends_Ret]. }
      intros o. apply ends_Ret.
    + apply ends_pmap, ends_bind; [apply ends_pmap, ends_u64, He|]. intros t. apply ends_bind; [apply ends_u32, He|]. intros; apply ends_Ret.
  - clear h. intros h IH. cbn [bde]. apply ends_pmap, ends_bind; [apply ends_bool, He|]. intros [|]; [|apply ends_Ret]. apply ends_pmap.
    eapply ends_bchild; [apply IH|]. intros f Hf; cbn [hoccurs]; rewrite Hf; apply orb_true_r.
  - clear h. intros h IH. cbn [bde]. apply ends_bind; [apply ends_u64, He|]. intros len. apply ends_Alloc.
    + intros q Hq. right. split; [eapply alloc_result_cases, Hq|left; reflexivity].
    + apply ends_pmap, ends_repeatN. eapply ends_bchild; [apply IH|]. intros f Hf; cbn [hoccurs]; rewrite Hf; apply orb_true_r.
  - clear h. intros h IH. cbn [bde]. apply ends_bind; [apply ends_u64, He|]. intros len. apply ends_pmap, ends_foldN. intros m.
    apply ends_bind; [apply ends_string, He|]. intros k. apply ends_bind; [|intros; apply ends_Ret].
    eapply ends_bchild; [apply IH|]. intros f Hf; cbn [hoccurs]; rewrite Hf; apply orb_true_r.
  - clear h. intros hs IH. cbn [bde]. apply ends_Alloc.
    + intros q Hq. right. split; [eapply alloc_result_cases, Hq|right]. cbn [hoccurs is_bigtuple].
      destruct (vec_room c (lenN hs)) eqn:E; [|reflexivity]. apply vec_room_alloc in E. congruence.
    + apply ends_pmap, ends_sequence, Forall_map, Forall_forall. intros h Hin. rewrite Forall_forall in IH.
      eapply ends_bchild; [apply (IH h Hin)|]. intros f Hf; cbn [hoccurs]. rewrite (existsb_In _ _ _ Hin Hf). apply orb_true_r.
  - clear h. intros hs IH. cbn [bde]. apply ends_bind; [apply ends_u32, He|]. intros i. rewrite pickN_map.
    destruct (pickN hs (as_usize c i)) as [h|] eqn:E; [|apply ends_Fail, He]. cbn [option_map]. apply pickN_some in E as [Hin _].
    rewrite Forall_forall in IH. apply ends_pmap.
    eapply ends_bchild; [apply (IH h Hin)|]. intros f Hf; cbn [hoccurs]. rewrite (existsb_In _ _ _ Hin Hf). apply orb_true_r.
Qed.

Lemma array_run c h n rest : n < 2 ^ 64 ->
  run c (bde c (HArray h)) (varint_bytes 8 n ++ rest) =
  match alloc_result c (as_usize c n * size_of_body c) with
  | Some q => OPanic q
  | None => run c (pmap BArray (repeatN n (bde c h))) rest
  end.
Proof.
  intros Hn. cbn [bde]. rewrite run_bind, <- enc_u64_spec by exact Hn.
  rewrite (proj1 (parses_u64 c ERead n Hn)). reflexivity.
Qed.

(** ** Memory requests of headers without arrays *)
Lemma small_mono {A} B B' (p : prog A) : B <= B' -> small B p -> small B' p.
Proof.
  intros HB. induction p as [a|e|q|n e k IH|n e k IH|n k IH]; cbn [small]; auto.
  - intros [H1 H2]. split; [lia|auto].
  - intros [H1 H2]. split; [lia|auto].
Qed.
Lemma existsb_false {A} (f : A -> bool) l a : existsb f l = false -> In a l -> f a = false.
Proof.
  intros H Hin. destruct (f a) eqn:E; [|reflexivity]. rewrite (existsb_In f l a Hin E) in H. discriminate.
Qed.
Lemma body_small c B h : 4096 <= B -> hoccurs is_harray h = false -> hoccurs (is_tuple_over B c) h = false ->
  small B (bde c h).
Proof.
  intros HB. assert (Hm : forall A (p : prog A), small 4096 p -> small B p) by (intros A p; apply small_mono, HB).
  apply (header_ind2 (fun h => hoccurs is_harray h = false -> hoccurs (is_tuple_over B c) h = false -> small B (bde c h))).
  - clear h. intros h; destruct h; try exact I; intros _ _; apply Hm; cbn [bde].
    all: try (apply small_pmap; first [apply small_bool | apply small_byte | apply small_u16 | apply small_u32 | apply small_u64
       | apply small_string | apply small_byte_buf | apply small_vec, small_byte
       | apply small_pmap; first [apply small_byte | apply small_u16 | apply small_u32 | apply small_u64]
       | split; [lia|intros; exact I]]).
    + exact I.
    + apply small_pmap, small_bind; [apply small_vec, small_byte|]. intros [|b bs]; [exact I|].
      apply small_bind; [apply small_pmap, small_u64|intros; exact I].
    + apply small_pmap, small_bind; [apply small_pmap, small_u32|]. intros y0. apply small_bind; [destruct (arith_s _ _ _); exact I|].
      intros y. apply small_bind; [apply small_u16|]. intros o0. apply small_bind; [destruct (arith_u _ _ _); exact I|intros; exact I].
    + apply small_pmap, small_bind; [apply small_pmap, small_u64|]. intros t. apply small_bind; [apply small_u32|intros; exact I].
  - clear h. intros h IH H1 H2. cbn [bde hoccurs is_harray is_tuple_over orb] in *. apply small_pmap, small_bind; [apply Hm, small_bool|].
    intros [|]; [apply small_pmap, IH; assumption|exact I].
  - intros h' _ H1. discriminate.
  - clear h. intros h IH H1 H2. cbn [bde hoccurs is_harray is_tuple_over orb] in *. apply small_bind; [apply Hm, small_u64|]. intros len.
    apply small_pmap, small_foldN. intros m. apply small_bind; [apply Hm, small_string|]. intros k. apply small_bind; [apply IH; assumption|intros; exact I].
  - clear h. intros hs IH H1 H2. cbn [bde hoccurs is_harray is_tuple_over] in *. apply orb_false_elim in H2 as [H0 H2]. cbn [orb] in H1.
    split; [lia|]. apply small_pmap, small_sequence, Forall_map, Forall_forall. intros h Hin. rewrite Forall_forall in IH.
    apply (IH h Hin); [exact (existsb_false _ _ _ H1 Hin)|exact (existsb_false _ _ _ H2 Hin)].
  - clear h. intros hs IH H1 H2. cbn [bde hoccurs is_harray is_tuple_over orb] in *. apply small_bind; [apply Hm, small_u32|]. intros i.
    rewrite pickN_map. destruct (pickN hs (as_usize c i)) as [h|] eqn:E; [|exact I]. cbn [option_map]. apply pickN_some in E as [Hin _].
    rewrite Forall_forall in IH. apply small_pmap, (IH h Hin); [exact (existsb_false _ _ _ H1 Hin)|exact (existsb_false _ _ _ H2 Hin)].
Qed.

(** ** Wire format *)
Lemma i8_byte_spec z : i8_byte z = Z.to_N (z mod 256).
Proof. reflexivity. Qed.
Lemma concat_map_flat_map {A B} (f : A -> list B) l : concat (map f l) = flat_map f l.
Proof. symmetry; apply flat_map_concat_map. Qed.
Lemma body_wire c b : wf_cfg c -> body_ok c b = true -> dates_plain b = true ->
  wresult (bser c b) = WeOk /\ wbytes (bser c b) = body_bytes b.
Proof.
  intros Hw. assert (HL : forall n, usize_ok c n = true -> enc_u64 n = varint_bytes 8 n).
  { intros n Hn. apply enc_u64_spec, (lt_usize_64 c); [exact Hw|apply N.ltb_lt, Hn]. }
  assert (HZ32 : forall z, in_s 32 z = true -> enc_u32 (enc_zigzag 32 z) = varint_bytes 4 (zigzag z)).
  { intros z Hz. rewrite enc_zigzag_spec by (exact Hz || lia). apply enc_u32_spec, zigzag_bound; [lia|exact Hz]. }
  assert (HZ64 : forall z, in_s 64 z = true -> enc_u64 (enc_zigzag 64 z) = varint_bytes 8 (zigzag z)).
  { intros z Hz. rewrite enc_zigzag_spec by (exact Hz || lia). apply enc_u64_spec, zigzag_bound; [lia|exact Hz]. }
  unfold body_ok, dates_plain, bser. revert b. apply (body_ind2 (fun b => every (node_ok c) b = true ->
    every (fun b => match b with BDate y o => in_s 32 (y - 2000) && (1 <=? o) | _ => true end) b = true ->
    wresult (ser (body_sval c b)) = WeOk /\ wbytes (ser (body_sval c b)) = body_bytes b)).
  - intros b; destruct b as [|[ob|]|b|n|n|n|n|z|z|z|z|n|n|bs|bs|bs s|bs|bs|l|l|m|i b|y o|t n]; try exact I; cbn [every node_ok]; rewrite ?andb_true_r;
      intros Hok Hd; cbn [body_sval body_bytes].
    + split; reflexivity.
    + split; reflexivity.
    + split; reflexivity.
    + split; reflexivity.
    + split; [reflexivity|]. cbn [ser ser_u16 wr wbytes]; rewrite app_nil_r. apply enc_u16_spec, N.ltb_lt, Hok.
    + split; [reflexivity|]. cbn [ser ser_u32 wr wbytes]; rewrite app_nil_r. apply enc_u32_spec, N.ltb_lt, Hok.
    + split; [reflexivity|]. cbn [ser ser_u64 wr wbytes]; rewrite app_nil_r. apply enc_u64_spec, N.ltb_lt, Hok.
    + split; reflexivity.
    + split; [reflexivity|]. cbn [ser ser_i16 wr wbytes]; rewrite app_nil_r. rewrite enc_zigzag_spec by (exact Hok || lia).
      apply enc_u16_spec, zigzag_bound; [lia|exact Hok].
    + split; [reflexivity|]. cbn [ser ser_i32 wr wbytes]; rewrite app_nil_r. apply HZ32, Hok.
    + split; [reflexivity|]. cbn [ser ser_i64 wr wbytes]; rewrite app_nil_r. apply HZ64, Hok.
    + split; [reflexivity|]. cbn [ser wr wbytes]; rewrite app_nil_r. apply le_bytes_digits.
    + split; [reflexivity|]. cbn [ser wr wbytes]; rewrite app_nil_r. apply le_bytes_digits.
    + destruct (big_ser bs) as [H1 H2]. rewrite H2. apply andb_prop in Hok as [_ Hok]. rewrite (HL _ Hok). auto.
    + destruct (big_ser bs) as [H1 H2]. rewrite H2. apply andb_prop in Hok as [_ Hok]. rewrite (HL _ Hok). auto.
    + apply andb_prop in Hok as [Hok _]. apply andb_prop in Hok as [Hok Hs]. apply andb_prop in Hok as [_ Hok].
      destruct bs as [|x bs]; [split; reflexivity|]. destruct (big_decimal_ser x bs s) as [H1 H2]. rewrite H2, (HL _ Hok), (HZ64 _ Hs). auto.
    + split; [reflexivity|]. cbn [ser ser_str ser_u64 wseq wr wbytes]; rewrite app_nil_r. apply andb_prop in Hok as [_ Hok]. rewrite (HL _ Hok). auto.
    + split; [reflexivity|]. cbn [ser ser_bytes ser_u64 wseq wr wbytes]; rewrite app_nil_r. apply andb_prop in Hok as [_ Hok]. rewrite (HL _ Hok). auto.
    + apply andb_prop in Hd as [Hy Ho]. apply andb_prop in Hok as [_ Hok]. unfold date_sval, arith_s, arith_u, YEAR_OFFSET, ORDINAL_OFFSET.
      rewrite Hy. change (2 ^ Z.of_N 16)%Z with 65536%Z. change (2 ^ 16) with 65536 in Hok.
      destruct ((0 <=? Z.of_N o - Z.of_N 1) && (Z.of_N o - Z.of_N 1 <? 65536))%Z eqn:E; [|lia].
      cbn [ser map wconcat fold_right ser_i32 ser_u16 wseq wr wbytes]. rewrite app_nil_r, (HZ32 _ Hy). split; [reflexivity|].
      f_equal. replace (Z.to_N (Z.of_N o - Z.of_N 1)) with (o - 1) by lia. apply enc_u16_spec. change (2 ^ 16) with 65536. lia.
    + apply andb_prop in Hok as [H1 H2]. cbn [date_time_sval ser map wconcat fold_right snd ser_i64 ser_u32 wseq wr wbytes].
      rewrite app_nil_r, (HZ64 _ H1), enc_u32_spec by (apply N.ltb_lt, H2). auto.
  - intros b IH. cbn [every node_ok andb]. intros Hok Hd. destruct (IH Hok Hd) as [H1 H2]. cbn [body_sval ser body_bytes].
    rewrite wbytes_seq_wr, wresult_seq_wr, H2. auto.
  - intros l IH. cbn [every node_ok andb]. intros Hok Hd. apply andb_prop in Hok as [Hl Hok]. rewrite forallb_forall in Hok, Hd. rewrite Forall_forall in IH.
    assert (HF : Forall (fun b => wresult (ser (body_sval c b)) = WeOk) l) by (apply Forall_forall; intros b Hb; apply (IH b Hb); auto).
    apply (wconcat_ok (fun b => ser (body_sval c b))) in HF as [H1 H2].
    cbn [body_sval ser ser_len body_bytes]. unfold ser_u64. rewrite wbytes_seq_wr, wresult_seq_wr, map_map, H2, (HL _ Hl). split; [exact H1|].
    f_equal. rewrite <- concat_map_flat_map. f_equal. apply map_ext_in. intros b Hb. apply (IH b Hb); auto.
  - intros l IH. cbn [every node_ok andb]. intros Hok Hd. rewrite forallb_forall in Hok, Hd. rewrite Forall_forall in IH.
    assert (HF : Forall (fun b => wresult (ser (body_sval c b)) = WeOk) l) by (apply Forall_forall; intros b Hb; apply (IH b Hb); auto).
    apply (wconcat_ok (fun b => ser (body_sval c b))) in HF as [H1 H2].
    cbn [body_sval ser body_bytes]. rewrite map_map, H2. split; [exact H1|].
    rewrite <- concat_map_flat_map. f_equal. apply map_ext_in. intros b Hb. apply (IH b Hb); auto.
  - intros m IH. cbn [every node_ok andb]. intros Hok Hd. apply andb_prop in Hok as [Hl Hok]. apply andb_prop in Hl as [Hl Hk].
    apply andb_prop in Hl as [Hl _]. rewrite forallb_forall in Hok, Hd, Hk. rewrite Forall_forall in IH.
    destruct (wconcat_ok (fun kv => wseq (ser_str (fst kv)) (ser (body_sval c (snd kv)))) m) as [H1 H2].
    { apply Forall_forall; intros kv Hkv. unfold ser_str, ser_u64. cbn [wseq wr wresult]. apply (IH kv Hkv); auto. }
    cbn [body_sval ser ser_len body_bytes]. unfold ser_u64. rewrite wbytes_seq_wr, wresult_seq_wr, map_map. cbn [fst snd ser_key].
    rewrite H2, (HL _ Hl). split; [exact H1|]. f_equal. rewrite <- concat_map_flat_map. f_equal. apply map_ext_in. intros kv Hkv.
    unfold ser_str, ser_u64. cbn [wseq wr wbytes]. specialize (Hk kv Hkv). apply andb_prop in Hk as [_ Hk]. rewrite (HL _ Hk).
    destruct (IH kv Hkv (Hok kv Hkv) (Hd kv Hkv)) as [_ ->]. apply app_assoc.
  - intros i b IH. cbn [every node_ok andb]. intros Hok Hd. apply andb_prop in Hok as [Hi Hok]. destruct (IH Hok Hd) as [H1 H2].
    cbn [body_sval ser body_bytes]. unfold ser_u32. rewrite wbytes_seq_wr, wresult_seq_wr, H2, enc_u32_spec by (apply N.ltb_lt, Hi). auto.
Qed.

(** ** Messages *)
Lemma messages_stream c depth ms rest : wf_cfg c -> 4096 <= heap_limit c -> room c ->
  Forall (fun m => counts_fit (fst m) = true /\ (hdepth (fst m) <= depth)%nat /\ good c (fst m) (snd m)) ms ->
  reads_messages c depth (flat_map (message_bytes c) ms ++ rest) ms rest.
Proof.
  intros Hc Hh Hr. induction 1 as [|[h b] ms (H1 & H2 & H3 & H4 & H5) HF IH]; cbn [flat_map app]; [constructor|].
  cbn [fst snd] in *. unfold message_bytes at 1. cbn [fst snd]. rewrite <- !app_assoc. econstructor.
  - exact (proj2 (hde_roundtrip c depth h _ Hr H1 H2)).
  - exact (proj1 (proj2 (body_roundtrip c h b Hc Hh H3 H4 H5)) _).
  - exact IH.
Qed.
Lemma reads_messages_det c depth s ms r ms' r' :
  reads_messages c depth s ms r -> reads_messages c depth s ms' r' -> length ms = length ms' -> ms = ms' /\ r = r'.
Proof.
  intros H; revert ms' r'. induction H as [s|s h s1 b s2 ms r H1 H2 H3 IH]; intros ms' r' H' Hl; inversion H'; subst; try discriminate; [auto|].
  rewrite H1 in H; injection H as <- <-. rewrite H2 in H0; injection H0 as <- <-.
  apply IH in H4 as [-> ->]; [auto|]. cbn [length] in Hl; lia.
Qed.

(** ** Number of nodes of a decoded body *)
Lemma consumes_rep_mul {A} c n (p : prog A) (f : A -> N) K :
  consumes c p (fun a m => f a <= K * m) -> consumes c (rep n p) (fun l m => sumN f l <= K * m).
Proof.
  intros H; induction n as [|n IH]; cbn [rep]; [apply consumes_Ret; cbn; lia|].
  eapply consumes_bind; [exact H|]. cbv beta. intros a m Ha. eapply consumes_bind; [exact IH|]. cbv beta. intros l k Hl.
  apply consumes_Ret. cbn [sumN]. nia.
Qed.
Lemma consumes_sequence_mul {A H} c (g : H -> prog A) (w : H -> N) (f : A -> N) hs :
  Forall (fun h => consumes c (g h) (fun a m => f a <= w h * N.max 1 m)) hs ->
  consumes c (sequence (map g hs)) (fun l m => sumN f l <= sumN w hs * N.max 1 m).
Proof.
  induction 1 as [|h hs Hh HF IH]; cbn [map sequence]; [apply consumes_Ret; cbn; lia|].
  eapply consumes_bind; [exact Hh|]. cbv beta. intros a m Ha. eapply consumes_bind; [exact IH|]. cbv beta. intros l k Hl.
  apply consumes_Ret. cbn [sumN]. nia.
Qed.
Lemma iter_map_pos {A} c n (p : prog A) (f : A -> N) K :
  consumes c p (fun a m => f a <= K * N.max 1 m) ->
  consumes c (iter n (fun m : list (list N * A) => k <- de_string c ;; v <- p ;; Ret (map_insert k v m)) [])
    (fun m n => sumN (fun kv => f (snd kv)) m <= K * n).
Proof.
  intros Hp. apply (consumes_iter c n _ _ (fun _ m n => sumN (fun kv : list N * A => f (snd kv)) m <= K * n)); [cbn; lia|].
  intros _ m k Hm. eapply consumes_bind with (R := fun _ n => 1 <= n).
  - rewrite de_string_unfold. apply consumes_then. eapply consumes_weaken; [apply consumes_u64|]. cbv beta. tauto.
  - cbv beta. intros key n1 H1. eapply consumes_bind; [exact Hp|]. cbv beta. intros v n2 H2. apply consumes_Ret.
    pose proof (map_insert_sum (fun kv => f (snd kv)) key v m) as H3. cbn [snd] in H3. nia.
Qed.

Lemma hoccupies_pos c h : hoccupies h = true -> consumes c (bde c h) (fun _ n => 1 <= n).
Proof.
  apply (header_ind2 (fun h => hoccupies h = true -> consumes c (bde c h) (fun _ n => 1 <= n))).
  - clear h. intros h; destruct h; try exact I; cbn [hoccupies]; intros Ho; try discriminate; cbn [bde].
    all: try (eapply consumes_pmap; [first [apply consumes_bool | apply consumes_byte | apply consumes_u16 | apply consumes_u32 | apply consumes_u64
       | apply consumes_i16 | apply consumes_i32 | apply consumes_i64]|cbv beta; tauto]).
    + eapply consumes_pmap with (R := fun _ n => 1 <= n); [|auto]. eapply consumes_pmap; [apply consumes_byte|]. cbv beta; tauto.
    + eapply consumes_pmap; [apply consumes_float|]. cbv beta; intros _ n ->; lia.
    + eapply consumes_pmap; [apply consumes_float|]. cbv beta; intros _ n ->; lia.
    + eapply consumes_pmap with (R := fun _ n => 1 <= n); [|auto]. apply consumes_then. eapply consumes_weaken; [apply consumes_u64|cbv beta; tauto].
    + eapply consumes_pmap with (R := fun _ n => 1 <= n); [|auto]. apply consumes_then. eapply consumes_weaken; [apply consumes_u64|cbv beta; tauto].
    + eapply consumes_pmap with (R := fun _ n => 1 <= n); [|auto]. apply consumes_then, consumes_then. eapply consumes_weaken; [apply consumes_u64|cbv beta; tauto].
    + eapply consumes_pmap with (R := fun _ n => 1 <= n); [|auto]. rewrite de_string_unfold. apply consumes_then. eapply consumes_weaken; [apply consumes_u64|cbv beta; tauto].
    + eapply consumes_pmap with (R := fun _ n => 1 <= n); [|auto]. rewrite de_byte_buf_unfold. apply consumes_then. eapply consumes_weaken; [apply consumes_u64|cbv beta; tauto].
    + eapply consumes_pmap with (R := fun _ n => 1 <= n); [|auto]. apply consumes_then. eapply consumes_weaken; [apply consumes_i32|cbv beta; tauto].
    + eapply consumes_pmap with (R := fun _ n => 1 <= n); [|auto]. apply consumes_then. eapply consumes_weaken; [apply consumes_i64|cbv beta; tauto].
  - clear h. intros h _ _. cbn [bde]. eapply consumes_pmap with (R := fun _ n => 1 <= n); [|auto]. apply consumes_then, consumes_bool.
  - clear h. intros h _ _. cbn [bde]. apply consumes_then. eapply consumes_weaken; [apply consumes_u64|cbv beta; tauto].
  - clear h. intros h _ _. cbn [bde]. apply consumes_then. eapply consumes_weaken; [apply consumes_u64|cbv beta; tauto].
  - clear h. intros hs IH. cbn [hoccupies bde]. intros Ho. apply existsb_exists in Ho as (h & Hin & Ho). rewrite Forall_forall in IH.
    apply consumes_Alloc. eapply consumes_pmap with (R := fun _ n => 1 <= n); [|auto].
    apply (consumes_pos_sequence c _ (bde c h)); [apply in_map, Hin|apply (IH h Hin Ho)].
  - clear h. intros hs _ _. cbn [bde]. apply consumes_then. eapply consumes_weaken; [apply consumes_u32|cbv beta; tauto].
Qed.

Lemma list_sum_sumN {A} (f : A -> nat) l : N.of_nat (list_sum (map f l)) = sumN (fun a => N.of_nat (f a)) l.
Proof. induction l as [|a l IH]; [reflexivity|]. cbn [map list_sum fold_right sumN]. fold (list_sum (map f l)). lia. Qed.

Lemma body_nodes_bound c h : hoccurs is_free_array h = false ->
  consumes c (bde c h) (fun b n => N.of_nat (nodes b) <= N.of_nat (hsize h) * N.max 1 n).
Proof.
  assert (Hleaf : forall (p : prog body), yields c p (fun b => nodes b = 1%nat) ->
     consumes c p (fun b n => N.of_nat (nodes b) <= N.of_nat 1 * N.max 1 n)).
  { intros p Hy. eapply consumes_weaken; [exact (consumes_yields c p _ _ (consumes_any c p) Hy)|]. cbv beta. intros b n [_ ->]. lia. }
  assert (Hy : forall A (p : prog A) (g : A -> body), (forall a, nodes (g a) = 1%nat) -> yields c (pmap g p) (fun b => nodes b = 1%nat)).
  { intros A p g Hg. apply (yields_pmap c p g (fun _ => True)); [intros s a r _ _; exact I|]. intros a _; apply Hg. }
  apply (header_ind2 (fun h => hoccurs is_free_array h = false ->
    consumes c (bde c h) (fun b n => N.of_nat (nodes b) <= N.of_nat (hsize h) * N.max 1 n))).
  - clear h. intros h; destruct h; try exact I; intros _; cbn [hsize]; apply Hleaf; cbn [bde];
      first [apply Hy; reflexivity | apply yields_Ret; reflexivity].
  - clear h. intros h IH Ho. cbn [hoccurs is_free_array orb] in Ho. cbn [bde hsize].
    eapply consumes_pmap with (R := fun o n => match o with Some v => N.of_nat (nodes v) <= N.of_nat (hsize h) * N.max 1 n | None => True end).
    + eapply consumes_bind; [apply consumes_any|]. cbv beta. intros [|] n _; [|apply consumes_Ret; exact I].
      eapply consumes_pmap; [apply IH, Ho|]. cbv beta. intros b m Hb. nia.
    + intros [b|] n Hb; cbn [nodes]; nia.
  - clear h. intros h IH Ho. cbn [hoccurs is_free_array] in Ho. apply orb_false_elim in Ho as [Hf Ho]. cbn [bde hsize].
    eapply consumes_bind with (R := fun _ n => 1 <= n); [eapply consumes_weaken; [apply consumes_u64|cbv beta; tauto]|].
    cbv beta. intros len n Hn. apply consumes_Alloc.
    eapply consumes_pmap with (R := fun l m => sumN (fun b => N.of_nat (nodes b)) l <= N.of_nat (hsize h) * m).
    + eapply consumes_ext; [intros; apply run_repeatN|]. apply consumes_rep_mul.
      intros s b r Hs H. destruct (IH Ho s b r Hs H) as (m & E & Hm).
      destruct (hoccupies_pos c h ltac:(destruct (hoccupies h); [reflexivity|discriminate]) s b r Hs H) as (m' & E' & Hm').
      exists m. split; [exact E|]. replace (N.max 1 m) with m in Hm by lia. exact Hm.
    + cbv beta. intros l m Hm. cbn [nodes]. rewrite <- list_sum_sumN in Hm. nia.
  - clear h. intros h IH Ho. cbn [hoccurs is_free_array orb] in Ho. cbn [bde hsize].
    eapply consumes_bind with (R := fun _ n => 1 <= n); [eapply consumes_weaken; [apply consumes_u64|cbv beta; tauto]|].
    cbv beta. intros len n Hn.
    eapply consumes_pmap with (R := fun m k => sumN (fun kv => N.of_nat (nodes (snd kv))) m <= N.of_nat (hsize h) * k).
    + eapply consumes_ext; [intros; apply run_foldN|]. apply (iter_map_pos c _ (bde c h) (fun b => N.of_nat (nodes b))), IH, Ho.
    + cbv beta. intros m k Hm. cbn [nodes]. rewrite <- (list_sum_sumN (fun kv : list N * body => nodes (snd kv))) in Hm. nia.
  - clear h. intros hs IH Ho. cbn [hoccurs is_free_array orb] in Ho. cbn [bde hsize]. apply consumes_Alloc.
    eapply consumes_pmap; [apply (consumes_sequence_mul c (bde c) (fun h => N.of_nat (hsize h)) (fun b => N.of_nat (nodes b)) hs)|].
    + rewrite Forall_forall in IH |- *. intros h Hin. apply (IH h Hin). exact (existsb_false _ _ _ Ho Hin).
    + cbv beta. intros l m Hm. cbn [nodes]. rewrite <- !list_sum_sumN in Hm. nia.
  - clear h. intros hs IH Ho. cbn [hoccurs is_free_array orb] in Ho. cbn [bde hsize].
    eapply consumes_bind with (R := fun _ n => 1 <= n); [eapply consumes_weaken; [apply consumes_u32|cbv beta; tauto]|].
    cbv beta. intros i n Hn. rewrite pickN_map. destruct (pickN hs (as_usize c i)) as [h|] eqn:E; [|apply consumes_Fail].
    cbn [option_map]. apply pickN_some in E as [Hin _]. rewrite Forall_forall in IH.
    eapply consumes_pmap; [apply (IH h Hin); exact (existsb_false _ _ _ Ho Hin)|]. cbv beta. intros b m Hb. cbn [nodes].
    assert (Hsz : (hsize h <= list_sum (map hsize hs))%nat).
    { clear - Hin. induction hs as [|x hs IH]; [destruct Hin|]. cbn [map list_sum fold_right]. fold (list_sum (map hsize hs)).
      destruct Hin as [->|Hin]; [lia|]. apply IH in Hin; lia. }
    nia.
Qed.

Lemma unit_array c n rest : vec_room c n = true -> n < 2 ^ usize_bits c -> n < 2 ^ 64 ->
  run c (bde c (HArray HUnit)) (varint_bytes 8 n ++ rest) = OOk (BArray (repeat BUnit (N.to_nat n))) rest.
Proof.
  intros Hr Hu Hn. rewrite array_run by exact Hn. rewrite as_usize_id by exact Hu. apply vec_room_alloc in Hr. rewrite Hr.
  rewrite run_pmap, run_repeatN. cbn [bde].
  assert (E : forall k, run c (rep k (Ret BUnit)) rest = OOk (repeat BUnit k) rest).
  { induction k as [|k IH]; [reflexivity|]. cbn [rep bind repeat]. rewrite run_bind, IH. reflexivity. }
  rewrite E. reflexivity.
Qed.

(** ** Requests *)
Lemma requests_bind {A B} c (p : prog A) (f : A -> prog B) s :
  requests c (bind p f) s =
  requests c p s ++ match run c p s with OOk a r => requests c (f a) r | _ => [] end.
Proof.
  revert s; induction p as [a|e|q|n e k IH|n e k IH|n k IH]; intros s; cbn [bind requests run app]; try reflexivity.
  - destruct (lenN s <? n); [reflexivity|]. rewrite IH. reflexivity.
  - apply IH.
  - destruct (alloc_result c n); [reflexivity|]. rewrite IH. reflexivity.
Qed.
Lemma array_request c h n rest : n < 2 ^ 64 ->
  In (as_usize c n * size_of_body c) (requests c (bde c (HArray h)) (varint_bytes 8 n ++ rest)).
Proof.
  intros Hn. cbn [bde]. rewrite requests_bind. apply in_or_app; right.
  pose proof (enc_u64_spec n Hn) as E. rewrite <- E.
  rewrite (proj1 (parses_u64 c ERead n Hn)). cbn [requests]. left; reflexivity.
Qed.
