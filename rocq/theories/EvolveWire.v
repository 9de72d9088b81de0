(** * Types that write alike, and types that grow: proofs. *)
From Coq Require Import String.
From Verif Require Import Base BaseFacts Varint SpecVarint VarintFacts Utf8 SpecUtf8 Utf8Facts PrimFacts Serde Typing SpecMap
  SpecDty SerdeFacts SerdeMore MapFacts TextFacts SerdeProps Header SpecHeader HeaderFacts.
Local Open Scope list_scope.
Local Open Scope N_scope.

(** ** Byte buffers, vectors of u8, strings *)
Lemma rep_u8 c n t : run c (rep n (pmap SU8 de_u8)) t =
  if (length t <? n)%nat then OErr ERead else OOk (map SU8 (firstn n t)) (skipn n t).
Proof.
  revert t; induction n as [|n IH]; intros t; cbn [rep]; [reflexivity|].
  rewrite run_bind, run_pmap. destruct t as [|b t]; [reflexivity|].
  unfold de_u8. rewrite run_byte. cbn [obind]. rewrite run_bind, IH.
  change (length (b :: t) <? S n)%nat with (length t <? n)%nat.
  destruct (length t <? n)%nat; reflexivity.
Qed.
Lemma vec_u8_run c s : usize_bits c = 64 -> bytes_ok s ->
  run c (de c (DVec DU8)) s =
  match run c (dec_u64 ERead) s with
  | OOk n t => if lenN t <? n then OErr ERead else OOk (vec_u8 (takeN n t)) (dropN n t)
  | OErr e => OErr e | OPanic p => OPanic p
  end.
Proof.
  intros Hc Hs. cbn [de]. rewrite run_pmap. unfold de_vec. rewrite run_bind.
  destruct (run c (dec_u64 ERead) s) as [n t|e|p] eqn:E; cbn [obind]; [|reflexivity..].
  pose proof (yields_u64 c ERead s n t Hs E) as Hn. rewrite as_usize_id by (rewrite Hc; exact Hn).
  rewrite run_repeatN, rep_u8.
  destruct (Nat.ltb_spec (length t) (N.to_nat n)); destruct (N.ltb_spec (lenN t) n); try (unfold lenN in *; lia);
    cbn [obind]; [reflexivity|].
  unfold vec_u8. rewrite takeN_firstn, dropN_skipn, lenN_map. reflexivity.
Qed.
Lemma vec_u8_inj a b : vec_u8 a = vec_u8 b -> a = b.
Proof.
  unfold vec_u8. intros H. injection H as _ H. revert b H; induction a as [|x a IH]; intros [|y b] H; try discriminate; [reflexivity|].
  cbn [map] in H. injection H as -> H. f_equal; auto.
Qed.
Lemma vec_u8_ok_run c s bs r : usize_bits c = 64 -> bytes_ok s ->
  run c (de c (DVec DU8)) s = OOk (vec_u8 bs) r <->
  exists n, run c (de c DU64) s = OOk (SU64 n) (bs ++ r) /\ lenN bs = n.
Proof.
  intros Hc Hs. rewrite vec_u8_run by assumption. split.
  - destruct (run c (dec_u64 ERead) s) as [n t|e|p] eqn:E; [|discriminate..].
    destruct (N.ltb_spec (lenN t) n); [discriminate|]. intros H'. injection H' as H0 H1 <-.
    assert (H2 : vec_u8 (takeN n t) = vec_u8 bs) by (unfold vec_u8; congruence). apply vec_u8_inj in H2. subst bs.
    exists n. rewrite take_drop. split; [apply run_len_ok; exact E|]. rewrite lenN_takeN. lia.
  - intros (n & H1 & H2). apply run_len_ok in H1. rewrite H1. subst n. rewrite lenN_app, takeN_app, dropN_app.
    destruct (N.ltb_spec (lenN bs + lenN r) (lenN bs)); [lia|reflexivity].
Qed.
Lemma dec_u64_total c s : bytes_ok s ->
  (exists n t, run c (dec_u64 ERead) s = OOk n t) \/ run c (dec_u64 ERead) s = OErr ERead.
Proof.
  intros Hs. rewrite dec_u64_run by (apply bytes_guard, Hs). destruct s as [|p t]; [right; reflexivity|]. cbn [varint_run].
  destruct (lenN t <? _); [right; reflexivity|left; do 2 eexists; reflexivity].
Qed.
Lemma buf_vec c s : wf_cfg c -> usize_bits c = 64 -> 4096 <= heap_limit c -> bytes_ok s ->
  (exists bs r, run c (de c DByteBuf) s = OOk (SBytes bs) r /\ run c (de c (DVec DU8)) s = OOk (vec_u8 bs) r) \/
  (run c (de c DByteBuf) s = OErr ERead /\ run c (de c (DVec DU8)) s = OErr ERead).
Proof.
  intros Hw Hc Hh Hs. destruct (buf_err c s Hw Hh Hs) as [(bs & r & E)|E].
  - left. exists bs, r. split; [exact E|]. apply vec_u8_ok_run; [assumption..|].
    apply buf_ok_iff in E; assumption.
  - right. split; [exact E|]. pose proof (vec_u8_run c s Hc Hs) as V.
    destruct (run c (dec_u64 ERead) s) as [n t|e|p] eqn:En.
    + destruct (N.ltb_spec (lenN t) n) as [|Hlt]; [exact V|].
      assert (run c (de c DByteBuf) s = OOk (SBytes (takeN n t)) (dropN n t)) as X; [|congruence].
      apply buf_ok_iff; [assumption..|]. exists n. rewrite take_drop, lenN_takeN.
      split; [apply run_len_ok; exact En|lia].
    + destruct (dec_u64_total c s Hs) as [(n & t & E2)|E2]; [congruence|]. rewrite E2 in En. injection En as <-. exact V.
    + destruct (dec_u64_total c s Hs) as [(n & t & E2)|E2]; congruence.
Qed.
Lemma str_buf c s bs r : wf_cfg c -> usize_bits c = 64 -> 4096 <= heap_limit c -> bytes_ok s ->
  run c (de c DString) s = OOk (SStr bs) r <-> run c (de c DByteBuf) s = OOk (SBytes bs) r /\ wellformed bs.
Proof.
  intros Hw Hc Hh Hs. rewrite run_str_ok, (string_ok_iff c s bs r Hc Hs), buf_ok_iff by assumption.
  split.
  - intros (n & H1 & H2 & H3). rewrite utf8_valid_iff in H3. split; [|exact H3]. exists n. rewrite run_len_ok. auto.
  - intros ((n & H1 & H2) & H3). exists n. rewrite utf8_valid_iff. rewrite run_len_ok in H1. auto.
Qed.
Lemma bytes_alike bs : 
  wbytes (ser (SBytes bs)) = wbytes (ser (SStr bs)) /\ wbytes (ser (vec_u8 bs)) = wbytes (ser (SBytes bs)) /\
  wbytes (ser (big_sval bs)) = wbytes (ser (SBytes bs)).
Proof.
  assert (E : wbytes (ser (SBytes bs)) = enc_u64 (lenN bs) ++ bs)
    by (cbn [ser ser_bytes ser_u64 wseq wr wbytes]; rewrite app_nil_r; reflexivity).
  destruct (ser_vec_u8 bs) as [Hr Hb]. split; [reflexivity|]. rewrite Hb, E. split; [reflexivity|].
  change (wbytes (ser (big_sval bs))) with (wbytes (wseq (ser (vec_u8 bs)) WDone)).
  rewrite wbytes_wseq_done by exact Hr. rewrite Hb. apply app_nil_r.
Qed.
Lemma char_alike ch : ser (SChar ch) = ser (SStr (char_utf8 ch)).
Proof. reflexivity. Qed.
Lemma map_alike n l : Forall (fun kv => wresult (ser (snd kv)) = WeOk) l ->
  wbytes (ser (SMap (Some n) (entries l))) = wbytes (ser (SSeq (Some n) (map entry_tuple l))).
Proof.
  intros H. cbn [ser]. unfold ser_len, ser_u64. rewrite !wbytes_seq_wr. f_equal.
  unfold entries. rewrite !map_map. cbn [fst snd].
  induction H as [|[k v] l Hv HF IH]; [reflexivity|]. cbn [map].
  change (wbytes (wseq (wseq (ser_key (SStr k)) (ser v)) (wconcat (map (fun x : list N * sval => wseq (ser_key (SStr (fst x))) (ser (snd x))) l)))
    = wbytes (wseq (wseq (ser (SStr k)) (wseq (ser v) WDone)) (wconcat (map (fun x => ser (entry_tuple x)) l)))).
  cbn [snd] in Hv. rewrite !wbytes_wseq_done; [|first [reflexivity|exact Hv|rewrite !wresult_wseq; cbn [ser ser_key]; rewrite ?Hv; reflexivity]..].
  rewrite IH. cbn [wbytes]. rewrite app_nil_r. reflexivity.
Qed.

(** ** Options and booleans as enums *)
Definition option_enum (d : dty) : dty := DEnum [(KUnit, DUnit); (KNewtype, d)].
Definition bool_enum : dty := DEnum [(KUnit, DUnit); (KUnit, DUnit)].
Lemma run_u16_small c b t : b < 128 -> run c (dec_u16 ERead) (b :: t) = OOk b t.
Proof.
  intros Hb. assert (Hlo : leading_ones b = 0%nat).
  { apply leading_ones_iff; [lia|lia|]. change (2 ^ (8 - N.of_nat 0)) with 256. change (2 ^ (7 - N.of_nat 0)) with 128. lia. }
  rewrite dec_u16_run; [apply varint_run_0; [exact Hlo|lia]|].
  split; [lia|]. unfold varint_extra. rewrite Hlo. cbn [Nat.min]. change (N.of_nat 0) with 0. rewrite takeN_0. constructor.
Qed.
Lemma option_as_enum c d s v r : run c (de c (DOption d)) s = OOk v r ->
  run c (de c (option_enum d)) s =
    OOk (match v with SSome x => SNewtypeVariant 1 x | _ => SUnitVariant 0 end) r.
Proof.
  destruct s as [|b t]; [discriminate|]. rewrite option_byte.
  unfold option_enum. cbn [de]. unfold de_enum, de_u16. rewrite run_bind.
  destruct (N.eqb_spec b 0) as [->|H0].
  - rewrite run_u16_small by lia. intros H; injection H as <- <-. reflexivity.
  - destruct (N.eqb_spec b 1) as [->|H1]; [|discriminate]. rewrite run_u16_small by lia. cbn [obind map pickN fst snd].
    destruct (run c (de c d) t) as [x r'|e|p] eqn:E; intros H; try discriminate.
    injection H as <- <-. change (run c (pmap (variant_sval KNewtype 1) (de c d)) t = OOk (SNewtypeVariant 1 x) r').
    rewrite run_pmap, E. reflexivity.
Qed.
Lemma option_ser v : ser (SSome v) = ser (SNewtypeVariant 1 v) /\ ser SNone = ser (SUnitVariant 0).
Proof. split; reflexivity. Qed.

(** ** Growing types *)
Lemma tuple_prefix c ds vs ws rest : wf_cfg c -> 4096 <= heap_limit c ->
  Forall2 (fun d v => wf_dty d = true /\ has_ty c d v = true) ds vs ->
  wresult (ser (STuple ws)) = WeOk ->
  wresult (ser (STuple (vs ++ ws))) = WeOk /\
  run c (de c (DTuple ds)) (wbytes (ser (STuple (vs ++ ws))) ++ rest) =
    OOk (STuple vs) (wbytes (ser (STuple ws)) ++ rest).
Proof.
  intros Hw Hh HF Hok.
  assert (Hrt : Forall2 (rt c) ds vs).
  { clear Hok. induction HF as [|d v ds vs [H1 H2] HF IH]; constructor; [apply roundtrip; assumption|exact IH]. }
  destruct (rt_seq c ds vs Hrt) as [Hv [Hp _]].
  assert (Hvs : wresult (wconcat (map ser vs)) = WeOk) by (apply (wconcat_ok ser vs Hv)).
  assert (E : wresult (ser (STuple (vs ++ ws))) = WeOk /\
    wbytes (ser (STuple (vs ++ ws))) = concat (map (fun v => wbytes (ser v)) vs) ++ wbytes (ser (STuple ws))).
  { cbn [ser] in *. apply (concat_wire ser) in Hok as [Hws ->].
    assert (Hall : Forall (fun v => wresult (ser v) = WeOk) (vs ++ ws)) by (apply Forall_app; auto).
    destruct (wconcat_ok ser (vs ++ ws) Hall) as [-> ->]. rewrite map_app, concat_app. auto. }
  destruct E as [-> ->]. split; [reflexivity|]. rewrite <- app_assoc. cbn [de]. rewrite run_pmap, Hp. reflexivity.
Qed.
Lemma struct_prefix c fs l extra rest : wf_cfg c -> 4096 <= heap_limit c -> NoDup (map fst fs) ->
  Forall2 (fun nd nv => wf_dty (snd nd) = true /\ has_ty c (snd nd) (snd nv) = true) fs l ->
  wresult (ser (SStruct extra)) = WeOk ->
  wresult (ser (SStruct (l ++ extra))) = WeOk /\
  run c (de c (DStruct (map fst fs) fs)) (wbytes (ser (SStruct (l ++ extra))) ++ rest) =
    OOk (SStruct (combine (map fst fs) (map snd l))) (wbytes (ser (SStruct extra)) ++ rest).
Proof.
  intros Hw Hh Hnd HF Hok.
  assert (Hs : forall k, ser (SStruct k) = ser (STuple (map snd k))) by (intros; cbn [ser]; rewrite map_map; reflexivity).
  rewrite !Hs in *. rewrite map_app, struct_tuple by exact Hnd.
  destruct (tuple_prefix c (map snd fs) (map snd l) (map snd extra) rest Hw Hh) as [H1 H2]; [|exact Hok|].
  - clear - HF. induction HF; cbn [map]; constructor; auto.
  - rewrite H2. auto.
Qed.
Lemma seq_missing c ds d ds' vs : wf_cfg c -> 4096 <= heap_limit c ->
  Forall2 (fun d v => wf_dty d = true /\ has_ty c d v = true) ds vs -> wf_dty d = true -> occupies d = true ->
  run c (de c (DTuple (ds ++ d :: ds'))) (wbytes (ser (STuple vs))) = OErr ERead.
Proof.
  intros Hw Hh HF Hd Ho. cbn [de]. rewrite run_pmap. enough (run c (sequence (map (de c) (ds ++ d :: ds'))) (wbytes (ser (STuple vs))) = OErr ERead) as -> by reflexivity.
  cbn [ser]. induction HF as [|d0 v0 ds vs [H1 H2] HF IH]; cbn [app map sequence].
  - change (wbytes (wconcat [])) with (@nil N). rewrite run_bind. pose proof (de_empty c d Hd) as E. rewrite Ho in E. rewrite E. reflexivity.
  - change (wconcat (ser v0 :: map ser vs)) with (wseq (ser v0) (wconcat (map ser vs))).
    destruct (rt_run c d0 v0 (wbytes (wconcat (map ser vs))) Hw Hh H1 H2) as [Hok Hr].
    rewrite wbytes_wseq_done by exact Hok. rewrite run_bind, Hr. cbn [obind]. rewrite run_bind, IH. reflexivity.
Qed.

Lemma pickN_app {A} (l m : list A) i a : pickN l i = Some a -> pickN (l ++ m) i = Some a.
Proof.
  revert i; induction l as [|x l IH]; intros i; cbn [pickN app]; [discriminate|].
  destruct (i =? 0); [auto|apply IH].
Qed.
Lemma has_ty_more_variants c vs ws v : has_ty c (DEnum vs) v = true -> has_ty c (DEnum (vs ++ ws)) v = true.
Proof.
  cbn [has_ty]. destruct v; try discriminate;
    match goal with |- context [pickN (map ?f vs) ?i] => 
      destruct (pickN (map f vs) i) eqn:E; [|discriminate]; rewrite map_app, (pickN_app _ _ _ _ E); auto end.
Qed.
Lemma variant_in_range c vs v i : has_ty c (DEnum vs) v = true -> variant_index v = Some i -> i < lenN vs.
Proof.
  cbn [has_ty]. destruct v; try discriminate; cbn [variant_index]; intros H E; injection E as ->;
    match type of H with context [pickN (map ?f vs) ?i] =>
      destruct (pickN (map f vs) i) eqn:E; [|discriminate]; apply pickN_some in E as [_ E]; rewrite lenN_map in E; exact E end.
Qed.
Lemma unknown_variant c vs v i rest : variant_index v = Some i -> lenN vs <= i -> i < 16384 ->
  run c (de c (DEnum vs)) (wbytes (ser v) ++ rest) = OErr EMsg.
Proof.
  intros Hi Hl Hs. destruct (variant_head v i Hi) as [t ->]. cbn [de]. unfold de_enum, de_u16.
  rewrite idx_agree by exact Hs. rewrite <- app_assoc, run_bind.
  rewrite (proj1 (parses_u16 c ERead i ltac:(eapply N.lt_trans; [exact Hs|reflexivity]))). cbn [obind].
  replace (pickN _ i) with (@None (N -> prog sval)); [reflexivity|].
  symmetry. apply pickN_none. rewrite lenN_map. exact Hl.
Qed.

(** ** Headers *)
Lemma hser_inj h1 h2 t1 t2 : counts_fit h1 = true -> counts_fit h2 = true ->
  wbytes (hser h1) ++ t1 = wbytes (hser h2) ++ t2 -> h1 = h2 /\ t1 = t2.
Proof.
  intros H1 H2 E. set (c := Cfg true 64 1 1 (2 ^ 40)).
  assert (Hr : room c) by (split; cbn; lia).
  destruct (hde_roundtrip c (Nat.max (hdepth h1) (hdepth h2)) h1 t1 Hr H1 ltac:(lia)) as [_ R1].
  destruct (hde_roundtrip c (Nat.max (hdepth h1) (hdepth h2)) h2 t2 Hr H2 ltac:(lia)) as [_ R2].
  rewrite E, R2 in R1. injection R1 as <- <-. auto.
Qed.
Lemma hser_wraps hs : lenN hs mod 2 ^ 16 = 0 ->
  wbytes (hser (HTuple hs)) = wbytes (hser (HTuple [])) ++ wbytes (wconcat (map hser hs)).
Proof.
  intros H. cbn [hser]. rewrite !wbytes_seq_wr. unfold len_u16. rewrite H. rewrite <- !app_assoc. reflexivity.
Qed.
