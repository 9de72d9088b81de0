(** * Declared lengths on any platform. *)
From Verif Require Import Base BaseFacts SpecVarint Varint VarintFacts Utf8 Serde PrimFacts SerdeFacts SerdeProps Typing SpecMap MapFacts Header Body BodyFacts.

Lemma run_u64_bytes c n s : n < 2 ^ 64 -> run c (dec_u64 ERead) (varint_bytes 8 n ++ s) = OOk n s.
Proof. intros H. rewrite <- enc_u64_spec by exact H. apply (proj1 (parses_u64 c ERead n H)). Qed.
Lemma string_any c n s : n < 2 ^ 64 ->
  run c (de c DString) (varint_bytes 8 n ++ s) =
  if n <? STR_MAX then
    if lenN s <? n then OErr ERead
    else if utf8_valid (takeN n s) then OOk (SStr (takeN n s)) (dropN n s) else OErr ERead
  else if utf8_valid (takeN n s) then
    if lenN (takeN n s) =? as_usize c n then OOk (SStr (takeN n s)) (dropN n s) else OErr ERead
  else OErr ERead.
Proof.
  intros Hn. cbn [de]. rewrite run_pmap, de_string_unfold, run_bind, run_u64_bytes by exact Hn. cbn [obind]. unfold de_str_body.
  destruct (n <? STR_MAX); cbn [run].
  - destruct (lenN s <? n); [reflexivity|]. destruct (utf8_valid _); reflexivity.
  - destruct (utf8_valid _); [|reflexivity]. destruct (_ =? _); reflexivity.
Qed.
Lemma string_exact c n s v r : as_usize c n = n ->
  (if n <? STR_MAX then
    if lenN s <? n then OErr ERead
    else if utf8_valid (takeN n s) then OOk (SStr (takeN n s)) (dropN n s) else OErr ERead
  else if utf8_valid (takeN n s) then
    if lenN (takeN n s) =? as_usize c n then OOk (SStr (takeN n s)) (dropN n s) else OErr ERead
  else OErr ERead) = OOk v r -> exists bs, v = SStr bs /\ lenN bs = n /\ s = bs ++ r.
Proof.
  intros Hu. rewrite Hu. destruct (n <? STR_MAX).
  - destruct (N.ltb_spec (lenN s) n); [discriminate|]. destruct (utf8_valid _); [|discriminate]. intros E; injection E as <- <-.
    exists (takeN n s). split; [reflexivity|]. split; [rewrite lenN_takeN; lia|symmetry; apply take_drop].
  - destruct (utf8_valid _); [|discriminate]. destruct (N.eqb_spec (lenN (takeN n s)) n); [|discriminate]. intros E; injection E as <- <-.
    exists (takeN n s). split; [reflexivity|]. split; [assumption|symmetry; apply take_drop].
Qed.
Lemma bytebuf_any c n s : wf_cfg c -> 4096 <= heap_limit c -> n < 2 ^ 64 ->
  run c (de c DByteBuf) (varint_bytes 8 n ++ s) =
  if lenN s <? buf_total c n then OErr ERead else OOk (SBytes (takeN (buf_total c n) s)) (dropN (buf_total c n) s).
Proof.
  intros Hw Hh Hn. cbn [de]. rewrite run_pmap, de_byte_buf_unfold, run_bind, run_u64_bytes by exact Hn. cbn [obind].
  rewrite buf_body_run by assumption. destruct (_ <? _); reflexivity.
Qed.
Lemma buf_total_32 c k m : usize_bits c = 32 -> 1 <= k -> m < 2 ^ 32 ->
  buf_total c (k * 2 ^ 32 + m) = 4096 * ((m + 4095) / 4096).
Proof.
  intros Hc Hk Hm. unfold buf_total, as_usize, buf_todo, BUF_MAX. rewrite Hc. rewrite (N.add_comm _ m), N.mod_add, N.mod_small by (exact Hm || discriminate).
  change (2 ^ 32) with 4294967296 in *. destruct (N.ltb_spec 4096 (m + k * 4294967296)); [|lia]. rewrite !N.sub_0_r.
  change (4096 - 1) with 4095. destruct (N.ltb_spec 0 m) as [H0|H0].
  - pose proof (N.div_mod (m + 4095) 4096 ltac:(discriminate)). revert H1. generalize ((m + 4095) / 4096) ((m + 4095) mod 4096). intros; lia.
  - assert (m = 0) as -> by lia. reflexivity.
Qed.

(** ** usize and isize *)
Lemma run_usize c n s : n < 2 ^ 64 -> run c (de c DUsize) (wbytes (ser (SU64 n)) ++ s) =
  if n <? 2 ^ usize_bits c then OOk (SU64 n) s else OErr EMsg.
Proof.
  intros H. cbn [de ser ser_u64 wr wbytes]. rewrite app_nil_r, run_pmap. unfold de_usize, de_u64. rewrite run_bind, (proj1 (parses_u64 c ERead n H)).
  cbn [obind]. destruct (n <? _); reflexivity.
Qed.
Lemma run_isize c z s : in_s 64 z = true -> run c (de c DIsize) (wbytes (ser (SI64 z)) ++ s) =
  if in_s (usize_bits c) z then OOk (SI64 z) s else OErr EMsg.
Proof.
  intros H. cbn [de ser ser_i64 wr wbytes]. rewrite app_nil_r, run_pmap. unfold de_isize. rewrite run_bind, (proj1 (parses_de_i64 c z H)).
  cbn [obind]. destruct (in_s (usize_bits c) z); reflexivity.
Qed.

(** ** Bodies: the loops count to the declared u64 *)
Lemma body_array_count c h n s b r : n < 2 ^ 64 -> bytes_ok s ->
  run c (bde c (HArray h)) (varint_bytes 8 n ++ s) = OOk b r -> exists l, b = BArray l /\ lenN l = n.
Proof.
  intros Hn Hs H. cbn [bde] in H. unfold de_u64 in H. rewrite run_bind, run_u64_bytes in H by exact Hn. cbn [obind run] in H.
  destruct (alloc_result c _); [discriminate|]. rewrite run_pmap in H. destruct (run c (repeatN n (bde c h)) s) as [l r'| |] eqn:E; try discriminate.
  injection H as <- <-. exists l. split; [reflexivity|]. eapply (yields_repeatN c n (bde c h) (fun _ => True)); [intros ? ? ? _ _; exact I|exact Hs|exact E].
Qed.
Lemma body_map_count c h n s b r : n < 2 ^ 64 -> bytes_ok s ->
  run c (bde c (HMap h)) (varint_bytes 8 n ++ s) = OOk b r ->
  exists m es, b = BMap m /\ lenN es = n /\ forall k, last_binding k m = last_binding k es.
Proof.
  intros Hn Hs H. cbn [bde] in H. unfold de_u64 in H. rewrite run_bind, run_u64_bytes in H by exact Hn. cbn [obind] in H.
  rewrite run_pmap in H. destruct (run c (de_map_n c n (bde c h)) s) as [m r'| |] eqn:E; try discriminate. injection H as <- <-.
  unfold de_map_n in E. rewrite run_foldN in E.
  assert (HY := yields_iter c (N.to_nat n) (fun m => k <- de_string c ;; v <- bde c h ;; Ret (map_insert k v m)) []
    (fun i m => exists es, length es = i /\ m = insert_all es [])).
  destruct (HY ltac:(exists []; auto)) with (s := s) (a := m) (r := r') as (es & Hl & ->); try assumption.
  { intros i m' (es & <- & ->). eapply yields_bind; [intros ? ? ? _ _; exact I|]. intros k _. eapply yields_bind; [intros ? ? ? _ _; exact I|]. intros v _.
    apply yields_Ret. exists (es ++ [(k, v)]). split; [rewrite app_length; cbn [length]; lia|].
    unfold insert_all. rewrite fold_left_app. reflexivity. }
  exists (insert_all es []), es. split; [reflexivity|]. split; [unfold lenN; rewrite Hl; lia|].
  intros k. rewrite <- lookup_last by (apply insert_all_sorted_out; reflexivity). rewrite lookup_insert_all. destruct (last_binding k es); reflexivity.
Qed.
