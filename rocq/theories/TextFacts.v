(** * Strings, byte buffers and characters: lemmas behind C06 - C09. *)
From Verif Require Import Base BaseFacts Varint VarintFacts Utf8 Utf8Facts SpecUtf8 Serde PrimFacts.

Lemma run_len_ok c s n t : run c (de c DU64) s = OOk (SU64 n) t <-> run c (dec_u64 ERead) s = OOk n t.
Proof.
  split.
  - intros H; apply run_pmap_ok in H as (a & H & E). injection E as ->. exact H.
  - intros H; cbn [de]; rewrite run_pmap; unfold de_u64; rewrite H; reflexivity.
Qed.
Lemma run_str_ok c s bs r : run c (de c DString) s = OOk (SStr bs) r <-> run c (de_string c) s = OOk bs r.
Proof.
  split.
  - intros H; apply run_pmap_ok in H as (a & H & E). injection E as ->. exact H.
  - intros H; cbn [de]; rewrite run_pmap, H; reflexivity.
Qed.
Lemma string_ok_iff c s bs r : usize_bits c = 64 -> bytes_ok s ->
  run c (de_string c) s = OOk bs r <->
  exists n, run c (dec_u64 ERead) s = OOk n (bs ++ r) /\ lenN bs = n /\ utf8_valid bs = true.
Proof.
  intros Hc Hs; rewrite de_string_unfold; split.
  - intros H; apply run_bind_ok in H as (n & t & H1 & H2).
    pose proof (yields_u64 c ERead s n t Hs H1) as Hn.
    rewrite str_body_run in H2 by (apply as_usize_id; rewrite Hc; exact Hn).
    destruct (N.ltb_spec (lenN t) n); [discriminate|]. cbn [orb] in H2.
    destruct (utf8_valid (takeN n t)) eqn:E; [|discriminate]. injection H2 as <- <-.
    exists n. rewrite take_drop. split; [exact H1|]. split; [rewrite lenN_takeN; lia|exact E].
  - intros (n & H1 & Hl & Hv). pose proof (yields_u64 c ERead s n _ Hs H1) as Hn.
    rewrite run_bind, H1; cbn [obind].
    rewrite str_body_run by (apply as_usize_id; rewrite Hc; exact Hn).
    rewrite takeN_app_n, dropN_app_n, Hv, lenN_app by exact Hl.
    destruct (N.ltb_spec (lenN bs + lenN r) n); [lia|reflexivity].
Qed.
Lemma string_err c s : bytes_ok s ->
  (exists bs r, run c (de_string c) s = OOk bs r) \/ run c (de_string c) s = OErr ERead.
Proof.
  intros Hs; rewrite de_string_unfold, run_bind, dec_u64_run by (apply bytes_guard, Hs).
  destruct s as [|p t]; [right; reflexivity|]. cbn [varint_run].
  destruct (lenN t <? _); [right; reflexivity|]. cbn [obind].
  generalize (SpecVarint.varint_value 8 p (takeN (N.of_nat (SpecVarint.varint_extra 8 p)) t)).
  generalize (dropN (N.of_nat (SpecVarint.varint_extra 8 p)) t). intros r n. unfold de_str_body.
  destruct (n <? STR_MAX); cbn [run].
  - destruct (lenN r <? n); [right; reflexivity|].
    destruct (utf8_valid (takeN n r)); [left; do 2 eexists; reflexivity|right; reflexivity].
  - destruct (utf8_valid (takeN n r)); [|right; reflexivity].
    destruct (_ =? _); [left; do 2 eexists; reflexivity|right; reflexivity].
Qed.
Lemma char_ok_iff c s ch r : wf_cfg c -> bytes_ok s ->
  run c (de c DChar) s = OOk (SChar ch) r <->
  scalar ch /\ exists t, run c (de c DString) s = OOk (SStr (utf8 ch ++ t)) r.
Proof.
  intros Hw Hs; cbn [de]. unfold de_char. split.
  - intros H; apply run_pmap_ok in H as (a & H & E). injection E as ->.
    apply run_bind_ok in H as (bs & r' & H1 & H2).
    pose proof (yields_string c Hw s bs r' Hs H1) as [Hv _].
    destruct bs as [|b t]; [discriminate|]. apply valid_inv in Hv as (ch & t' & Hch & Ebs & _).
    rewrite Ebs, next_char_utf8 in H2 by exact Hch. injection H2 as <- <-.
    split; [exact Hch|]. exists t'. rewrite run_pmap, H1, Ebs; reflexivity.
  - intros (Hch & t & H). apply run_str_ok in H. rewrite run_pmap, run_bind, H; cbn [obind].
    rewrite next_char_utf8 by exact Hch. reflexivity.
Qed.
Lemma char_err_iff c s : wf_cfg c -> bytes_ok s ->
  run c (de c DChar) s = OErr ECharSize <-> exists r, run c (de c DString) s = OOk (SStr []) r.
Proof.
  intros Hw Hs; cbn [de]. unfold de_char. rewrite !run_pmap, run_bind.
  destruct (string_err c s Hs) as [(bs & r & E)|E].
  - pose proof (yields_string c Hw s bs r Hs E) as [Hv _]. rewrite E; cbn [obind].
    destruct bs as [|b t].
    + split; [|reflexivity]. intros _; exists r; reflexivity.
    + apply valid_inv in Hv as (ch & t' & Hch & -> & _). rewrite next_char_utf8 by exact Hch. cbn [run obind].
      split; [discriminate|]. intros (r' & H). injection H as H _. apply app_eq_nil in H as [H _].
      destruct (utf8_nonempty ch H).
  - rewrite E; cbn [obind]. split; [discriminate|]. intros (r & H); discriminate.
Qed.
Lemma char_err c s : wf_cfg c -> bytes_ok s ->
  (exists ch r, run c (de c DChar) s = OOk (SChar ch) r) \/ run c (de c DChar) s = OErr ECharSize \/
  run c (de c DChar) s = OErr ERead.
Proof.
  intros Hw Hs; cbn [de]. unfold de_char. rewrite !run_pmap, run_bind.
  destruct (string_err c s Hs) as [(bs & r & E)|E]; rewrite E; cbn [obind]; [|right; right; reflexivity].
  destruct (next_char bs); cbn [run obind]; [left; do 2 eexists; reflexivity|right; left; reflexivity].
Qed.
Lemma buf_ok_iff c s bs r : wf_cfg c -> usize_bits c = 64 -> 4096 <= heap_limit c -> bytes_ok s ->
  run c (de c DByteBuf) s = OOk (SBytes bs) r <->
  exists n, run c (de c DU64) s = OOk (SU64 n) (bs ++ r) /\ lenN bs = n.
Proof.
  intros Hw Hc Hh Hs. transitivity (run c (de_byte_buf c) s = OOk bs r).
  { cbn [de]; rewrite run_pmap. destruct (run c (de_byte_buf c) s); cbn [obind]; split; congruence. }
  rewrite de_byte_buf_unfold; split.
  - intros H; apply run_bind_ok in H as (n & t & H1 & H2).
    pose proof (yields_u64 c ERead s n t Hs H1) as Hn.
    rewrite buf_body_run, buf_total_exact in H2 by (first [assumption | apply as_usize_id; rewrite Hc; exact Hn]).
    destruct (N.ltb_spec (lenN t) n); [discriminate|]. injection H2 as <- <-.
    exists n. rewrite take_drop. split; [apply run_len_ok; exact H1|rewrite lenN_takeN; lia].
  - intros (n & H1 & Hl). apply run_len_ok in H1. pose proof (yields_u64 c ERead s n _ Hs H1) as Hn.
    rewrite run_bind, H1; cbn [obind].
    rewrite buf_body_run, buf_total_exact by (first [assumption | apply as_usize_id; rewrite Hc; exact Hn]).
    rewrite takeN_app_n, dropN_app_n, lenN_app by exact Hl.
    destruct (N.ltb_spec (lenN bs + lenN r) n); [lia|reflexivity].
Qed.
Lemma buf_err c s : wf_cfg c -> 4096 <= heap_limit c -> bytes_ok s ->
  (exists bs r, run c (de c DByteBuf) s = OOk (SBytes bs) r) \/ run c (de c DByteBuf) s = OErr ERead.
Proof.
  intros Hw Hh Hs; cbn [de]. rewrite run_pmap, de_byte_buf_unfold, run_bind, dec_u64_run by (apply bytes_guard, Hs).
  destruct s as [|p t]; [right; reflexivity|]. cbn [varint_run].
  destruct (lenN t <? _); [right; reflexivity|]. cbn [obind]. rewrite buf_body_run by assumption.
  destruct (_ <? _); [right; reflexivity|]. left; do 2 eexists; reflexivity.
Qed.
Lemma str_err_pmap c s : bytes_ok s ->
  (exists bs r, run c (de c DString) s = OOk (SStr bs) r) \/ run c (de c DString) s = OErr ERead.
Proof.
  intros Hs; cbn [de]; rewrite run_pmap. destruct (string_err c s Hs) as [(bs & r & ->) | ->]; cbn [obind];
    [left; do 2 eexists; reflexivity|right; reflexivity].
Qed.
Lemma str_wire_iff c bs rest : wf_cfg c -> lenN bs < 2 ^ usize_bits c -> bytes_ok bs -> bytes_ok rest ->
  (wellformed bs -> run c (de c DString) (wbytes (ser (SStr bs)) ++ rest) = OOk (SStr bs) rest) /\
  (~ wellformed bs -> run c (de c DString) (wbytes (ser (SStr bs)) ++ rest) = OErr ERead).
Proof.
  intros Hw Hl Hb Hr. pose proof (lt_usize_64 c _ Hw Hl) as H64.
  assert (E : wbytes (ser (SStr bs)) = enc_u64 (lenN bs) ++ bs).
  { cbn [ser ser_str ser_u64 wseq wr wbytes]. rewrite app_nil_r; reflexivity. }
  rewrite E. split.
  - intros Hv; apply utf8_valid_iff in Hv. cbn [de]. rewrite run_pmap, (proj1 (parses_string c bs Hw Hv Hl)). reflexivity.
  - intros Hv. cbn [de]. rewrite run_pmap, de_string_unfold, run_bind, <- app_assoc.
    rewrite (proj1 (parses_u64 c ERead (lenN bs) H64)). cbn [obind].
    rewrite str_body_run, takeN_app, dropN_app by (apply as_usize_id; exact Hl).
    destruct (utf8_valid bs) eqn:Eb; [apply utf8_valid_iff in Eb; contradiction|]. rewrite orb_true_r. reflexivity.
Qed.
Lemma str_yields c s bs r : wf_cfg c -> bytes_ok s ->
  run c (de c DString) s = OOk (SStr bs) r -> wellformed bs.
Proof.
  intros Hw Hs H; apply run_str_ok in H. apply utf8_valid_iff. eapply (yields_string c Hw); eassumption.
Qed.
