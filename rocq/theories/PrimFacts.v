(** * Proofs about the scalar, string and binary decoders of Serde.v. *)
From Coq Require Import String.
From Verif Require Import Base BaseFacts Varint VarintFacts ZigZagFacts Utf8 Utf8Facts SpecUtf8 Serde.
Local Open Scope list_scope.
Local Open Scope N_scope.

(** ** Platform facts *)
Lemma usize_bits_cases c : wf_cfg c -> usize_bits c = 32 \/ usize_bits c = 64.
Proof. intros [H _]; exact H. Qed.
Lemma isize_max_lt c : wf_cfg c -> isize_max c < 2 ^ usize_bits c /\ isize_max c < 2 ^ 64 /\ 4096 <= isize_max c.
Proof.
  intros [[H|H] _]; unfold isize_max; rewrite H;
    (split; [|split]); apply N.ltb_lt || apply N.leb_le; reflexivity.
Qed.
Lemma lt_usize_64 c n : wf_cfg c -> n < 2 ^ usize_bits c -> n < 2 ^ 64.
Proof.
  intros Hc Hl; destruct (usize_bits_cases c Hc) as [E|E]; rewrite E in Hl; [|exact Hl].
  eapply N.lt_trans; [exact Hl|reflexivity].
Qed.
Lemma as_usize_id c n : n < 2 ^ usize_bits c -> as_usize c n = n.
Proof. intros H; unfold as_usize; apply N.mod_small, H. Qed.
Lemma as_usize_le c n : as_usize c n <= n.
Proof. unfold as_usize; apply N.mod_le, N.pow_nonzero; lia. Qed.
Lemma alloc_small c n : wf_cfg c -> 4096 <= heap_limit c -> n <= 4096 -> alloc_result c n = None.
Proof.
  intros Hc Hh Hn. pose proof (isize_max_lt c Hc) as (_ & _ & Hi). unfold alloc_result.
  destruct (N.ltb_spec (isize_max c) n); [lia|]. destruct (N.ltb_spec (heap_limit c) n); [lia|reflexivity].
Qed.

(** ** Single bytes *)
Lemma local_byte c : local c ERead de_byte.
Proof. apply local_ReadExact; intros; apply local_Ret. Qed.
Lemma yields_byte c : yields c de_byte (fun b => b < 256).
Proof.
  apply yields_ReadExact; intros bs Hl Hb; apply yields_Ret.
  explode bs Hl. inversion Hb; subst; assumption.
Qed.
Lemma parses_byte c b : parses c ERead de_byte [b] b.
Proof. apply (parses_ReadExact c ERead 1 _ [b] [] b); [reflexivity|apply parses_ret]. Qed.
Lemma run_byte c b t : run c de_byte (b :: t) = OOk b t.
Proof. apply (proj1 (parses_byte c b)). Qed.
Lemma parses_bool c (b : bool) : parses c ERead de_bool [if b then 1 else 0] b.
Proof.
  eapply parses_bind_ret; [apply parses_byte|]. destruct b; reflexivity.
Qed.
Lemma local_bool c : local c ERead de_bool.
Proof.
  apply local_bind; [apply local_byte|]; intros b.
  destruct (b =? 0); [apply local_Ret|]. destruct (b =? 1); [apply local_Ret|apply local_Fail].
Qed.
Lemma local_i8 c : local c ERead de_i8.
Proof. apply local_pmap, local_byte. Qed.
Lemma parses_i8 c z : in_s 8 z = true -> parses c ERead de_i8 [i8_byte z] z.
Proof.
  intros H. replace z with (as_i 8 (i8_byte z)) at 2 by (apply as_i_as_u; [lia|exact H]).
  apply parses_pmap, parses_byte.
Qed.
Lemma as_i_in w v : (1 <= w) -> in_s w (as_i w v) = true.
Proof. intros H; apply wrap_s_in; exact H. Qed.

(** ** Wider integers *)
Lemma parses_de_i16 c z : in_s 16 z = true -> parses c ERead de_i16 (enc_u16 (enc_zigzag 16 z)) z.
Proof.
  intros H. rewrite <- (dec_enc_zigzag 16 z) at 2 by (first [lia|exact H]).
  apply parses_pmap, parses_u16, enc_zigzag_bound; [lia|exact H].
Qed.
Lemma parses_de_i32 c z : in_s 32 z = true -> parses c ERead de_i32 (enc_u32 (enc_zigzag 32 z)) z.
Proof.
  intros H. rewrite <- (dec_enc_zigzag 32 z) at 2 by (first [lia|exact H]).
  apply parses_pmap, parses_u32, enc_zigzag_bound; [lia|exact H].
Qed.
Lemma parses_de_i64 c z : in_s 64 z = true -> parses c ERead de_i64 (enc_u64 (enc_zigzag 64 z)) z.
Proof.
  intros H. rewrite <- (dec_enc_zigzag 64 z) at 2 by (first [lia|exact H]).
  apply parses_pmap, parses_u64, enc_zigzag_bound; [lia|exact H].
Qed.
Lemma dec_zigzag_in w v : 1 <= w -> v < 2 ^ w -> in_s w (dec_zigzag w v) = true.
Proof. intros Hw Hv; rewrite dec_zigzag_spec by assumption; apply unzigzag_in; assumption. Qed.
Lemma yields_i16 c : yields c de_i16 (fun z => in_s 16 z = true).
Proof. eapply yields_pmap; [apply yields_u16|]; intros v Hv; apply dec_zigzag_in; [lia|exact Hv]. Qed.
Lemma yields_i32 c : yields c de_i32 (fun z => in_s 32 z = true).
Proof. eapply yields_pmap; [apply yields_u32|]; intros v Hv; apply dec_zigzag_in; [lia|exact Hv]. Qed.
Lemma yields_i64 c : yields c de_i64 (fun z => in_s 64 z = true).
Proof. eapply yields_pmap; [apply yields_u64|]; intros v Hv; apply dec_zigzag_in; [lia|exact Hv]. Qed.
Lemma local_i16 c : local c ERead de_i16. Proof. apply local_pmap, local_dec_u16. Qed.
Lemma local_i32 c : local c ERead de_i32. Proof. apply local_pmap, local_dec_u32. Qed.
Lemma local_i64 c : local c ERead de_i64. Proof. apply local_pmap, local_dec_u64. Qed.

Lemma in_s_mono w w' z : 1 <= w -> w <= w' -> in_s w z = true -> in_s w' z = true.
Proof.
  intros Hw Hle H; apply in_s_iff in H; apply in_s_iff.
  assert ((2 ^ (Z.of_N w - 1) <= 2 ^ (Z.of_N w' - 1))%Z) by (apply Z.pow_le_mono_r; lia). lia.
Qed.
Lemma parses_usize c n : wf_cfg c -> n < 2 ^ usize_bits c -> parses c ERead (de_usize c) (enc_u64 n) n.
Proof.
  intros Hc Hn. eapply parses_bind_ret.
  - apply parses_u64. destruct (usize_bits_cases c Hc) as [E|E]; rewrite E in Hn; [|exact Hn].
    eapply N.lt_trans; [exact Hn|reflexivity].
  - destruct (N.ltb_spec n (2 ^ usize_bits c)); [reflexivity|lia].
Qed.
Lemma parses_isize c z : wf_cfg c -> in_s (usize_bits c) z = true ->
  parses c ERead (de_isize c) (enc_u64 (enc_zigzag 64 z)) z.
Proof.
  intros Hc Hz. eapply parses_bind_ret.
  - apply parses_de_i64. destruct (usize_bits_cases c Hc) as [E|E]; rewrite E in Hz; [|exact Hz].
    apply (in_s_mono 32 64); [lia|lia|exact Hz].
  - rewrite Hz; reflexivity.
Qed.
Lemma local_usize c : local c ERead (de_usize c).
Proof.
  apply local_bind; [apply local_dec_u64|]; intros n. destruct (n <? _); [apply local_Ret|apply local_Fail].
Qed.
Lemma local_isize c : local c ERead (de_isize c).
Proof.
  apply local_bind; [apply local_i64|]; intros n. destruct (in_s _ n); [apply local_Ret|apply local_Fail].
Qed.

(** ** Floats *)
Lemma parses_float c n (k : nat) bits : n = N.of_nat k -> bits < 256 ^ n ->
  parses c ERead (ReadExact n ERead (fun b => Ret (of_le b))) (le_bytes k bits) bits.
Proof.
  intros -> H. rewrite <- (app_nil_r (le_bytes k bits)), le_bytes_digits.
  apply parses_ReadExact; [apply lenN_le_digits|].
  rewrite of_le_value, le_value_digits by exact H. apply parses_ret.
Qed.
Lemma local_float c n : local c ERead (ReadExact n ERead (fun b => Ret (of_le b))).
Proof. apply local_ReadExact; intros; apply local_Ret. Qed.
Lemma yields_float c n : yields c (ReadExact n ERead (fun b => Ret (of_le b))) (fun v => v < 256 ^ n).
Proof.
  apply yields_ReadExact; intros bs Hl Hb; apply yields_Ret. rewrite of_le_value, <- Hl.
  apply le_value_bound, Hb.
Qed.

(** ** Strings *)
Definition de_str_body (c : cfg) (len : N) : prog (list N) :=
  if len <? STR_MAX then
    ReadExact len ERead (fun b => if utf8_valid b then Ret b else Fail ERead)
  else
    ReadLimit len ERead (fun b =>
      if utf8_valid b then
        if lenN b =? as_usize c len then Ret b else Fail ERead
      else Fail ERead).
Lemma de_string_unfold c : de_string c = bind (dec_u64 ERead) (de_str_body c).
Proof. reflexivity. Qed.

(** With an exact [as usize], both paths are one read of [len] bytes and a UTF-8 check. *)
Lemma str_body_run c len s : as_usize c len = len ->
  run c (de_str_body c len) s =
  if (lenN s <? len) || negb (utf8_valid (takeN len s)) then OErr ERead
  else OOk (takeN len s) (dropN len s).
Proof.
  intros Hu; unfold de_str_body. destruct (N.ltb_spec len STR_MAX).
  - cbn [run]. destruct (N.ltb_spec (lenN s) len); [reflexivity|].
    destruct (utf8_valid (takeN len s)); reflexivity.
  - cbn [run]. rewrite lenN_takeN, Hu.
    destruct (N.ltb_spec (lenN s) len) as [Hl|Hl]; cbn [orb].
    + destruct (utf8_valid (takeN len s)); [|reflexivity].
      destruct (N.eqb_spec (N.min len (lenN s)) len); [lia|reflexivity].
    + destruct (utf8_valid (takeN len s)); [|reflexivity].
      destruct (N.eqb_spec (N.min len (lenN s)) len); [reflexivity|lia].
Qed.
Lemma parses_str_body c bs : as_usize c (lenN bs) = lenN bs -> utf8_valid bs = true ->
  parses c ERead (de_str_body c (lenN bs)) bs bs.
Proof.
  intros Hu Hv; split.
  - intros t; rewrite str_body_run by exact Hu. rewrite takeN_app, dropN_app, Hv, lenN_app.
    destruct (N.ltb_spec (lenN bs + lenN t) (lenN bs)); [lia|reflexivity].
  - intros u' x t' ->. rewrite str_body_run by exact Hu.
    destruct (N.ltb_spec (lenN u') (lenN (u' ++ x :: t'))) as [H|H]; [reflexivity|].
    rewrite lenN_app, lenN_cons in H; lia.
Qed.
Lemma parses_string c bs : wf_cfg c -> utf8_valid bs = true -> lenN bs < 2 ^ usize_bits c ->
  parses c ERead (de_string c) (enc_u64 (lenN bs) ++ bs) bs.
Proof.
  intros Hc Hv Hl.
  rewrite de_string_unfold. eapply parses_bind; [apply parses_u64, (lt_usize_64 c); assumption|].
  apply parses_str_body; [apply as_usize_id; exact Hl|exact Hv].
Qed.
Lemma local_str_body c len : as_usize c len = len -> local c ERead (de_str_body c len).
Proof.
  intros Hu s a r Hs H. rewrite str_body_run in H by exact Hu.
  destruct (N.ltb_spec (lenN s) len); cbn [orb] in H; [discriminate|].
  destruct (utf8_valid (takeN len s)) eqn:Hv; cbn [negb] in H; [|discriminate].
  injection H as <- <-. exists (takeN len s); split; [symmetry; apply take_drop|].
  assert (Hl : lenN (takeN len s) = len) by (rewrite lenN_takeN; lia).
  rewrite <- Hl at 1. apply parses_str_body; [rewrite Hl; exact Hu|exact Hv].
Qed.
Lemma local_string c : usize_bits c = 64 -> local c ERead (de_string c).
Proof.
  intros Hc. rewrite de_string_unfold. eapply local_bind_dep; [apply local_dec_u64|apply yields_u64|].
  intros len Hl; apply local_str_body, as_usize_id; rewrite Hc; exact Hl.
Qed.
Lemma yields_string c : wf_cfg c ->
  yields c (de_string c) (fun bs => utf8_valid bs = true /\ lenN bs < 2 ^ usize_bits c).
Proof.
  intros Hc. rewrite de_string_unfold. eapply yields_bind with (P := fun _ => True); [intros s a r _ _; exact I|].
  intros len _; unfold de_str_body. destruct (N.ltb_spec len STR_MAX).
  - apply yields_ReadExact; intros bs Hl _. destruct (utf8_valid bs) eqn:E; [apply yields_Ret|apply yields_Fail].
    split; [exact E|]. pose proof (isize_max_lt c Hc). unfold STR_MAX in *. lia.
  - apply yields_ReadLimit; intros bs _ _. destruct (utf8_valid bs) eqn:E; [|apply yields_Fail].
    destruct (N.eqb_spec (lenN bs) (as_usize c len)) as [El|]; [apply yields_Ret|apply yields_Fail].
    split; [exact E|]. rewrite El. apply N.mod_lt, N.pow_nonzero; lia.
Qed.

(** ** Characters *)
Lemma utf8_valid_char c : scalar c -> utf8_valid (utf8 c) = true.
Proof. intros H; rewrite <- (app_nil_r (utf8 c)), valid_cons by exact H; reflexivity. Qed.
Lemma utf8_len c : lenN (utf8 c) <= 4.
Proof. unfold utf8; destruct (c <? 128), (c <? 2048), (c <? 65536); unfold lenN; cbn [length]; lia. Qed.
Lemma parses_char c ch : wf_cfg c -> is_scalar ch = true ->
  parses c ERead (de_char c) (enc_u64 (lenN (char_utf8 ch)) ++ char_utf8 ch) ch.
Proof.
  intros Hc Hs; apply is_scalar_iff in Hs.
  rewrite char_utf8_spec by (unfold scalar in Hs; lia).
  eapply parses_bind_ret.
  - apply parses_string; [exact Hc|apply utf8_valid_char, Hs|].
    pose proof (isize_max_lt c Hc). pose proof (utf8_len ch). lia.
  - rewrite <- (app_nil_r (utf8 ch)), next_char_utf8 by exact Hs. reflexivity.
Qed.
Lemma local_char c : usize_bits c = 64 -> local c ERead (de_char c).
Proof.
  intros Hc; apply local_bind; [apply local_string, Hc|]; intros s.
  destruct (next_char s); [apply local_Ret|apply local_Fail].
Qed.

(** ** Byte buffers *)
(** Bytes the loop still has to read when [pos] bytes have been read: whole chunks until the
    truncated length [L] is reached, never beyond [len]. *)
Definition buf_todo (L len pos : N) : N :=
  if pos <? L then N.min (len - pos) (BUF_MAX * ((L - pos + (BUF_MAX - 1)) / BUF_MAX)) else 0.

Lemma buf_todo_step L len pos : L <= len -> pos < L ->
  let n := N.min BUF_MAX (len - pos) in
  buf_todo L len pos = n + buf_todo L len (pos + n) /\ 0 < n.
Proof.
  intros HL Hp n. unfold buf_todo. destruct (N.ltb_spec pos L) as [_|]; [|lia].
  unfold BUF_MAX in *. subst n. split; [|lia].
  destruct (N.min_spec 4096 (len - pos)) as [[H1 ->]|[H1 ->]].
  - destruct (N.ltb_spec (pos + 4096) L) as [H2|H2].
    + replace (L - pos + (4096 - 1)) with (L - (pos + 4096) + (4096 - 1) + 1 * 4096) by lia.
      rewrite N.div_add by lia. lia.
    + assert (E : (L - pos + (4096 - 1)) / 4096 = 1).
      { symmetry; apply N.div_unique with (r := L - pos - 1); lia. }
      rewrite E; lia.
  - destruct (N.ltb_spec (pos + (len - pos)) L); [lia|].
    assert (1 <= (L - pos + (4096 - 1)) / 4096) by (apply N.div_le_lower_bound; lia).
    lia.
Qed.

Lemma buf_loop_run c len L : as_usize c len = L ->
  forall fuel acc pos s, pos <= len ->
  (len - pos + (BUF_MAX - 1)) / BUF_MAX + 1 <= N.of_nat fuel ->
  run c (iter fuel (buf_step c len) (inl (acc, pos, pos))) s =
  let n := buf_todo L len pos in
  if lenN s <? n then OErr ERead
  else OOk (inr (concat (rev acc) ++ takeN n s)) (dropN n s).
Proof.
  intros EL. assert (HL : L <= len) by (subst L; apply as_usize_le).
  assert (Hdone : forall fuel r s, run c (iter fuel (buf_step c len) (inr r)) s = OOk (inr r) s).
  { induction fuel as [|f IH]; intros r s; [reflexivity|]. rewrite run_iter_S; cbn [buf_step run obind]. apply IH. }
  induction fuel as [|f IH]; intros acc pos s Hp Hf;
    [exfalso; revert Hf; generalize ((len - pos + (BUF_MAX - 1)) / BUF_MAX); lia|].
  rewrite run_iter_S. cbn [buf_step]. rewrite EL. cbv zeta.
  destruct (N.ltb_spec pos L) as [Hlt|Hge].
  - destruct (buf_todo_step L len pos HL Hlt) as [Et Hn0]. rewrite Et.
    set (n := N.min BUF_MAX (len - pos)) in *.
    cbn [run]. destruct (N.ltb_spec (lenN s) n) as [Hs|Hs].
    { cbn [obind]. destruct (N.ltb_spec (lenN s) (n + buf_todo L len (pos + n))); [reflexivity|lia]. }
    cbn [obind]. rewrite IH.
    + cbv zeta. rewrite lenN_dropN.
      set (m := buf_todo L len (pos + n)).
      destruct (N.ltb_spec (lenN s - n) m); destruct (N.ltb_spec (lenN s) (n + m)); try lia; [reflexivity|].
      cbn [rev]. rewrite concat_app. cbn [concat]. rewrite app_nil_r, <- app_assoc.
      rewrite takeN_add, dropN_add; reflexivity.
    + unfold n, BUF_MAX in *; lia.
    + unfold n in *. destruct (N.min_spec BUF_MAX (len - pos)) as [[H1 E]|[H1 E]]; rewrite E in *.
      * replace (len - pos + (BUF_MAX - 1)) with (len - (pos + BUF_MAX) + (BUF_MAX - 1) + 1 * BUF_MAX) in Hf
          by (unfold BUF_MAX in *; lia).
        rewrite N.div_add in Hf by (unfold BUF_MAX; lia).
        revert Hf; generalize ((len - (pos + BUF_MAX) + (BUF_MAX - 1)) / BUF_MAX); lia.
      * replace (len - (pos + (len - pos)) + (BUF_MAX - 1)) with (BUF_MAX - 1) by lia.
        change ((BUF_MAX - 1) / BUF_MAX) with 0.
        assert (1 <= (len - pos + (BUF_MAX - 1)) / BUF_MAX)
          by (apply N.div_le_lower_bound; unfold BUF_MAX in *; lia).
        revert Hf H; generalize ((len - pos + (BUF_MAX - 1)) / BUF_MAX); lia.
  - replace (buf_todo L len pos) with 0 by (unfold buf_todo; destruct (N.ltb_spec pos L); [lia|reflexivity]).
    cbn [run obind]. rewrite Hdone. destruct (N.ltb_spec (lenN s) 0); [lia|].
    rewrite takeN_0, dropN_0, app_nil_r. reflexivity.
Qed.

Definition de_buf_body (c : cfg) (len : N) : prog (list N) :=
  if BUF_MAX <? len then
    Alloc BUF_MAX
      (st <- foldN (len / BUF_MAX + 2) (buf_step c len) (inl ([], 0, 0)) ;;
       match st with inr r => Ret r | inl _ => Crash PStack end)
  else
    Alloc len (ReadExact len ERead (fun b => Ret b)).
Lemma de_byte_buf_unfold c : de_byte_buf c = bind (dec_u64 ERead) (de_buf_body c).
Proof. reflexivity. Qed.

(** Bytes the buffer decoder reads for a declared length, on any platform. *)
Definition buf_total (c : cfg) (len : N) : N :=
  if BUF_MAX <? len then buf_todo (as_usize c len) len 0 else len.
Lemma buf_body_run c len s : wf_cfg c -> 4096 <= heap_limit c ->
  run c (de_buf_body c len) s =
  if lenN s <? buf_total c len then OErr ERead
  else OOk (takeN (buf_total c len) s) (dropN (buf_total c len) s).
Proof.
  intros Hc Hh. unfold de_buf_body, buf_total. destruct (N.ltb_spec BUF_MAX len) as [H|H].
  - cbn [run]. rewrite alloc_small by (unfold BUF_MAX; first [assumption | lia]).
    rewrite run_bind, run_foldN, (buf_loop_run c len _ eq_refl).
    + cbv zeta. destruct (lenN s <? _); cbn [obind]; [reflexivity|]. cbn [run rev concat app]. reflexivity.
    + lia.
    + rewrite N.sub_0_r, N2Nat.id.
      assert ((len + (BUF_MAX - 1)) / BUF_MAX <= len / BUF_MAX + 1); [|lia].
      replace (len / BUF_MAX + 1) with ((len + 1 * BUF_MAX) / BUF_MAX) by (apply N.div_add; unfold BUF_MAX; lia).
      apply N.div_le_mono; unfold BUF_MAX; lia.
  - cbn [run]. rewrite alloc_small by (unfold BUF_MAX in *; assumption).
    destruct (lenN s <? len); reflexivity.
Qed.
Lemma buf_total_exact c len : as_usize c len = len -> buf_total c len = len.
Proof.
  intros Hu; unfold buf_total, buf_todo, BUF_MAX. rewrite Hu. destruct (N.ltb_spec 4096 len); [|reflexivity].
  destruct (N.ltb_spec 0 len); [|lia]. rewrite N.sub_0_r.
  pose proof (N.div_mod (len + (4096 - 1)) 4096 ltac:(lia)) as E.
  pose proof (N.mod_lt (len + (4096 - 1)) 4096 ltac:(lia)). lia.
Qed.
Lemma parses_buf_body c bs : wf_cfg c -> 4096 <= heap_limit c -> as_usize c (lenN bs) = lenN bs ->
  parses c ERead (de_buf_body c (lenN bs)) bs bs.
Proof.
  intros Hc Hh Hu; split.
  - intros t; rewrite buf_body_run, buf_total_exact by assumption. rewrite takeN_app, dropN_app, lenN_app.
    destruct (N.ltb_spec (lenN bs + lenN t) (lenN bs)); [lia|reflexivity].
  - intros u' x t' ->. rewrite buf_body_run, buf_total_exact by assumption.
    destruct (N.ltb_spec (lenN u') (lenN (u' ++ x :: t'))) as [H|H]; [reflexivity|].
    rewrite lenN_app, lenN_cons in H; lia.
Qed.
Lemma parses_byte_buf c bs : wf_cfg c -> 4096 <= heap_limit c -> lenN bs < 2 ^ usize_bits c ->
  parses c ERead (de_byte_buf c) (enc_u64 (lenN bs) ++ bs) bs.
Proof.
  intros Hc Hh Hl.
  rewrite de_byte_buf_unfold. eapply parses_bind; [apply parses_u64, (lt_usize_64 c); assumption|].
  apply parses_buf_body; [exact Hc|exact Hh|apply as_usize_id; exact Hl].
Qed.
Lemma local_byte_buf c : local c ERead (de_byte_buf c).
Proof.
  rewrite de_byte_buf_unfold. apply local_bind; [apply local_dec_u64|]. intros len; unfold de_buf_body.
  destruct (BUF_MAX <? len); apply local_Alloc.
  - apply local_bind; [|intros [r|r]; [apply local_Crash|apply local_Ret]].
    apply local_foldN. intros [[[acc rl] pos]|r]; cbn [buf_step]; [|apply local_Ret].
    destruct (rl <? _); [|apply local_Ret]. apply local_ReadExact; intros; apply local_Ret.
  - apply local_ReadExact; intros; apply local_Ret.
Qed.
Lemma yields_byte_buf_len c : usize_bits c = 64 -> 4096 <= heap_limit c -> wf_cfg c ->
  yields c (de_byte_buf c) (fun bs => lenN bs < 2 ^ usize_bits c).
Proof.
  intros Hc Hh Hw. rewrite de_byte_buf_unfold. eapply yields_bind; [apply yields_u64|].
  intros len Hl s bs r _ H. assert (Hu : as_usize c len = len) by (apply as_usize_id; rewrite Hc; exact Hl).
  rewrite buf_body_run, buf_total_exact in H by assumption.
  destruct (lenN s <? len); [discriminate|]. injection H as <- _. rewrite lenN_takeN, Hc. eapply N.le_lt_trans; [apply N.le_min_l|exact Hl].
Qed.
Lemma yields_byte_buf c : yields c (de_byte_buf c) bytes_ok.
Proof.
  rewrite de_byte_buf_unfold. eapply yields_bind with (P := fun _ => True); [intros s a r _ _; exact I|].
  intros len _; unfold de_buf_body. destruct (BUF_MAX <? len); apply yields_Alloc.
  - eapply yields_bind.
    + apply yields_foldN with (P := fun st => match st with inl (acc, _, _) => Forall bytes_ok acc | inr r => bytes_ok r end).
      * constructor.
      * intros [[[acc rl] pos]|r] Hst; cbn [buf_step]; [|apply yields_Ret; exact Hst].
        destruct (rl <? _).
        -- apply yields_ReadExact; intros bs _ Hb; apply yields_Ret. constructor; assumption.
        -- apply yields_Ret. apply Forall_concat, Forall_rev, Hst.
    + intros [st|r] H; [apply yields_Crash|apply yields_Ret; exact H].
  - apply yields_ReadExact; intros bs _ Hb; apply yields_Ret, Hb.
Qed.

(** ** Sequences *)
Lemma parses_vec {A} c (p : prog A) us l : wf_cfg c -> Forall2 (parses c ERead p) us l ->
  lenN l < 2 ^ usize_bits c -> parses c ERead (de_vec c p) (enc_u64 (lenN l) ++ concat us) l.
Proof.
  intros Hc HF Hl. assert (lenN l < 2 ^ 64).
  { destruct (usize_bits_cases c Hc) as [E|E]; rewrite E in Hl; [|exact Hl].
    eapply N.lt_trans; [exact Hl|reflexivity]. }
  eapply parses_bind; [apply parses_u64; assumption|].
  rewrite as_usize_id by assumption. apply parses_repeatN; [exact HF|reflexivity].
Qed.
Lemma local_vec {A} c (p : prog A) : local c ERead p -> local c ERead (de_vec c p).
Proof. intros H; apply local_bind; [apply local_dec_u64|]; intros; apply local_repeatN, H. Qed.
Lemma yields_vec {A} c (p : prog A) P : yields c p P ->
  yields c (de_vec c p) (fun l => lenN l < 2 ^ usize_bits c /\ Forall P l).
Proof.
  intros H. eapply yields_bind with (P := fun _ => True); [intros s a r _ _; exact I|].
  intros n _. eapply yields_weaken; [apply yields_repeatN, H|].
  intros l [-> Hl]; split; [apply N.mod_lt, N.pow_nonzero; lia|exact Hl].
Qed.

(** Vec<u8> *)
Lemma concat_singletons (bs : list N) : concat (map (fun b => [b]) bs) = bs.
Proof. induction bs; cbn; congruence. Qed.
Lemma parses_vec_u8 c bs : wf_cfg c -> lenN bs < 2 ^ usize_bits c ->
  parses c ERead (de_vec c de_u8) (enc_u64 (lenN bs) ++ bs) bs.
Proof.
  intros Hc Hl. rewrite <- (concat_singletons bs) at 2. apply parses_vec; [exact Hc| |exact Hl].
  clear Hl; induction bs as [|b bs IH]; cbn [map]; [constructor|].
  constructor; [apply parses_byte|exact IH].
Qed.
