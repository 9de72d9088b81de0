(** * Strings, byte buffers, characters: C06 - C09. *)
From Verif Require Import Base BaseFacts Varint Utf8 Serde SpecUtf8 Utf8Facts PrimFacts TextFacts.

(** ** C06 *)
(** Any bytes, well-formed or not, written as a string with their length, are accepted exactly
    when they are well-formed UTF-8 and rejected with Err(Read) otherwise. *)
Theorem C06_utf8_exact : forall c bs rest,
  wf_cfg c -> lenN bs < 2 ^ usize_bits c -> bytes_ok bs -> bytes_ok rest ->
  (wellformed bs -> run c (de c DString) (wbytes (ser (SStr bs)) ++ rest) = OOk (SStr bs) rest) /\
  (~ wellformed bs -> run c (de c DString) (wbytes (ser (SStr bs)) ++ rest) = OErr ERead).
Proof. exact str_wire_iff. Qed.
(** Whatever the input and the platform, a decoded string is well-formed. *)
Theorem C06_decoded_wellformed : forall c s bs r, wf_cfg c -> bytes_ok s ->
  run c (de c DString) s = OOk (SStr bs) r -> wellformed bs.
Proof. exact str_yields. Qed.
(** The code of one character is that of the specification. *)
Theorem C06_char_utf8 : forall ch, scalar ch ->
  char_utf8 ch = utf8 ch /\ utf8_valid (utf8 ch) = true /\ next_char (utf8 ch) = Some ch.
Proof.
  intros ch H; split; [|split].
  - apply char_utf8_spec. unfold scalar in H. lia.
  - exact (utf8_valid_char ch H).
  - rewrite <- (app_nil_r (utf8 ch)). exact (next_char_utf8 ch [] H).
Qed.
Example C06_ex :
  wellformed [104; 195; 169; 240; 159; 152; 128] /\
  (* overlong, surrogate, above U+10FFFF, truncated *)
  utf8_valid [192; 128] = false /\ utf8_valid [237; 160; 128] = false /\
  utf8_valid [244; 144; 128; 128] = false /\ utf8_valid [226; 130] = false.
Proof.
  split; [|repeat split; reflexivity]. exists [104; 233; 128512]. split; [|reflexivity].
  repeat constructor; unfold scalar; lia.
Qed.
Print Assumptions C06_utf8_exact.
Print Assumptions C06_decoded_wellformed.
Print Assumptions C06_char_utf8.

(** ** C07 *)
Theorem C07_string_decode : forall c s, usize_bits c = 64 -> bytes_ok s ->
  (forall bs r, run c (de c DString) s = OOk (SStr bs) r <->
     exists n, run c (de c DU64) s = OOk (SU64 n) (bs ++ r) /\ lenN bs = n /\ wellformed bs) /\
  ((exists bs r, run c (de c DString) s = OOk (SStr bs) r) \/ run c (de c DString) s = OErr ERead).
Proof.
  intros c s Hc Hs; split; [|exact (str_err_pmap c s Hs)]. intros bs r.
  rewrite run_str_ok, (string_ok_iff c s bs r Hc Hs).
  split; intros (n & H1 & H2 & H3); exists n; rewrite utf8_valid_iff, ?run_len_ok in *; auto.
Qed.
Example C07_ex : exists c, usize_bits c = 64 /\
  run c (de c DString) [3; 97; 98; 99; 7] = OOk (SStr [97; 98; 99]) [7] /\
  run c (de c DString) [3; 97; 98] = OErr ERead /\
  (* 200 bytes: the streaming path *)
  run c (de c DString) ([136; 3] ++ repeat 97 200 ++ [7]) = OOk (SStr (repeat 97 200)) [7] /\
  run c (de c DString) ([136; 3] ++ repeat 97 199) = OErr ERead.
Proof. exists (Cfg true 64 1 1 4096). repeat split; vm_compute; reflexivity. Qed.
Print Assumptions C07_string_decode.

(** ** C08 *)
Theorem C08_buffer_decode : forall c s, wf_cfg c -> usize_bits c = 64 -> 4096 <= heap_limit c -> bytes_ok s ->
  (forall bs r, run c (de c DByteBuf) s = OOk (SBytes bs) r <->
     exists n, run c (de c DU64) s = OOk (SU64 n) (bs ++ r) /\ lenN bs = n) /\
  ((exists bs r, run c (de c DByteBuf) s = OOk (SBytes bs) r) \/ run c (de c DByteBuf) s = OErr ERead).
Proof.
  intros c s Hw Hc Hh Hs. exact (conj (fun bs r => buf_ok_iff c s bs r Hw Hc Hh Hs) (buf_err c s Hw Hh Hs)).
Qed.
Example C08_ex : exists c, wf_cfg c /\ usize_bits c = 64 /\ 4096 <= heap_limit c /\
  wbytes (ser (SBytes (repeat 255 (N.to_nat 5000)))) = [136; 78] ++ repeat 255 (N.to_nat 5000) /\
  (* two chunks: 4096 + 904 *)
  run c (de c DByteBuf) ([136; 78] ++ repeat 255 (N.to_nat 5000) ++ [7]) = OOk (SBytes (repeat 255 (N.to_nat 5000))) [7] /\
  run c (de c DByteBuf) ([136; 78] ++ repeat 255 (N.to_nat 4999)) = OErr ERead.
Proof.
  exists (Cfg true 64 1 1 4096). split; [split; [auto|split; reflexivity || discriminate]|].
  split; [reflexivity|]. split; [discriminate|]. repeat split; vm_compute; reflexivity.
Qed.
Print Assumptions C08_buffer_decode.

(** ** C09 *)
Theorem C09_char_roundtrip : forall c ch rest, wf_cfg c -> scalar ch ->
  wresult (ser (SChar ch)) = WeOk /\
  run c (de c DChar) (wbytes (ser (SChar ch)) ++ rest) = OOk (SChar ch) rest.
Proof.
  intros c ch rest Hw Hc; split; [reflexivity|]. apply is_scalar_iff in Hc.
  cbn [ser ser_str ser_u64 wseq wr wbytes]. rewrite app_nil_r.
  exact (proj1 (parses_pmap _ _ _ SChar _ _ (parses_char c ch Hw Hc)) rest).
Qed.
(** Decoding a char is decoding a string and taking its first character; it fails with CharSize
    exactly on the empty string and with Read otherwise. *)
Theorem C09_char_decode : forall c s, wf_cfg c -> bytes_ok s ->
  (forall ch r, run c (de c DChar) s = OOk (SChar ch) r <->
     scalar ch /\ exists t, run c (de c DString) s = OOk (SStr (utf8 ch ++ t)) r) /\
  (run c (de c DChar) s = OErr ECharSize <-> exists r, run c (de c DString) s = OOk (SStr []) r) /\
  ((exists ch r, run c (de c DChar) s = OOk (SChar ch) r) \/ run c (de c DChar) s = OErr ECharSize \/
   run c (de c DChar) s = OErr ERead).
Proof.
  intros c s Hw Hs. split; [exact (fun ch r => char_ok_iff c s ch r Hw Hs)|].
  exact (conj (char_err_iff c s Hw Hs) (char_err c s Hw Hs)).
Qed.
(** "Only one-character strings are accepted" is false. *)
Theorem C09_one_char_only_refuted : exists s, bytes_ok s /\
  forall c, exists ch bs, run c (de c DChar) s = OOk (SChar ch) [] /\
    run c (de c DString) s = OOk (SStr bs) [] /\ bs <> utf8 ch.
Proof.
  exists [2; 97; 98]. split; [repeat constructor|]. intros c. exists 97, [97; 98].
  split; [reflexivity|]. split; [reflexivity|discriminate].
Qed.
Example C09_ex : scalar 128512 /\ wbytes (ser (SChar 128512)) = [4; 240; 159; 152; 128] /\
  (forall c, run c (de c DChar) [0; 97] = OErr ECharSize).
Proof. split; [unfold scalar; lia|split; reflexivity]. Qed.
Print Assumptions C09_char_roundtrip.
Print Assumptions C09_char_decode.
Print Assumptions C09_one_char_only_refuted.
