(** * Dynamic bodies: C25 - C28, C30, C31, the Body parts of C32 and C33, C53. *)
From Verif Require Import Base BaseFacts Varint VarintFacts Serde Header Body SpecVarint SpecBody SpecHeader SpecRequest ExSerde
  Consume SerdeSafe HeaderFacts PrimFacts BodyFacts WireBytes.
Local Open Scope N_scope.

(** A header and a body used in the examples. *)
Definition ex_h : header := HTuple [HArray (HOptional HInt32); HMap HString; HEnum [HUnit; HBigDecimal]; HDate].
Definition ex_b : body :=
  BTuple [BArray [BOptional None; BOptional (Some (BInt32 (-70000)%Z))]; BMap [([97], BString [195; 169]); ([98], BString [])];
          BEnum 1 (BBigDecimal [5; 1] (-3)%Z); BDate 2022 366].
Definition ex_u : list N := [2; 0; 1; 223; 22; 17; 2; 1; 97; 2; 195; 169; 1; 98; 0; 1; 2; 5; 1; 5; 44; 173; 5].

(** ** C25 *)
Theorem C25_body_roundtrip : forall c h b rest, wf_cfg c -> 4096 <= heap_limit c ->
  validate h b = true -> body_ok c b = true -> body_fits c b = true ->
  wresult (bser c b) = WeOk /\ run c (bde c h) (wbytes (bser c b) ++ rest) = OOk b rest.
Proof.
  intros c h b rest Hc Hh H1 H2 H3. destruct (body_roundtrip c h b Hc Hh H1 H2 H3) as [Hr [Hp _]]. split; [exact Hr|apply Hp].
Qed.
(** Validation alone is not enough: a date far from 2000 cannot be written in a build with overflow checks. *)
Theorem C25_every_body_refuted : exists c h b, wf_cfg c /\ 4096 <= heap_limit c /\
  validate h b = true /\ body_ok c b = true /\ wresult (bser c b) = WePanic POverflow.
Proof.
  exists c64, HDate, (BDate (-2147483648) 1). split; [repeat split; cbn; lia|]. split; [cbn; lia|].
  repeat split; vm_compute; reflexivity.
Qed.
Example C25_ex : validate ex_h ex_b = true /\ body_ok c64 ex_b = true /\ body_fits c64 ex_b = true /\
  body_ok c32 ex_b = true /\ body_fits c32 ex_b = true /\
  wbytes (bser c64 ex_b) = ex_u /\ run c64 (bde c64 ex_h) (ex_u ++ [7]) = OOk ex_b [7].
Proof. repeat split; vm_compute; reflexivity. Qed.
Print Assumptions C25_body_roundtrip.
Print Assumptions C25_every_body_refuted.

(** ** C26 *)
(** The bodies that can be decoded under a header are exactly those which [validate] accepts (among
    the values of the Rust type that fit in memory and, under overflow checks, can be written). *)
Theorem C26_decoded_iff_valid : forall c h b, wf_cfg c -> 4096 <= heap_limit c ->
  body_ok c b = true -> body_fits c b = true ->
  (validate h b = true <-> exists s r, bytes_ok s /\ run c (bde c h) s = OOk b r).
Proof.
  intros c h b Hc Hh H2 H3. split.
  - intros H1. exists (wbytes (bser c b)), []. destruct (body_roundtrip c h b Hc Hh H1 H2 H3) as [Hr [Hp _]]. split.
    + apply body_bytes_ok; assumption.
    + rewrite <- (app_nil_r (wbytes _)). apply Hp.
  - intros (s & r & Hs & H). apply (body_validates c h Hc s b r Hs H).
Qed.
Theorem C26_decoded_validates : forall c h s b r, wf_cfg c -> bytes_ok s -> run c (bde c h) s = OOk b r ->
  validate h b = true /\
  (usize_bits c = 64 -> 4096 <= heap_limit c -> body_ok c b = true /\ body_fits c b = true).
Proof.
  intros c h s b r Hc Hs H. split; [exact (body_validates c h Hc s b r Hs H)|].
  intros H64 Hh. exact (proj2 (body_yields c h Hc H64 Hh s b r Hs H)).
Qed.
Example C26_ex : run c64 (bde c64 (HArray HUInt16)) [2; 192; 1; 0; 5] = OOk (BArray [BUInt16 1; BUInt16 5]) [] /\
  validate (HArray HUInt16) (BArray [BUInt16 1; BUInt16 5]) = true /\
  validate (HArray HUInt32) (BArray [BUInt16 1; BUInt16 5]) = false /\
  validate (HTuple [HUInt16]) (BTuple [BUInt16 1; BUInt16 5]) = false.
Proof. repeat split; vm_compute; reflexivity. Qed.
(** The same on a 32-bit target. *)
Example C26_ex_32 : run c32 (bde c32 (HEnum [HUnit; HMap HUInt8])) [1; 130; 0; 1; 97; 5; 1; 98; 6] =
    OOk (BEnum 1 (BMap [([97], BUInt8 5); ([98], BUInt8 6)])) [] /\
  validate (HEnum [HUnit; HMap HUInt8]) (BEnum 1 (BMap [([97], BUInt8 5); ([98], BUInt8 6)])) = true.
Proof. split; vm_compute; reflexivity. Qed.
Print Assumptions C26_decoded_iff_valid.
Print Assumptions C26_decoded_validates.

(** ** C27 *)
Theorem C27_truncated : forall c h b u x t, wf_cfg c -> 4096 <= heap_limit c ->
  validate h b = true -> body_ok c b = true -> body_fits c b = true ->
  wbytes (bser c b) = u ++ x :: t -> run c (bde c h) u = OErr ERead.
Proof.
  intros c h b u x t Hc Hh H1 H2 H3 E. destruct (body_roundtrip c h b Hc Hh H1 H2 H3) as [Hr [_ Hp]]. eapply Hp, E.
Qed.
(** The same for every accepted input, canonical or not; what follows is never looked at. *)
Theorem C27_local : forall c h s b r, usize_bits c = 64 -> bytes_ok s -> run c (bde c h) s = OOk b r ->
  exists u, s = u ++ r /\ (forall t, run c (bde c h) (u ++ t) = OOk b t) /\
    (forall u1 x t, u = u1 ++ x :: t -> run c (bde c h) u1 = OErr ERead).
Proof. intros c h s b r H64 Hs H. exact (body_local c h H64 s b r Hs H). Qed.
Example C27_ex : Forall (fun k => run c64 (bde c64 ex_h) (firstn k ex_u) = OErr ERead) (seq 0 23).
Proof. repeat constructor. Qed.
Print Assumptions C27_truncated.
Print Assumptions C27_local.

(** ** C28 *)
Theorem C28_wire_format : forall c b, wf_cfg c -> body_ok c b = true -> dates_plain b = true ->
  wresult (bser c b) = WeOk /\ wbytes (bser c b) = body_bytes b.
Proof. exact body_wire. Qed.
Example C28_ex : dates_plain ex_b = true /\ body_bytes ex_b = ex_u.
Proof. split; vm_compute; reflexivity. Qed.
Print Assumptions C28_wire_format.

(** ** C30 *)
Theorem C30_messages : forall c depth ms rest, wf_cfg c -> 4096 <= heap_limit c -> room c ->
  Forall (fun m => counts_fit (fst m) = true /\ (hdepth (fst m) <= depth)%nat /\
                   validate (fst m) (snd m) = true /\ body_ok c (snd m) = true /\ body_fits c (snd m) = true) ms ->
  reads_messages c depth (flat_map (message_bytes c) ms ++ rest) ms rest /\
  (forall ms' r', reads_messages c depth (flat_map (message_bytes c) ms ++ rest) ms' r' ->
     length ms' = length ms -> ms' = ms /\ r' = rest).
Proof.
  intros c depth ms rest Hc Hh Hr H. pose proof (messages_stream c depth ms rest Hc Hh Hr H) as M. split; [exact M|].
  intros ms' r' M' L. exact (reads_messages_det _ _ _ _ _ _ _ M' M L).
Qed.
Example C30_ex : let c := Cfg true 64 32 32 (2 ^ 40) in
  room c /\ hdepth ex_h = 4%nat /\
  flat_map (message_bytes c) [(HBoolean, BBoolean true); (HArray HUnit, BArray [BUnit; BUnit]); (ex_h, ex_b)] =
    [2; 1; 20; 0; 2; 21; 4; 20; 1; 10; 23; 18; 24; 2; 0; 17; 25] ++ ex_u.
Proof. split; [split; cbn; lia|]. split; vm_compute; reflexivity. Qed.
Print Assumptions C30_messages.

(** ** C31 *)
Theorem C31_reencode : forall c h s b r, wf_cfg c -> 4096 <= heap_limit c ->
  bytes_ok s -> run c (bde c h) s = OOk b r ->
  lenN (wbytes (bser c b)) + lenN r <= lenN s /\
  (usize_bits c = 64 -> wresult (bser c b) = WeOk /\
    forall t, run c (bde c h) (wbytes (bser c b) ++ t) = OOk b t).
Proof.
  intros c h s b r Hc Hh Hs H. split.
  - destruct (body_reencode c h Hc Hh s b r Hs H) as (n & En & Hn). unfold bsize, SerdeSize.wsize in Hn. lia.
  - intros H64. destruct (body_yields c h Hc H64 Hh s b r Hs H) as (H1 & H2 & H3).
    destruct (body_roundtrip c h b Hc Hh H1 H2 H3) as [Hr [Hp _]]. split; [exact Hr|exact Hp].
Qed.
(** Overlong length and an overwritten map entry: eight bytes become four. *)
Example C31_ex : run c64 (bde c64 (HMap HUInt8)) [130; 0; 1; 97; 5; 1; 97; 6; 3] = OOk (BMap [([97], BUInt8 6)]) [3] /\
  wbytes (bser c64 (BMap [([97], BUInt8 6)])) = [1; 1; 97; 6].
Proof. split; vm_compute; reflexivity. Qed.
(** The same on a 32-bit target. *)
Example C31_ex_32 : run c32 (bde c32 (HMap HUInt8)) [130; 0; 1; 97; 5; 1; 97; 6; 3] = OOk (BMap [([97], BUInt8 6)]) [3] /\
  lenN (wbytes (bser c32 (BMap [([97], BUInt8 6)]))) + 1 <= 9.
Proof. split; vm_compute; [reflexivity|discriminate]. Qed.
Print Assumptions C31_reencode.

(** ** C32 *)
(** A body can only make the decoder crash through date arithmetic (with overflow checks), or
    through an array (or a tuple whose members alone do not fit in memory). *)
Theorem C32_body_crash : forall c h s q, wf_cfg c -> 4096 <= heap_limit c -> bytes_ok s ->
  run c (bde c h) s = OPanic q ->
  (q = POverflow /\ overflow_checks c = true /\ hoccurs is_hdate h = true) \/
  ((q = PCapacity \/ q = PAlloc) /\ (hoccurs is_harray h = true \/ hoccurs (is_bigtuple c) h = true)).
Proof. intros c h s q Hc Hh Hs H. pose proof (body_ends c h Hc Hh s Hs) as E. rewrite H in E. exact E. Qed.
(** Every array header is such a case: whatever the element, the declared length alone decides. *)
Theorem C32_body_array_crash : forall c h n rest, wf_cfg c -> usize_bits c = 64 -> n < 2 ^ 64 ->
  vec_room c n = false ->
  exists q, run c (bde c (HArray h)) (varint_bytes 8 n ++ rest) = OPanic q /\
    q = (if 2 ^ 63 <=? n * size_of_body c then PCapacity else PAlloc).
Proof.
  intros c h n rest Hc H64 Hn Hv. rewrite array_run by exact Hn.
  rewrite as_usize_id by (rewrite H64; exact Hn).
  unfold vec_room in Hv. unfold alloc_result. unfold isize_max in *. rewrite H64 in *. change (2 ^ (64 - 1) - 1) with (2 ^ 63 - 1) in *.
  destruct (N.leb_spec (2 ^ 63) (n * size_of_body c)), (N.ltb_spec (2 ^ 63 - 1) (n * size_of_body c)); try lia.
  - eexists; split; reflexivity.
  - destruct (N.ltb_spec (heap_limit c) (n * size_of_body c)); [|lia]. eexists; split; reflexivity.
Qed.
(** Nine bytes crash the decoder for every array header on every 64-bit platform. *)
Theorem C32_body_no_crash_refuted : exists s, length s = 9%nat /\ bytes_ok s /\
  forall c h rest, wf_cfg c -> usize_bits c = 64 -> run c (bde c (HArray h)) (s ++ rest) = OPanic PCapacity.
Proof.
  exists (varint_bytes 8 (2 ^ 64 - 1)). split; [reflexivity|]. split; [repeat constructor; vm_compute; reflexivity|].
  intros c h rest Hc H64. destruct (C32_body_array_crash c h (2 ^ 64 - 1) rest Hc H64 ltac:(lia)) as (q & -> & ->).
  - unfold vec_room, isize_max. rewrite H64. destruct Hc as (_ & Hb & _). change (2 ^ (64 - 1) - 1) with (2 ^ 63 - 1). nia.
  - destruct Hc as (_ & Hb & _). destruct (N.leb_spec (2 ^ 63) ((2 ^ 64 - 1) * size_of_body c)); [reflexivity|nia].
Qed.
Example C32_body_ex : vec_room c64 8000 = false /\
  run c64 (bde c64 (HArray HUInt8)) (varint_bytes 8 8000 ++ [1; 2]) = OPanic PAlloc /\
  run c64 (bde c64 (HArray HUInt8)) (varint_bytes 8 3 ++ [1; 2]) = OErr ERead /\
  run c64 (bde c64 HDate) [240; 254; 255; 255; 255; 0] = OPanic POverflow /\
  run c64 (bde c64 (HMap HUInt8)) [255; 255; 255; 255; 255; 255; 255; 255; 255] = OErr ERead.
Proof. repeat split; vm_compute; reflexivity. Qed.
Print Assumptions C32_body_crash.
Print Assumptions C32_body_array_crash.
Print Assumptions C32_body_no_crash_refuted.

(** ** C33 *)
(** Without arrays no request exceeds the larger of 4096 and the largest tuple of the header. *)
Theorem C33_body_requests : forall c h s B, 4096 <= B ->
  hoccurs is_harray h = false -> hoccurs (is_tuple_over B c) h = false ->
  Forall (fun n => n <= B) (requests c (bde c h) s).
Proof. intros c h s B HB H1 H2. exact (small_requests B c (bde c h) s (body_small c B h HB H1 H2)). Qed.
(** With an array at most nine bytes of input suffice to request any amount. *)
Theorem C33_body_bounded_refuted : forall c h B, wf_cfg c -> usize_bits c = 64 -> B < 2 ^ 64 ->
  exists s n, (length s <= 9)%nat /\ bytes_ok s /\ In n (requests c (bde c (HArray h)) s) /\ B <= n.
Proof.
  intros c h B Hc H64 HB. exists (varint_bytes 8 B ++ []), (B * size_of_body c).
  pose proof (array_request c h B [] HB) as Hin. rewrite as_usize_id in Hin by (rewrite H64; exact HB).
  split; [|split; [|split; [exact Hin|]]].
  - rewrite app_nil_r. apply varint_bytes_len; [unfold varint_m; auto|]; apply HB.
  - rewrite app_nil_r. apply varint_bytes_ok; [unfold varint_m; auto|exact HB].
  - destruct Hc as (_ & Hb & _). nia.
Qed.
Example C33_body_ex :
  requests c64 (bde c64 (HArray HUInt8)) [240; 0; 0; 0; 1] = [1; 4; 134217728] /\
  requests c64 (bde c64 (HMap HUInt8)) [240; 0; 0; 0; 1] = [1; 4; 1].
Proof. split; vm_compute; reflexivity. Qed.
Print Assumptions C33_body_requests.
Print Assumptions C33_body_bounded_refuted.

(** ** C53 *)
Theorem C53_body_size : forall c h s b r, bytes_ok s -> hoccurs is_free_array h = false ->
  run c (bde c h) s = OOk b r ->
  lenN r <= lenN s /\ N.of_nat (nodes b) <= N.of_nat (hsize h) * N.max 1 (lenN s - lenN r).
Proof.
  intros c h s b r Hs Hf H. destruct (body_nodes_bound c h Hf s b r Hs H) as (n & En & Hn). cbv beta in Hn.
  split; [lia|]. replace (lenN s - lenN r) with n by lia. exact Hn.
Qed.
(** An array of units has as many elements as declared, while its encoding has at most nine bytes. *)
Theorem C53_unrestricted_refuted : forall c n, wf_cfg c -> vec_room c n = true ->
  exists s b, (length s <= 9)%nat /\ bytes_ok s /\
    run c (bde c (HArray HUnit)) s = OOk b [] /\ nodes b = S (N.to_nat n).
Proof.
  intros c n Hc Hv. assert (Hu : n < 2 ^ usize_bits c /\ n < 2 ^ 64).
  { unfold vec_room, isize_max in Hv. destruct Hc as ([E|E] & Hb & _); rewrite E in *.
    - change (2 ^ (32 - 1) - 1) with 2147483647 in Hv. split; [|change (2 ^ 64) with 18446744073709551616];
        change (2 ^ 32) with 4294967296; nia.
    - change (2 ^ (64 - 1) - 1) with (2 ^ 63 - 1) in Hv. split; nia. }
  exists (varint_bytes 8 n ++ []), (BArray (repeat BUnit (N.to_nat n))).
  split; [|split; [|split]].
  - rewrite app_nil_r. apply varint_bytes_len; [unfold varint_m; auto|]; apply Hu.
  - rewrite app_nil_r. apply varint_bytes_ok; [unfold varint_m; auto|apply Hu].
  - apply unit_array; tauto.
  - cbn [nodes]. f_equal. induction (N.to_nat n) as [|k IH]; [reflexivity|]. cbn [repeat map list_sum fold_right nodes].
    fold (list_sum (map nodes (repeat BUnit k))). lia.
Qed.
Example C53_ex : hoccurs is_free_array ex_h = false /\ nodes ex_b = 11%nat /\ hsize ex_h = 10%nat /\
  hoccurs is_free_array (HArray (HTuple [HUnit; HTuple []])) = true /\
  run (Cfg true 64 32 32 (2 ^ 40)) (bde (Cfg true 64 32 32 (2 ^ 40)) (HArray HUnit)) [5] = OOk (BArray (repeat BUnit 5)) [].
Proof. repeat split; vm_compute; reflexivity. Qed.
Print Assumptions C53_body_size.
Print Assumptions C53_unrestricted_refuted.
