(** * Headers: C20 - C23, C52. *)
From Verif Require Import Base BaseFacts Header SpecHeader SpecRequest HeaderFacts.

(** ** C20 *)
Theorem C20_header_roundtrip : forall c depth h rest,
  room c -> counts_fit h = true -> (hdepth h <= depth)%nat ->
  wresult (hser h) = WeOk /\ run c (hde c depth) (wbytes (hser h) ++ rest) = OOk h rest.
Proof. exact hde_roundtrip. Qed.
(** A tuple or enum with any number of members: the decoder sees the number modulo 65536 and leaves
    the encodings of the other members unread; writing reports success. *)
Theorem C20_member_count_truncated : forall c depth f code hs rest,
  room c -> (f = HTuple /\ code = 21) \/ (f = HEnum /\ code = 24) ->
  forallb counts_fit hs = true -> (list_max (map hdepth hs) < depth)%nat ->
  let n := N.to_nat (lenN hs mod 2 ^ 16) in
  run c (hde c depth) (wbytes (hser (f hs)) ++ rest) =
    OOk (f (firstn n hs)) (wbytes (wconcat (map hser (skipn n hs))) ++ rest).
Proof. exact hde_truncates. Qed.
(** No input at all decodes to a header with an oversized member list. *)
Theorem C20_oversized_never_read : forall c depth s h r, bytes_ok s ->
  run c (hde c depth) s = OOk h r -> counts_fit h = true.
Proof. exact hde_fit. Qed.
Theorem C20_every_header_refuted : exists c depth h, room c /\ (hdepth h <= depth)%nat /\
  wresult (hser h) = WeOk /\ run c (hde c depth) (wbytes (hser h)) <> OOk h [].
Proof.
  exists (Cfg true 64 32 32 (2 ^ 40)), 2%nat, (HTuple (repeat HUnit (N.to_nat 65536))).
  split; [split; cbn; lia|]. split; [vm_compute; lia|]. split; [vm_compute; reflexivity|]. intros H.
  apply (f_equal (fun o => match o with OOk (HTuple l) _ => lenN l | _ => 1 end)) in H.
  vm_compute in H. discriminate.
Qed.
Example C20_ex :
  let h := HTuple [HOptional HString; HEnum [HUnit; HMap (HArray HInt64)]; HDate] in
  counts_fit h = true /\ hdepth h = 5%nat /\
  wbytes (hser h) = [21; 3; 1; 18; 24; 2; 0; 23; 20; 11; 25] /\
  run (Cfg true 64 32 32 (2 ^ 40)) (hde (Cfg true 64 32 32 (2 ^ 40)) 5) [21; 3; 1; 18; 24; 2; 0; 23; 20; 11; 25; 7] = OOk h [7].
Proof. repeat split; vm_compute; reflexivity. Qed.
Print Assumptions C20_header_roundtrip.
Print Assumptions C20_member_count_truncated.
Print Assumptions C20_oversized_never_read.
Print Assumptions C20_every_header_refuted.

(** ** C21 *)
Theorem C21_wire_format : forall h u, counts_fit h = true ->
  wbytes (hser h) = u <-> header_wire true u h.
Proof.
  intros h u Hc; split; [intros <-; apply hser_wire, Hc|]. intros W; symmetry; apply (proj1 wire_hser), W.
Qed.
Example C21_ex : header_wire true [24; 1; 1; 18] (HEnum [HOptional HString]).
Proof. apply C21_wire_format; reflexivity. Qed.
Print Assumptions C21_wire_format.

(** ** C22 *)
(** Accepted inputs are exactly the words of the grammar (non-shortest member counts allowed). *)
Theorem C22_accepts_grammar : forall c depth s h r, room c -> bytes_ok s -> (length s < depth)%nat ->
  (run c (hde c depth) s = OOk h r <-> exists u, s = u ++ r /\ header_wire false u h).
Proof. exact hde_accepts. Qed.
Theorem C22_failures : forall c depth s, room c -> bytes_ok s -> (length s < depth)%nat ->
  match run c (hde c depth) s with OOk _ _ => True | OErr e => e = EIo \/ e = EInvalid | OPanic _ => False end.
Proof.
  intros c depth s Hroom Hs Hd. pose proof (hde_ends c Hroom depth s Hs) as H.
  destruct (run c (hde c depth) s); [exact I|exact H|lia].
Qed.
Theorem C22_unassigned_code : forall c depth b s, (forall k, ~ In (b, k) code_table) ->
  run c (hde c (S depth)) (b :: s) = OErr EInvalid.
Proof.
  intros c depth b s H. rewrite run_hde_S. destruct (lookup_code code_table b) as [k|] eqn:E; [|reflexivity].
  apply code_in in E. destruct (H k E).
Qed.
(** What follows is irrelevant; any proper prefix of what was consumed is an I/O error. *)
Theorem C22_local : forall c depth s h r, room c -> bytes_ok s -> run c (hde c depth) s = OOk h r ->
  exists u, s = u ++ r /\ (forall t, run c (hde c depth) (u ++ t) = OOk h t) /\
    (forall u1 x t1, u = u1 ++ x :: t1 -> run c (hde c depth) u1 = OErr EIo).
Proof. intros c depth s h r Hroom Hs H. exact (hde_local c depth s h r Hroom Hs H (hde_depth c depth s h r H)). Qed.
Example C22_ex :
  let c := Cfg true 64 32 32 (2 ^ 40) in
  (* overlong member count *)
  run c (hde c 9) [21; 192; 1; 0; 2; 5] = OOk (HTuple [HBoolean]) [5] /\
  run c (hde c 9) [21; 1; 22] = OErr EInvalid /\ run c (hde c 9) [21; 2; 2] = OErr EIo /\
  (forall k, ~ In (22, k) code_table).
Proof.
  split; [vm_compute; reflexivity|]. split; [vm_compute; reflexivity|]. split; [vm_compute; reflexivity|].
  intros k H. apply code_in in H. discriminate.
Qed.
Print Assumptions C22_accepts_grammar.
Print Assumptions C22_failures.
Print Assumptions C22_unassigned_code.
Print Assumptions C22_local.

(** ** C23 *)
(** Size and depth of a decoded header are bounded by the consumed bytes, and the decoder recurses
    at most as deep as the input is long. *)
Theorem C23_bounded : forall c depth s h r, bytes_ok s -> run c (hde c depth) s = OOk h r ->
  (hdepth h <= hsize h)%nat /\ (hsize h + length r <= length s)%nat.
Proof.
  intros c depth s h r Hs H. split; [apply hdepth_hsize|]. apply hde_wire in H as (u & -> & W); [|exact Hs].
  pose proof (proj1 (proj1 (wire_size false) u h W)). rewrite app_length. lia.
Qed.
Theorem C23_recursion : forall c depth s, room c -> bytes_ok s ->
  run c (hde c depth) s = OPanic PStack -> (depth <= length s)%nat.
Proof.
  intros c depth s Hroom Hs H. pose proof (hde_ends c Hroom depth s Hs) as E. rewrite H in E. apply E.
Qed.
(** For every stack size there is a valid header, one byte longer, that overflows it. *)
Theorem C23_bounded_stack_refuted : forall c depth, exists s, length s = S depth /\
  run c (hde c depth) s = OPanic PStack /\ exists h, run c (hde c (S depth)) s = OOk h [].
Proof.
  intros c depth. exists (repeat 1 depth ++ [0]). rewrite app_length, repeat_length. split; [cbn [length]; lia|].
  destruct (hde_nested c depth []) as [H1 H2]. split; [exact H1|]. exists (nested depth); exact H2.
Qed.
Example C23_ex : exists c, room c /\ run c (hde c 3) [1; 20; 23; 2] = OPanic PStack /\
  run c (hde c 4) [1; 20; 23; 2] = OOk (HOptional (HArray (HMap HBoolean))) [].
Proof. exists (Cfg true 64 32 32 (2 ^ 40)). split; [split; cbn; lia|]. split; vm_compute; reflexivity. Qed.
Print Assumptions C23_bounded.
Print Assumptions C23_recursion.
Print Assumptions C23_bounded_stack_refuted.

(** ** C52 *)
(** All memory asked for while decoding a header, whether it succeeds or not. *)
Theorem C52_header_memory : forall c depth s, bytes_ok s ->
  2 * total (allocs c (hde c depth) s) <= 65535 * size_of_header c * lenN s.
Proof. intros c depth s Hs. pose proof (hde_total c depth s Hs). lia. Qed.
(** The factor is real: 16383 headers for 3 bytes, again and again. *)
Example C52_ex : let c := Cfg true 64 32 32 (2 ^ 40) in
  allocs c (hde c 9) [21; 191; 255; 24; 191; 255; 21; 191; 255] = [16383 * 32; 16383 * 32; 16383 * 32].
Proof. vm_compute. reflexivity. Qed.
Print Assumptions C52_header_memory.
