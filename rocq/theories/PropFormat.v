(** * C73: what the modules of dlhn::format read from every input. *)
From Verif Require Import Base BaseFacts Serde Typing Big Time SpecVarint SpecBig SpecTime SpecAccept SpecReject SpecReads ReadsFacts SpecFormat FormatFacts ExSerde.
Local Open Scope list_scope.
Local Open Scope N_scope.

(** ** C73 *)
(** Big integers: the number a length and bytes stand for, unsigned or in two's complement. *)
Theorem C73_integers : forall c s, bytes_ok s ->
  (forall o, run c (fmt_de_biguint c) s = o <-> exists o', bytes_read (kept c) s o' /\ o = omap le_value o') /\
  (forall o, run c (fmt_de_bigint c) s = o <-> exists o', bytes_read (kept c) s o' /\ o = omap signed_value o').
Proof.
  intros c s Hs. split; intros o; [exact (does_iff c _ _ (does_fmt_uint c) s o Hs)|exact (does_iff c _ _ (does_fmt_int c) s o Hs)].
Qed.
Theorem C73_decimal : forall c s o, bytes_ok s -> (run c (fmt_de_bigdecimal c) s = o <-> format_decimal c s o).
Proof. intros c s o Hs. exact (does_iff c _ _ (does_fmt_decimal c) s o Hs). Qed.
Theorem C73_date : forall c s o, wf_cfg c -> bytes_ok s -> (run c (fmt_de_date c) s = o <-> format_date c s o).
Proof. intros c s o Hw Hs. exact (does_iff c _ _ (does_fmt_date c Hw) s o Hs). Qed.
Theorem C73_time : forall c s o, wf_cfg c -> bytes_ok s -> (run c fmt_de_datetime s = o <-> format_time s o).
Proof. intros c s o Hw Hs. exact (does_iff c _ _ (does_fmt_time c Hw) s o Hs). Qed.

Example C73_ex_integer : bytes_read (kept c64) [2; 0; 255; 9] (OOk [0; 255] [9]) /\
  run c64 (fmt_de_biguint c64) [2; 0; 255; 9] = OOk 65280 [9] /\ run c64 (fmt_de_bigint c64) [2; 0; 255; 9] = OOk (-256)%Z [9].
Proof.
  split; [|split; vm_compute; reflexivity]. apply (by_bytes _ [2] 2 [0; 255] [9]); [exists 2, []; vm_compute; auto|reflexivity].
Qed.
(** Digits of two zero bytes: no scale is read. *)
Example C73_ex_decimal : format_decimal c64 [2; 0; 0; 5] (OOk (0, 0)%Z [5]) /\ format_decimal c64 [1; 255; 5; 7] (OOk (-1, -3)%Z [7]) /\
  format_decimal c64 [1; 255] (OErr ERead).
Proof.
  split; [|split].
  - apply fd_zero with [0; 0]; [|reflexivity]. apply (by_bytes _ [2] 2 [0; 0] [5]); [exists 2, []; vm_compute; auto|reflexivity].
  - apply (fd_scale c64 _ [255] [5] 5 [7]); [|discriminate|exists 5, []; vm_compute; auto].
    apply (by_bytes _ [1] 1 [255] [5; 7]); [exists 1, []; vm_compute; auto|reflexivity].
  - apply (fd_short c64 _ [255] []); [|discriminate|left; reflexivity].
    apply (by_bytes _ [1] 1 [255] []); [exists 1, []; vm_compute; auto|reflexivity].
Qed.
(** Day 366 of a common year; day 366 of the year 2000. *)
Example C73_ex_date : format_date c64 [1; 173; 5; 9] (OErr EMsg) /\ run c64 (fmt_de_date c64) [1; 173; 5; 9] = OErr EMsg /\
  run c64 (fmt_de_date c64) [0; 173; 5; 9] = OOk (2000%Z, 366) [9].
Proof.
  assert (E : run c64 (fmt_de_date c64) [1; 173; 5; 9] = OErr EMsg) by (vm_compute; reflexivity).
  split; [|split; [exact E|vm_compute; reflexivity]]. apply C73_date; [split; [right; reflexivity|split; discriminate]|repeat constructor|exact E].
Qed.
(** Two seconds in nanoseconds are carried over; in the last second of the year 9999 they crash. *)
Example C73_ex_time : run c64 fmt_de_datetime [2; 240; 0; 148; 53; 119; 9] = OOk (Odt 3 0 0) [9] /\
  run c64 fmt_de_datetime [250; 191; 32; 250; 127; 29; 240; 0; 148; 53; 119; 9] = OPanic PTime.
Proof. split; vm_compute; reflexivity. Qed.

Print Assumptions C73_integers.
Print Assumptions C73_decimal.
Print Assumptions C73_date.
Print Assumptions C73_time.
