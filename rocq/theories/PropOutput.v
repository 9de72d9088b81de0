(** * C70: what is written for every value, and how writing ends. *)
From Coq Require Import String.
From Verif Require Import Base Varint Serde Typing Header Body SpecBody SpecVarint SpecOutput SpecAccept ExSerde
  SerdeFacts SerdeMore OutputFacts PropSerde PropAccept.
Local Open Scope list_scope.
Local Open Scope N_scope.

(** ** C70 *)
Theorem C70_value : forall v u r, representable v ->
  (output v u r <-> wbytes (ser v) = u /\ wresult (ser v) = r).
Proof. exact output_iff. Qed.
Theorem C70_body : forall c b u r, wf_cfg c -> body_ok c b = true ->
  (body_output c b u r <-> wbytes (bser c b) = u /\ wresult (bser c b) = r).
Proof. exact body_output_iff. Qed.
(** Values of supported types are covered, and writing them does not fail. *)
Theorem C70_typed : forall c d v, wf_cfg c -> 4096 <= heap_limit c -> wf_dty d = true -> has_ty c d v = true ->
  representable v /\ exists u, output v u WeOk.
Proof.
  intros c d v Hw Hh Hd Hv. pose proof (typed_representable c d v Hw Hd Hv) as HR. split; [exact HR|].
  exists (wbytes (ser v)). apply C70_value; [exact HR|]. split; [reflexivity|]. apply (C10_roundtrip c d v [] Hw Hh Hd Hv).
Qed.
(** Of all the inputs accepted as a value, the one written is the shortest. *)
Theorem C70_shortest : forall c d u v, wf_cfg c -> usize_bits c = 64 -> 4096 <= heap_limit c ->
  wf_dty d = true -> bytes_ok u -> accepts c d u v ->
  exists w, output v w WeOk /\ accepts c d w v /\ lenN w <= lenN u.
Proof.
  intros c d u v Hw H64 Hh Hd Hu H. pose proof (wf_shaped d Hd) as Hsh.
  assert (E : run c (de c d) u = OOk v []) by (apply C67_value; [assumption..|]; exists u; split; [symmetry; apply app_nil_r|exact H]).
  destruct (C50_decode_encode_decode c d u v [] [] Hw Hh Hd Hu (or_introl H64) E) as (Ht & Hok & E2).
  pose proof (C49_reencode_never_longer c d u v [] Hw Hh Hd Hu E) as Hlen.
  pose proof (C70_typed c d v Hw Hh Hd Ht) as [HR _]. exists (wbytes (ser v)).
  split; [apply C70_value; auto|]. split; [|unfold lenN in *; cbn [length] in Hlen; lia].
  rewrite app_nil_r in E2. apply C67_value in E2; [|assumption..|].
  - destruct E2 as (w & Ew & Ha). rewrite app_nil_r in Ew. rewrite Ew. exact Ha.
  - apply (typed_bytes c d v Hw Ht).
Qed.

(** A map whose second key is not a string: the count, the first entry, and the error. *)
Example C70_ex_key : output (SMap (Some 2) [(SStr [97; 98], SSome (SU16 300)); (SU8 1, SUnit)])
    [2; 2; 97; 98; 1; 172; 4] (WeErr SEKey).
Proof. apply C70_value; [repeat split|split; reflexivity]. Qed.
(** A sequence of unknown length stops at its first 128-bit number. *)
Example C70_ex_seq : output (STuple [SSeq None [SI16 (-3); SChar 233; SI128 7; SBool true]; SUnit]) [5; 2; 195; 169] (WeErr SEMsg).
Proof. apply C70_value; [|split; reflexivity]. repeat split; try discriminate. left. reflexivity. Qed.
(** A part whose impl returns an error of its own, e.g. a value of a skipped variant. *)
Example C70_ex_error : output (SStruct [("a"%string, SU16 300); ("b"%string, SSome SError); ("c"%string, SBool true)]) [172; 4; 1] (WeErr SEMsg).
Proof. apply C70_value; [repeat split|split; reflexivity]. Qed.
Example C70_ex_typed : output ex_val (wbytes (ser ex_val)) WeOk.
Proof.
  apply C70_value; [|split; reflexivity].
  apply (C70_typed c64 ex_dty ex_val); [split; [right; reflexivity|split; discriminate]|discriminate|reflexivity|reflexivity].
Qed.
(** A date whose day is zero: a panic after the year, or a wrapped day. *)
Example C70_ex_date : body_output c64 (BTuple [BUInt8 9; BDate 2024 0]) [9; 48] (WePanic POverflow) /\
  body_output c32 (BTuple [BUInt8 9; BDate 2024 0]) [9; 48; 192; 255; 255] WeOk.
Proof.
  split; (apply C70_body; [split; [(left + right); reflexivity|split; discriminate]|reflexivity|split; reflexivity]).
Qed.
(** Two bytes are accepted as the u16 5; one is written. *)
Example C70_ex_shortest : accepts c64 DU16 [133; 0] (SU16 5) /\ output (SU16 5) [5] WeOk.
Proof.
  split; [|apply C70_value; [reflexivity|split; reflexivity]]. apply ac_u16. exists 133, [0]. repeat split.
Qed.
Print Assumptions C70_value.
Print Assumptions C70_body.
Print Assumptions C70_typed.
Print Assumptions C70_shortest.
