(** * Reading stops at the last byte of a value: C81. *)
From Coq Require Import String.
From Verif Require Import Base BaseFacts Serde Typing SerdeFacts SerdeProps Header SpecHeader HeaderFacts Body SpecBody BodyFacts Io SpecStop ExSerde StopFacts PropSerde PropHeader PropBody.
Local Open Scope list_scope.
Local Open Scope N_scope.

(** ** C81 *)
(** Every decoder, every build: if it takes the bytes [s] out of a longer input, then once the reader
    has delivered [s] it is not called again, whatever later calls would do (fail, block, deliver). *)
Theorem C81_stops : forall A c (p : prog A) s x t a evs later,
  run c p (s ++ x :: t) = OOk a (x :: t) -> delivered evs s -> exec c p (evs ++ later) = EOk a later.
Proof. exact @stops. Qed.
(** So the bytes written for a value, a header or a body are enough to get it back. *)
Theorem C81_value : forall c d v evs later, wf_cfg c -> 4096 <= heap_limit c -> wf_dty d = true -> has_ty c d v = true ->
  delivered evs (wbytes (ser v)) -> exec c (de c d) (evs ++ later) = EOk v later.
Proof.
  intros c d v evs later Hc Hh Hd Hv. apply (stops c (de c d) _ 0 []). apply (C10_roundtrip c d v [0] Hc Hh Hd Hv).
Qed.
Theorem C81_header : forall c depth h evs later, room c -> counts_fit h = true -> (hdepth h <= depth)%nat ->
  delivered evs (wbytes (hser h)) -> exec c (hde c depth) (evs ++ later) = EOk h later.
Proof.
  intros c depth h evs later Hr Hc Hd. apply (stops c (hde c depth) _ 0 []). apply (C20_header_roundtrip c depth h [0] Hr Hc Hd).
Qed.
Theorem C81_body : forall c h b evs later, wf_cfg c -> 4096 <= heap_limit c ->
  validate h b = true -> body_ok c b = true -> body_fits c b = true ->
  delivered evs (wbytes (bser c b)) -> exec c (bde c h) (evs ++ later) = EOk b later.
Proof.
  intros c h b evs later Hc Hh H1 H2 H3. apply (stops c (bde c h) _ 0 []). apply (C25_body_roundtrip c h b [0] Hc Hh H1 H2 H3).
Qed.
(** Two strings over a connection that would fail next; a unit needs no call at all. *)
Example C81_ex :
  let evs := [EvInterrupted; EvData [2; 104]; EvInterrupted; EvData [105]] in
  delivered evs [2; 104; 105] /\ run c64 (de c64 DString) ([2; 104; 105] ++ [0]) = OOk (SStr [104; 105]) [0] /\
  exec c64 (de c64 DString) (evs ++ [EvError]) = EOk (SStr [104; 105]) [EvError] /\
  exec c64 (de c64 DString) (evs ++ [EvInterrupted; EvError]) = EOk (SStr [104; 105]) [EvInterrupted; EvError] /\
  exec c64 (de c64 DUnit) [EvError] = EOk SUnit [EvError].
Proof.
  intros evs. split; [|repeat split].
  apply dl_interrupted, (dl_data 2 [104] _ [105]), dl_interrupted, (dl_data 105 [] _ []), dl_nothing.
Qed.
(** The empty string: one call, for its length. *)
Example C81_ex_empty : exec c64 (de c64 (DTuple [DString; DUnit])) ([EvData [0]] ++ [EvError]) = EOk (STuple [SStr []; SUnit]) [EvError].
Proof. reflexivity. Qed.
Print Assumptions C81_stops.
Print Assumptions C81_value.
Print Assumptions C81_header.
Print Assumptions C81_body.
