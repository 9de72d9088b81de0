(** * C72: what a 64 bit target reads, a 32 bit target reads the same. *)
From Coq Require Import String.
From Verif Require Import Base BaseFacts Serde Typing Header Body SpecAccept SpecReads SpecPortable PortableFacts ExSerde.
Local Open Scope list_scope.
Local Open Scope N_scope.

(** ** C72 *)
(** Inputs below 4 GiB; types without usize and isize and without vectors of empty members. *)
Theorem C72_value : forall c c' d s v r, wf_cfg c -> wf_cfg c' -> usize_bits c = 64 ->
  overflow_checks c = overflow_checks c' -> 4096 <= heap_limit c -> 4096 <= heap_limit c' ->
  shaped d = true -> portable d = true -> bytes_ok s -> lenN s < 2 ^ 32 ->
  run c (de c d) s = OOk v r -> run c' (de c' d) s = OOk v r.
Proof. exact portable_de. Qed.
(** For bodies the vectors must also fit into the memory of the other target. *)
Theorem C72_body : forall c c' h s b r, wf_cfg c -> wf_cfg c' -> usize_bits c = 64 ->
  overflow_checks c = overflow_checks c' -> 4096 <= heap_limit c -> 4096 <= heap_limit c' ->
  header_portable h = true -> bytes_ok s -> lenN s < 2 ^ 32 -> fits c' (lenN s) -> fits c' (widest h) ->
  run c (bde c h) s = OOk b r -> run c' (bde c' h) s = OOk b r.
Proof. exact portable_bde. Qed.
(** The other way it does not hold: a 32 bit target reads strings a 64 bit target refuses. *)
Theorem C72_converse_refuted : exists c c' d s v r, wf_cfg c /\ wf_cfg c' /\ usize_bits c = 32 /\ usize_bits c' = 64 /\
  overflow_checks c = overflow_checks c' /\ 4096 <= heap_limit c /\ 4096 <= heap_limit c' /\
  shaped d = true /\ portable d = true /\ bytes_ok s /\ lenN s < 2 ^ 32 /\
  run c (de c d) s = OOk v r /\ run c' (de c' d) s = OErr ERead.
Proof.
  exists c32, (Cfg false 64 1 1 4096), DString, [255; 2; 0; 0; 0; 1; 0; 0; 0; 97; 98], (SStr [97; 98]), [].
  split; [split; [left; reflexivity|split; discriminate]|]. split; [split; [right; reflexivity|split; discriminate]|].
  do 6 (split; [first [reflexivity|discriminate]|]). split; [reflexivity|]. split; [repeat constructor|]. split; [reflexivity|]. split; vm_compute; reflexivity.
Qed.
(** Without the condition on the type: a usize. *)
Theorem C72_usize_refuted : exists c c' s v r, wf_cfg c /\ wf_cfg c' /\ usize_bits c = 64 /\
  overflow_checks c = overflow_checks c' /\ 4096 <= heap_limit c /\ 4096 <= heap_limit c' /\ bytes_ok s /\ lenN s < 2 ^ 32 /\
  run c (de c DUsize) s = OOk v r /\ run c' (de c' DUsize) s = OErr EMsg.
Proof.
  exists (Cfg false 64 1 1 4096), c32, [255; 0; 0; 0; 0; 1; 0; 0; 0], (SU64 4294967296), [].
  split; [split; [right; reflexivity|split; discriminate]|]. split; [split; [left; reflexivity|split; discriminate]|].
  do 4 (split; [first [reflexivity|discriminate]|]). split; [repeat constructor|]. split; [reflexivity|]. split; vm_compute; reflexivity.
Qed.

(** A map of vectors whose key has a length that is not in its shortest form. *)
Example C72_ex_value :
  let d := DMap (DVec (DStruct ["a"; "b"]%string [("a", DUnit); ("b", DU16)]%string)) in
  let s := [1; 129; 0; 120; 2; 7; 255; 1; 2; 9] in
  let c := Cfg false 64 1 1 4096 in
  portable d = true /\ shaped d = true /\ exists v, run c (de c d) s = OOk v [9] /\ run c32 (de c32 d) s = OOk v [9].
Proof. cbv zeta. split; [reflexivity|]. split; [reflexivity|]. eexists. split; vm_compute; reflexivity. Qed.
Example C72_ex_body :
  let h := HArray (HTuple [HUnit; HString]) in
  let s := [2; 1; 120; 0; 9] in
  let c := Cfg false 64 1 1 4096 in
  header_portable h = true /\ fits c32 (lenN s) /\ fits c32 (widest h) /\
  run c (bde c h) s = OOk (BArray [BTuple [BUnit; BString [120]]; BTuple [BUnit; BString []]]) [9] /\
  run c32 (bde c32 h) s = OOk (BArray [BTuple [BUnit; BString [120]]; BTuple [BUnit; BString []]]) [9].
Proof. cbv zeta. split; [reflexivity|]. split; [split; [reflexivity|discriminate]|]. split; [split; [reflexivity|discriminate]|]. split; vm_compute; reflexivity. Qed.

Print Assumptions C72_value.
Print Assumptions C72_body.
Print Assumptions C72_converse_refuted.
Print Assumptions C72_usize_refuted.
