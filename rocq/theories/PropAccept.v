(** * C67: the inputs that decode, and what they decode to. *)
From Coq Require Import String Sorted.
From Verif Require Import Base BaseFacts Serde Typing Header Body SpecVarint SpecUtf8 SpecMap SpecAccept AcceptFacts ExSerde.
Local Open Scope list_scope.
Local Open Scope N_scope.

(** ** C67 *)
(** On 64 bit targets the reader accepts exactly the inputs that start with a code of a value of the
    type, gives that value and leaves the rest. Codes need not be the shortest. *)
Theorem C67_value : forall c d s v r, wf_cfg c -> usize_bits c = 64 -> 4096 <= heap_limit c -> shaped d = true ->
  bytes_ok s -> (run c (de c d) s = OOk v r <-> exists u, s = u ++ r /\ accepts c d u v).
Proof. intros c d s v r Hw H64 Hh Hd Hs. exact (lang_de c Hw H64 Hh d Hd s v r Hs). Qed.
Theorem C67_body : forall c h s b r, wf_cfg c -> usize_bits c = 64 -> 4096 <= heap_limit c ->
  bytes_ok s -> (run c (bde c h) s = OOk b r <-> exists u, s = u ++ r /\ body_accepts c h u b).
Proof. intros c h s b r Hw H64 Hh Hs. exact (lang_bde c Hw H64 Hh h s b r Hs). Qed.
(** No input has two readings, nor is a code the start of another. *)
Theorem C67_value_unambiguous : forall c d u v r u' v' r', wf_cfg c -> usize_bits c = 64 -> 4096 <= heap_limit c ->
  shaped d = true -> bytes_ok (u ++ r) -> u ++ r = u' ++ r' -> accepts c d u v -> accepts c d u' v' -> u = u' /\ v = v'.
Proof.
  intros c d u v r u' v' r' Hw H64 Hh Hd Hs E H H'.
  assert (H1 : run c (de c d) (u ++ r) = OOk v r) by (apply C67_value; eauto).
  assert (H2 : run c (de c d) (u ++ r) = OOk v' r') by (apply C67_value; eauto).
  rewrite H1 in H2. injection H2 as <- <-. split; [exact (app_inv_tail _ _ _ E)|reflexivity].
Qed.
Theorem C67_body_unambiguous : forall c h u b r u' b' r', wf_cfg c -> usize_bits c = 64 -> 4096 <= heap_limit c ->
  bytes_ok (u ++ r) -> u ++ r = u' ++ r' -> body_accepts c h u b -> body_accepts c h u' b' -> u = u' /\ b = b'.
Proof.
  intros c h u b r u' b' r' Hw H64 Hh Hs E H H'.
  assert (H1 : run c (bde c h) (u ++ r) = OOk b r) by (apply C67_body; eauto).
  assert (H2 : run c (bde c h) (u ++ r) = OOk b' r') by (apply C67_body; eauto).
  rewrite H1 in H2. injection H2 as <- <-. split; [exact (app_inv_tail _ _ _ E)|reflexivity].
Qed.

(** A map with a repeated key, both values in two bytes where one would do; a struct of the example;
    an input that is no code at all. *)
Example C67_ex_map :
  run c64 (de c64 (DMap DU16)) [2; 1; 98; 133; 0; 1; 98; 134; 0; 77] = OOk (SMap (Some 1) [(SStr [98], SU16 6)]) [77] /\
  accepts c64 (DMap DU16) [2; 1; 98; 133; 0; 1; 98; 134; 0] (SMap (Some 1) [(SStr [98], SU16 6)]) /\
  (forall u v r, [2; 1; 98; 133; 0; 1] = u ++ r -> ~ accepts c64 (DMap DU16) u v).
Proof.
  assert (R : run c64 (de c64 (DMap DU16)) [2; 1; 98; 133; 0; 1; 98; 134; 0; 77] = OOk (SMap (Some 1) [(SStr [98], SU16 6)]) [77])
    by (vm_compute; reflexivity).
  split; [exact R|]. split.
  - apply (C67_value c64) in R as (u & E & H); [|first [split; [right; reflexivity|split; discriminate]|reflexivity|discriminate]..|repeat constructor].
    replace [2; 1; 98; 133; 0; 1; 98; 134; 0; 77] with ([2; 1; 98; 133; 0; 1; 98; 134; 0] ++ [77]) in E by reflexivity.
    apply app_inv_tail in E. subst u. exact H.
  - intros u v r E H.
    assert (run c64 (de c64 (DMap DU16)) [2; 1; 98; 133; 0; 1] = OOk v r) as R'
      by (apply C67_value; [first [split; [right; reflexivity|split; discriminate]|reflexivity|discriminate]..|repeat constructor|eauto]).
    vm_compute in R'. discriminate R'.
Qed.
Example C67_ex_struct : accepts c64 ex_dty ex_bytes ex_val.
Proof.
  assert (R : run c64 (de c64 ex_dty) ex_bytes = OOk ex_val []) by (vm_compute; reflexivity).
  apply (C67_value c64) in R as (u & E & H); [|first [split; [right; reflexivity|split; discriminate]|reflexivity|discriminate]..|repeat constructor].
  rewrite app_nil_r in E. subst u. exact H.
Qed.
(** An array of optional enums, its count in nine bytes. *)
Example C67_ex_body :
  body_accepts c64 (HArray (HOptional (HEnum [HUnit; HInt8]))) [255; 2; 0; 0; 0; 0; 0; 0; 0; 0; 1; 1; 254]
    (BArray [BOptional None; BOptional (Some (BEnum 1 (BInt8 (-2))))]) /\
  run c64 (bde c64 (HArray (HOptional (HEnum [HUnit; HInt8])))) [255; 2; 0; 0; 0; 0; 0; 0; 0; 0; 1; 1; 254; 9] =
    OOk (BArray [BOptional None; BOptional (Some (BEnum 1 (BInt8 (-2))))]) [9].
Proof.
  split; [|vm_compute; reflexivity].
  apply (ba_array c64 _ [255; 2; 0; 0; 0; 0; 0; 0; 0] [0; 1; 1; 254]);
    [exists 255, [2; 0; 0; 0; 0; 0; 0; 0]; vm_compute; auto|vm_compute; reflexivity|].
  apply (bas_cons c64 _ _ [0] [1; 1; 254]); [apply ba_none|]. apply (bas_cons c64 _ _ [1; 1; 254] []); [|constructor].
  apply ba_some, (ba_enum c64 _ [1] 1 HInt8 [254]); [exists 1, []; vm_compute; auto|reflexivity|exact (ba_i8 c64 254)].
Qed.
Print Assumptions C67_value.
Print Assumptions C67_body.
Print Assumptions C67_value_unambiguous.
Print Assumptions C67_body_unambiguous.
