(** * C67, C69: the inputs that do not decode, and how reading them ends. *)
From Coq Require Import String.
From Verif Require Import Base BaseFacts Serde Typing Header SpecHeader Body SpecVarint SpecUtf8 SpecAccept AcceptFacts SpecReject RejectFacts ExSerde.
Local Open Scope list_scope.
Local Open Scope N_scope.

(** ** C69 *)
(** On 64 bit targets reading a type, supported or not, stops with a given error or crash exactly on
    the inputs rejected so. *)
Theorem C69_value : forall c d s x, wf_cfg c -> usize_bits c = 64 -> 4096 <= heap_limit c -> shaped d = true ->
  bytes_ok s -> (run c (de c d) s = stop x <-> rejects c d s x).
Proof. intros c d s x Hw H64 Hh Hd Hs. exact (fails_de c Hw H64 Hh d Hd s x Hs). Qed.
Theorem C69_body : forall c h s x, wf_cfg c -> usize_bits c = 64 -> 4096 <= heap_limit c -> bytes_ok s ->
  (run c (bde c h) s = stop x <-> body_rejects c h s x).
Proof. intros c h s x Hw H64 Hh Hs. exact (fails_bde c Hw H64 Hh h s x Hs). Qed.
(** Headers: on every target; given room for a vector of members and stack for the nesting. *)
Theorem C69_header : forall c depth s e, room c -> bytes_ok s -> (length s < depth)%nat ->
  (run c (hde c depth) s = OErr e <-> header_rejects s e).
Proof. exact hde_rejects. Qed.
(** Every input is either accepted or rejected, and rejected in one way. *)
Theorem C69_value_dichotomy : forall c d s, wf_cfg c -> usize_bits c = 64 -> 4096 <= heap_limit c -> shaped d = true ->
  bytes_ok s ->
  ((exists u v r, s = u ++ r /\ accepts c d u v) \/ (exists x, rejects c d s x)) /\
  (forall u v r x, s = u ++ r -> accepts c d u v -> ~ rejects c d s x) /\
  (forall x y, rejects c d s x -> rejects c d s y -> x = y).
Proof.
  intros c d s Hw H64 Hh Hd Hs. pose proof (lang_de c Hw H64 Hh d Hd s) as L. pose proof (fails_de c Hw H64 Hh d Hd s) as F. split; [|split].
  - destruct (run_cases c (de c d) s) as [(v & r & E)|(x & E)]; [left|right; exists x; apply F; assumption].
    apply L in E as (u & E & H); [|exact Hs]. eauto.
  - intros u v r x E H Hx. apply F in Hx; [|exact Hs]. assert (R : run c (de c d) s = OOk v r) by (apply L; eauto).
    rewrite R in Hx. exact (stop_ok _ _ _ Hx).
  - intros x y Hx Hy. apply F in Hx; [|exact Hs]. apply F in Hy; [|exact Hs]. rewrite Hx in Hy. exact (stop_inj _ _ Hy).
Qed.

(** Derived structs pass the names of their fields: the fields are read one after another. *)
Theorem C67_derived_struct : forall c fields u v, NoDup (map fst fields) ->
  (accepts c (DStruct (map fst fields) fields) u v <->
   exists vs, accepts_all c (map snd fields) u vs /\ v = SStruct (combine (map fst fields) vs)).
Proof. exact accepts_derived. Qed.
Theorem C69_derived_struct : forall c fields s x, NoDup (map fst fields) ->
  (rejects c (DStruct (map fst fields) fields) s x <-> rejects_one c (map snd fields) s x).
Proof. exact rejects_derived. Qed.

(** A vector of two enums of which the second is unknown; a pair whose second member is a date out of
    range; the same date without overflow checks. *)
Example C69_ex_enum :
  rejects c64 (DVec (DEnum [(KUnit, DUnit); (KNewtype, DU8)])) [2; 1; 7; 2; 9] (inl EMsg) /\
  run c64 (de c64 (DVec (DEnum [(KUnit, DUnit); (KNewtype, DU8)]))) [2; 1; 7; 2; 9] = OErr EMsg.
Proof.
  split; [|vm_compute; reflexivity].
  apply (rj_vec c64 _ [2] 2 [1; 7] [SNewtypeVariant 1 (SU8 7)] [2; 9]); [exists 2, []; vm_compute; auto| |reflexivity|].
  - apply (aa_cons c64 _ [] [1; 7] []); [|constructor]. apply (ac_newtype_variant c64 _ [1] 1 DU8 [7]); [exists 1, []; vm_compute; auto|reflexivity|constructor].
  - apply (rj_enum_unknown c64 _ [2] 2 [9]); [exists 2, []; vm_compute; auto|discriminate].
Qed.
Example C69_ex_date :
  rejects c64 (DTuple [DBool; DDate]) [1; 255; 254; 255; 255; 255] (inr POverflow) /\
  run c64 (de c64 (DTuple [DBool; DDate])) [1; 255; 254; 255; 255; 255] = OPanic POverflow /\
  run (Cfg false 64 1 1 4096) (de (Cfg false 64 1 1 4096) (DTuple [DBool; DDate])) [1; 255; 254; 255; 255; 255] = OErr ERead.
Proof.
  split; [|split; vm_compute; reflexivity]. apply rj_tuple, (ro_later c64 _ _ [1] (SBool true)); [exact (ac_bool c64 true)|].
  apply ro_here, rj_date. right. exists [255; 254; 255; 255; 255], 4294967294, [].
  split; [reflexivity|]. split; [exists 255, [254; 255; 255; 255]; vm_compute; auto|]. left. split; [split; [reflexivity|vm_compute; discriminate]|reflexivity].
Qed.
(** Impls that pass other names than those of their fields: in another order, with an optional field left
    out; with a field left out; with a name twice; with a name that is no field. *)
Example C69_ex_names :
  let fields := [("a", DU8); ("b", DOption DBool); ("c", DString)]%string in
  accepts c64 (DStruct ["c"; "a"]%string fields) [1; 120; 7] (SStruct [("a", SU8 7); ("b", SNone); ("c", SStr [120])]%string) /\
  rejects c64 (DStruct ["a"; "b"]%string fields) [7; 0; 9] (inl EMsg) /\
  rejects c64 (DStruct ["a"; "a"; "b"; "c"]%string fields) [7; 0; 9] (inl EMsg) /\
  rejects c64 (DStruct ["a"; "id"]%string fields) [7; 0; 9] (inr PTodo) /\
  rejects c64 (DStruct ["a"; "id"]%string fields) [] read_error.
Proof.
  cbv zeta. split.
  - apply ac_struct with (ds := [DString; DU8]) (vs := [SStr [120]; SU8 7]) (ws := [SU8 7; SNone; SStr [120]]).
    + constructor; [intros [E|[]]; discriminate E|]. constructor; [intros []|constructor].
    + constructor; [cbn; tauto|]. constructor; [cbn; tauto|constructor].
    + apply (aa_cons c64 _ _ [1; 120] [7]); [|apply (aa_cons c64 _ _ [7] []); [apply ac_u8|constructor]].
      apply ac_string; [exists [120]; split; [constructor; [|constructor]; unfold scalar; lia|reflexivity]|]. exists [1]. split; [reflexivity|]. exists 1, []. vm_compute. auto.
    + constructor; [left; cbn; tauto|]. constructor; [right|constructor; [left; cbn; tauto|constructor]].
      split; [|split; [reflexivity|exists DBool; reflexivity]]. intros [E|[E|[]]]; discriminate E.
  - assert (W : wf_cfg c64) by (split; [right; reflexivity|split; discriminate]).
    split; [|split; [|split]]; apply C69_value; try exact W; try reflexivity; try discriminate; repeat constructor.
Qed.
(** Unsupported types: what comes before them is read first. *)
Example C69_ex_unsupported :
  rejects c64 (DTuple [DU8; DStr]) [] read_error /\ rejects c64 (DTuple [DU8; DStr]) [5] (inr PTodo) /\
  rejects c64 (DOption DI128) [1] (inl EMsg).
Proof.
  split; [apply rj_tuple, ro_here, rj_u8|]. split; [|apply rj_some, rj_i128].
  apply rj_tuple, (ro_later c64 _ _ [5] (SU8 5)); [apply ac_u8|apply ro_here, rj_str].
Qed.
(** An array of 5000 units: no room for the vector. A map whose key is not UTF-8. *)
Example C69_ex_body :
  body_rejects c64 (HArray HUnit) [136; 78] (inr PAlloc) /\ run c64 (bde c64 (HArray HUnit)) [136; 78] = OPanic PAlloc /\
  run c64 (bde c64 (HMap HUInt8)) [2; 1; 97; 0; 1; 255; 0] = OErr ERead /\ body_rejects c64 (HMap HUInt8) [2; 1; 97; 0; 1; 255; 0] read_error.
Proof.
  assert (R : run c64 (bde c64 (HMap HUInt8)) [2; 1; 97; 0; 1; 255; 0] = OErr ERead) by (vm_compute; reflexivity).
  split; [|split; [vm_compute; reflexivity|split; [exact R|]]].
  - apply (br_array_room c64 HUnit [136; 78] 5000 []); [exists 136, [78]; vm_compute; auto|]. right. vm_compute. auto.
  - apply C69_body; [first [split; [right; reflexivity|split; discriminate]|reflexivity|discriminate]..|repeat constructor|exact R].
Qed.
(** A tuple of two of which the second is the code 7, which is not assigned; of which the second is missing. *)
Example C69_ex_header :
  header_rejects [21; 2; 1; 3; 7] EInvalid /\ header_rejects [21; 2; 1; 3] EIo /\
  run (Cfg true 64 32 32 (2 ^ 40)) (hde (Cfg true 64 32 32 (2 ^ 40)) 6) [21; 2; 1; 3; 7] = OErr EInvalid.
Proof.
  split; [|split; [|vm_compute; reflexivity]].
  - apply (hr_member 21 HTuple [2] 2 [1; 3] [HOptional HUInt8] [7]); [cbn; tauto|exists 2, []; vm_compute; auto| |reflexivity|].
    + apply (hws_cons false [1; 3] _ [] []); [|constructor]. apply hw_box; [cbn; tauto|]. apply hw_leaf. cbn; tauto.
    + apply hr_unknown. intros k Hk. cbn in Hk. repeat destruct Hk as [Hk|Hk]; try discriminate. exact Hk.
  - apply (hr_member 21 HTuple [2] 2 [1; 3] [HOptional HUInt8] []); [cbn; tauto|exists 2, []; vm_compute; auto| |reflexivity|apply hr_end].
    apply (hws_cons false [1; 3] _ [] []); [|constructor]. apply hw_box; [cbn; tauto|]. apply hw_leaf. cbn; tauto.
Qed.
Print Assumptions C67_derived_struct.
Print Assumptions C69_derived_struct.
Print Assumptions C69_value.
Print Assumptions C69_body.
Print Assumptions C69_header.
Print Assumptions C69_value_dichotomy.
