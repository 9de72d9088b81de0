(** * Typed headers and derived types: C24, C29, C43. *)
From Coq Require Import String.
From Verif Require Import Base BaseFacts Serde Header SpecHeader HeaderFacts Body SpecBody Derive SpecDerive ExSerde DeriveFacts DeriveBody.
Local Open Scope list_scope.
Local Open Scope N_scope.

(** ** C24 *)
(** A type has a header exactly when the program compiles. *)
Theorem C24_compiles : forall t, (exists w, ser_header t = Some w) <-> (exists h, describes t h).
Proof. exact ser_header_compiles. Qed.
Theorem C24_one_header : forall t h h', describes t h -> describes t h' -> h = h'.
Proof. exact describes_det. Qed.
(** T::serialize_header writes the bytes of the dynamic header, and they decode to it. *)
Theorem C24_typed_header : forall t w h, ser_header t = Some w -> describes t h ->
  wresult w = WeOk /\ wbytes w = wbytes (hser h) /\
  (forall c depth rest, room c -> counts_fit h = true -> (hdepth h <= depth)%nat ->
     run c (hde c depth) (wbytes w ++ rest) = OOk h rest).
Proof.
  intros t w h Hw Hh. destruct (ser_header_spec t w h Hw Hh) as [H1 H2]. split; [exact H1|]. split; [exact H2|].
  intros c depth rest Hr Hf Hd. rewrite H2. exact (proj2 (hde_roundtrip c depth h rest Hr Hf Hd)).
Qed.
(** The second field is skipped; its type (a union) has no header. *)
Example C24_ex :
  let serde n := Attr (Some "serde"%string) (Some [NMeta (Some n)]) in
  let t := RStruct Named [([], ("a"%string, RVec (RLeaf LU8)));
                          ([serde "skip"%string], ("b"%string, RUnion));
                          ([], ("c"%string, REnum [([], (UnitLike, [])); ([], (Unnamed, [([], (""%string, RHashMap (RLeaf LDate)))]))]))] in
  exists w, ser_header t = Some w /\ wbytes w = [21; 2; 20; 3; 24; 2; 0; 23; 25] /\
  describes t (HTuple [HArray HUInt8; HEnum [HUnit; HMap HDate]]).
Proof.
  cbv zeta. eexists. split; [vm_compute; reflexivity|]. split; [vm_compute; reflexivity|].
  apply describes_iff. vm_compute. reflexivity.
Qed.
Print Assumptions C24_compiles.
Print Assumptions C24_one_header.
Print Assumptions C24_typed_header.

(** ** C29 *)
(** [aligned] asks nothing of types without skip attributes; see C43. *)
Theorem C29_typed_read_by_header : forall c omit t v h b sv rest,
  wf_cfg c -> 4096 <= heap_limit c -> aligned t ->
  describes t h -> carries c t v b -> rser c omit t v = Some sv ->
  body_ok c b = true -> body_fits c b = true ->
  wresult (ser sv) = WeOk /\ run c (bde c h) (wbytes (ser sv) ++ rest) = OOk b rest.
Proof.
  intros c omit t v h b sv rest Hc Hh Ha Hd Hca Hs Hok Hf.
  destruct (typed_all c omit t Hc Hh Ha v sv h b Hd Hca Hs Hok Hf) as [H1 [H2 _]]. auto.
Qed.
(** A stream cut anywhere inside the value is an error. *)
Theorem C29_truncated : forall c omit t v h b sv u x u',
  wf_cfg c -> 4096 <= heap_limit c -> aligned t ->
  describes t h -> carries c t v b -> rser c omit t v = Some sv ->
  body_ok c b = true -> body_fits c b = true ->
  wbytes (ser sv) = u ++ x :: u' -> run c (bde c h) u = OErr ERead.
Proof.
  intros c omit t v h b sv u x u' Hc Hh Ha Hd Hca Hs Hok Hf.
  destruct (typed_all c omit t Hc Hh Ha v sv h b Hd Hca Hs Hok Hf) as [_ [_ H]]. apply H.
Qed.
(** A reader that knows nothing reads header and value of any typed message. *)
Theorem C29_message : forall c depth omit t w v h b sv rest,
  wf_cfg c -> 4096 <= heap_limit c -> room c -> aligned t ->
  ser_header t = Some w -> describes t h -> carries c t v b -> rser c omit t v = Some sv ->
  body_ok c b = true -> body_fits c b = true -> counts_fit h = true -> (hdepth h <= depth)%nat ->
  run c (h <- hde c depth ;; bde c h) (wbytes w ++ wbytes (ser sv) ++ rest) = OOk b rest.
Proof.
  intros c depth omit t w v h b sv rest Hc Hh Hr Ha Hw Hd Hca Hs Hok Hf Hcf Hdep. rewrite run_bind.
  destruct (C24_typed_header t w h Hw Hd) as (_ & _ & H). rewrite H by assumption. cbn [obind].
  exact (proj2 (C29_typed_read_by_header c omit t v h b sv rest Hc Hh Ha Hd Hca Hs Hok Hf)).
Qed.
(** A HashMap visited in the order "b", "a". *)
Example C29_ex :
  let t := RTuple [RHashMap (RLeaf LNumBigInt); ROption (RLeaf LF32)] in
  let v := VSeq [VMap [([98], VI (-300)); ([97], VI 0)]; VSome (VF 5)] in
  let b := BTuple [BMap [([97], BBigInt []); ([98], BBigInt [212; 254])]; BOptional (Some (BFloat32 5))] in
  aligned t /\ describes t (HTuple [HMap HBigInt; HOptional HFloat32]) /\ carries c64 t v b /\
  body_ok c64 b = true /\ body_fits c64 b = true /\
  exists sv, rser c64 (fun _ _ => false) t v = Some sv /\
    wbytes (ser sv) = [2; 1; 98; 2; 212; 254; 1; 97; 0; 1; 5; 0; 0; 0] /\
    run c64 (bde c64 (HTuple [HMap HBigInt; HOptional HFloat32])) (wbytes (ser sv) ++ [9]) = OOk b [9].
Proof.
  cbv zeta. split; [repeat constructor|]. split; [apply describes_iff; reflexivity|]. split.
  - constructor. constructor; [|constructor; [constructor; constructor; reflexivity|constructor]].
    apply ca_hash. eapply (cam _ _ _ [BBigInt [212; 254]; BBigInt []]).
    + repeat constructor; cbn; intuition discriminate.
    + repeat constructor.
    + cbn [map fst combine]. apply Permutation.perm_swap.
    + reflexivity.
  - split; [vm_compute; reflexivity|]. split; [vm_compute; reflexivity|].
    eexists. split; [vm_compute; reflexivity|]. split; vm_compute; reflexivity.
Qed.
Print Assumptions C29_typed_read_by_header.
Print Assumptions C29_truncated.
Print Assumptions C29_message.

(** ** C43 *)
(** Structs: any fields may be skipped. *)
Theorem C43_struct : forall c omit k fs v h b sv rest,
  wf_cfg c -> 4096 <= heap_limit c ->
  Forall (fun f => skipped (fst f) \/ aligned (snd (snd f))) fs ->
  describes (RStruct k fs) h -> carries c (RStruct k fs) v b -> rser c omit (RStruct k fs) v = Some sv ->
  body_ok c b = true -> body_fits c b = true ->
  wresult (ser sv) = WeOk /\ run c (bde c h) (wbytes (ser sv) ++ rest) = OOk b rest.
Proof. intros c omit k fs v h b sv rest Hc Hh Hfs. apply C29_typed_read_by_header; [exact Hc|exact Hh|]. constructor; exact Hfs. Qed.
(** Enums: skipped variants at the end, no skip attributes inside variants. *)
Theorem C43_enum : forall c omit kept tail v h b sv rest,
  wf_cfg c -> 4096 <= heap_limit c ->
  Forall (fun v => ~ skipped (fst v) /\
    Forall (fun f => ~ skipped (fst f) /\ ~ skipped_if (fst f) /\ aligned (snd (snd f))) (snd (snd v))) kept ->
  Forall (fun v => skipped (fst v)) tail ->
  describes (REnum (kept ++ tail)) h -> carries c (REnum (kept ++ tail)) v b -> rser c omit (REnum (kept ++ tail)) v = Some sv ->
  body_ok c b = true -> body_fits c b = true ->
  wresult (ser sv) = WeOk /\ run c (bde c h) (wbytes (ser sv) ++ rest) = OOk b rest.
Proof.
  intros c omit kept tail v h b sv rest Hc Hh Hk Ht. apply C29_typed_read_by_header; [exact Hc|exact Hh|]. constructor; assumption.
Qed.
(** Any enum with a skipped variant [s] somewhere before its last serialized variant [v]: no value
    of that last variant can be read through the header the macro derives. *)
Theorem C43_variant_after_skipped : forall c omit vs1 s vs2 v vs3 h l sv rest, wf_cfg c ->
  skipped (fst s) -> ~ skipped (fst v) -> Forall (fun v => skipped (fst v)) vs3 ->
  let vs := vs1 ++ s :: vs2 ++ v :: vs3 in
  let i := lenN (vs1 ++ s :: vs2) in
  describes (REnum vs) h -> i < 2 ^ 32 -> rser c omit (REnum vs) (VVariant i l) = Some sv ->
  run c (bde c h) (wbytes (ser sv) ++ rest) = OErr ERead.
Proof. exact late_variant_unreadable. Qed.
(** Other values are read as a different variant: B(200) of
    enum { #[serde(skip)] A, B(u8), C(i8) } is read as the i8 -56. *)
Theorem C43_skipped_variant_refuted : exists t v h sv,
  describes t h /\ carries c64 t v (BEnum 1 (BUInt8 200)) /\ rser c64 (fun _ _ => false) t v = Some sv /\
  run c64 (bde c64 h) (wbytes (ser sv)) = OOk (BEnum 1 (BInt8 (-56))) [].
Proof.
  exists (REnum [([Attr (Some "serde"%string) (Some [NMeta (Some "skip"%string)])], (UnitLike, []));
                 ([], (Unnamed, [([], (""%string, RLeaf LU8))])); ([], (Unnamed, [([], (""%string, RLeaf LI8))]))]).
  exists (VVariant 1 [VU 200]). exists (HEnum [HUInt8; HInt8]). eexists.
  split; [apply describes_iff; reflexivity|]. split.
  - eapply (ca_enum _ _ 1 [] _ _ _ [BUInt8 200]); [reflexivity|apply not_skipped_nil|]. repeat constructor.
  - split; [vm_compute; reflexivity|]. vm_compute. reflexivity.
Qed.
(** A skipped field inside a variant: V { a: 7, b: <skipped> } is written without b, the header
    still asks for it. *)
Theorem C43_skipped_field_in_variant_refuted : exists t v h sv,
  describes t h /\ rser c64 (fun _ _ => false) t v = Some sv /\ wresult (ser sv) = WeOk /\
  run c64 (bde c64 h) (wbytes (ser sv)) = OErr ERead.
Proof.
  exists (REnum [([], (Named, [([], ("a"%string, RLeaf LU8));
            ([Attr (Some "serde"%string) (Some [NMeta (Some "skip_serializing"%string)])], ("b"%string, RLeaf LU8))]))]).
  exists (VVariant 0 [VU 7; VU 8]). exists (HEnum [HTuple [HUInt8; HUInt8]]). eexists.
  split; [apply describes_iff; reflexivity|]. split; [vm_compute; reflexivity|]. split; vm_compute; reflexivity.
Qed.
(** skip_serializing_if is rejected on fields of structs and on variants, but accepted on fields
    of variants. *)
Theorem C43_skip_if_rejected : forall a n t k fs vs,
  skipped_if a -> ser_header (RStruct k ((a, (n, t)) :: fs)) = None /\ ser_header (REnum ((a, (k, fs)) :: vs)) = None.
Proof.
  intros a n t k fs vs H. apply skip_if_iff in H. unfold ser_header; cbn [ser_header_in map fst snd]. unfold derive_struct, derive_enum.
  cbn [existsb fst]. rewrite H. split; reflexivity.
Qed.
Theorem C43_skip_if_in_variant_refuted : exists t v h sv omit,
  (exists w, ser_header t = Some w) /\ describes t h /\ rser c64 omit t v = Some sv /\ wresult (ser sv) = WeOk /\
  run c64 (bde c64 h) (wbytes (ser sv)) = OErr ERead.
Proof.
  exists (REnum [([], (Named, [([], ("a"%string, RLeaf LU8));
            ([Attr (Some "serde"%string) (Some [NMeta (Some "skip_serializing_if"%string)])], ("b"%string, ROption (RLeaf LU8)))]))]).
  exists (VVariant 0 [VU 7; VNone]). exists (HEnum [HTuple [HUInt8; HOptional HUInt8]]). eexists. exists (fun _ _ => true).
  split; [eexists; vm_compute; reflexivity|]. split; [apply describes_iff; reflexivity|].
  split; [vm_compute; reflexivity|]. split; vm_compute; reflexivity.
Qed.
Example C43_ex :
  let skip := [Attr (Some "serde"%string) (Some [NMeta (Some "skip"%string)])] in
  let kept := [([], (UnitLike, [])); ([], (Named, [([], ("x"%string, RLeaf LI16)); ([], ("y"%string, RLeaf LString))]))] in
  let tail := [(skip, (UnitLike, []))] in
  let t := REnum (kept ++ tail) in
  let v := VVariant 1 [VI (-2); VB [104; 105]] in
  let b := BEnum 1 (BTuple [BInt16 (-2); BString [104; 105]]) in
  aligned t /\ describes t (HEnum [HUnit; HTuple [HInt16; HString]]) /\ carries c64 t v b /\
  body_ok c64 b = true /\ body_fits c64 b = true /\
  exists sv, rser c64 (fun _ _ => false) t v = Some sv /\ wbytes (ser sv) = [1; 3; 2; 104; 105].
Proof.
  cbv zeta. split.
  - apply al_enum; [|constructor; [apply skip_iff; reflexivity|constructor]].
    repeat (constructor; cbn [fst snd]); try apply not_skipped_nil; try apply not_skipped_if_nil.
  - split; [apply describes_iff; reflexivity|]. split.
    + eapply (ca_enum _ _ 1 [] _ _ _ [BInt16 (-2); BString [104; 105]]); [reflexivity|apply not_skipped_nil|]. repeat constructor.
    + split; [vm_compute; reflexivity|]. split; [vm_compute; reflexivity|]. eexists. split; [vm_compute; reflexivity|]. vm_compute; reflexivity.
Qed.
Print Assumptions C43_struct.
Print Assumptions C43_enum.
Print Assumptions C43_variant_after_skipped.
Print Assumptions C43_skipped_variant_refuted.
Print Assumptions C43_skipped_field_in_variant_refuted.
Print Assumptions C43_skip_if_rejected.
Print Assumptions C43_skip_if_in_variant_refuted.
