(** * C95: what derive(SerializeHeader) sees of a type. *)
From Coq Require Import String.
From Verif Require Import Base BaseFacts Varint Serde Std Conv Flatten Tagged Header SpecHeader HeaderFacts Body SpecBody Derive SpecDerive ExSerde DeriveFacts DeriveBody
  SpecLabel LabelFacts PropDerive.
Local Open Scope string_scope.
Local Open Scope list_scope.
Local Open Scope N_scope.

(** Names, styles and attributes that do not skip do not reach the header. *)
Theorem C95_header : forall t t', relabelled t t' -> ser_header t = ser_header t'.
Proof. exact (header_same _). Qed.
Print Assumptions C95_header.
Theorem C95_items : forall items items' depth i, Forall2 relabelled items items' ->
  item_header items depth i = item_header items' depth i.
Proof. intros items items' depth i H. exact (item_header_same items items' H depth i). Qed.
Print Assumptions C95_items.
(** Nor the bytes of a value, unless a function named by skip_serializing_if answers yes: the same
    calls are made on the writer. *)
Theorem C95_bytes : forall c t t' v sv sv', relabelled t t' ->
  rser c (fun _ _ => false) t v = Some sv -> rser c (fun _ _ => false) t' v = Some sv' -> ser sv = ser sv'.
Proof. intros c t t' v sv sv' H. exact (bytes_same c t t' H v sv sv'). Qed.
Print Assumptions C95_bytes.
(** So that the header of one describes what the other writes. *)
Theorem C95_exchange : forall c depth t t' w v h b sv sv' rest,
  wf_cfg c -> 4096 <= heap_limit c -> room c -> aligned t -> relabelled t t' ->
  ser_header t = Some w -> describes t h -> carries c t v b ->
  rser c (fun _ _ => false) t v = Some sv -> rser c (fun _ _ => false) t' v = Some sv' ->
  body_ok c b = true -> body_fits c b = true -> counts_fit h = true -> (hdepth h <= depth)%nat ->
  run c (h <- hde c depth ;; bde c h) (wbytes w ++ wbytes (ser sv') ++ rest) = OOk b rest.
Proof.
  intros c depth t t' w v h b sv sv' rest Hc Hh Hr Ha Hl Hw Hd Hv E E'. rewrite <- (C95_bytes c t t' v sv sv' Hl E E').
  intros Hb Hf Hn Hk. exact (C29_message c depth _ t w v h b sv rest Hc Hh Hr Ha Hw Hd Hv E Hb Hf Hn Hk).
Qed.
Print Assumptions C95_exchange.

(** Attributes that change what is written do not reach the header either: the macro accepts them,
    and what is read by the header is another value, without an error. *)
(** struct S { a: u8, #[serde(flatten)] b: T } struct T { b: u8 } *)
Theorem C95_flatten_refuted : exists a t h sv,
  t = RStruct Named [([], ("a", RLeaf LU8)); (a, ("b", RStruct Named [([], ("b", RLeaf LU8))]))] /\ serde_attr "flatten" a /\
  (exists w, ser_header t = Some w) /\ describes t h /\ aligned t /\
  carries c64 t (VSeq [VU 7; VSeq [VU 9]]) (BTuple [BUInt8 7; BTuple [BUInt8 9]]) /\
  flatten_sval [Plain "a" (SU8 7); Flat (SStruct [("b", SU8 9)])] = Some sv /\ wresult (ser sv) = WeOk /\
  run c64 (bde c64 h) (wbytes (ser sv)) = OOk (BTuple [BUInt8 1; BTuple [BUInt8 97]]) [7; 1; 98; 9].
Proof.
  exists [Attr (Some "serde") (Some [NMeta (Some "flatten")])]. eexists. exists (HTuple [HUInt8; HTuple [HUInt8]]). eexists.
  split; [reflexivity|]. split; [do 2 eexists; split; [left; reflexivity|]; split; [reflexivity|]; split; [reflexivity|left; reflexivity]|].
  split; [eexists; vm_compute; reflexivity|]. split; [apply describes_iff; reflexivity|].
  split; [apply al_struct; constructor; [right; constructor|constructor; [right; apply al_struct; constructor; [right; constructor|constructor]|constructor]]|]. split.
  { repeat constructor; intros H; apply skip_iff in H; discriminate H. }
  split; [vm_compute; reflexivity|]. split; vm_compute; reflexivity.
Qed.
Print Assumptions C95_flatten_refuted.
(** #[serde(untagged)] enum E { A(u8), B(u8, u8) } *)
Theorem C95_untagged_refuted : exists t h v,
  t = REnum [([], (Unnamed, [([], ("0", RLeaf LU8))])); ([], (Unnamed, [([], ("0", RLeaf LU8)); ([], ("1", RLeaf LU8))]))] /\
  describes t h /\ aligned t /\ carries c64 t (VVariant 1 [VU 0; VU 9]) (BEnum 1 (BTuple [BUInt8 0; BUInt8 9])) /\
  v = GUntagged (GTuple [GPlain (SU8 0); GPlain (SU8 9)]) /\ wresult (ser (gsval v)) = WeOk /\
  run c64 (bde c64 h) (wbytes (ser (gsval v))) = OOk (BEnum 0 (BUInt8 9)) [].
Proof.
  eexists. exists (HEnum [HUInt8; HTuple [HUInt8; HUInt8]]). eexists. split; [reflexivity|]. split; [apply describes_iff; reflexivity|].
  split; [apply (al_enum [_; _] []); [|constructor]; repeat constructor; intros H; first [apply skip_iff in H|apply skip_if_iff in H]; discriminate H|].
  split; [change (BTuple [BUInt8 0; BUInt8 9]) with (variant_body [BUInt8 0; BUInt8 9]); eapply ca_enum; [reflexivity| |]|].
  { intros H; apply skip_iff in H; discriminate H. }
  { repeat constructor. }
  split; [reflexivity|]. split; vm_compute; reflexivity.
Qed.
Print Assumptions C95_untagged_refuted.
(** #[serde(tag = "kind")] enum E { A { x: u8 }, B { x: u8 }, On { at: u8 } } *)
Theorem C95_tag_refuted : exists t h v,
  t = REnum [([], (Named, [([], ("x", RLeaf LU8))])); ([], (Named, [([], ("x", RLeaf LU8))])); ([], (Named, [([], ("at", RLeaf LU8))]))] /\
  describes t h /\ aligned t /\ carries c64 t (VVariant 2 [VU 9]) (BEnum 2 (BUInt8 9)) /\
  v = GTag "kind" "On" (GRecord [("at", GPlain (SU8 9))]) /\ wresult (ser (gsval v)) = WeOk /\
  run c64 (bde c64 h) (wbytes (ser (gsval v))) = OOk (BEnum 2 (BUInt8 79)) [110; 9].
Proof.
  eexists. exists (HEnum [HUInt8; HUInt8; HUInt8]). eexists. split; [reflexivity|]. split; [apply describes_iff; reflexivity|].
  split; [apply (al_enum [_; _; _] []); [|constructor]; repeat constructor; intros H; first [apply skip_iff in H|apply skip_if_iff in H]; discriminate H|].
  split; [change (BUInt8 9) with (variant_body [BUInt8 9]); eapply ca_enum; [reflexivity| |]|].
  { intros H; apply skip_iff in H; discriminate H. }
  { repeat constructor. }
  split; [reflexivity|]. split; vm_compute; reflexivity.
Qed.
Print Assumptions C95_tag_refuted.
(** #[serde(into = "String")] struct Port(u16): the port in digits *)
Theorem C95_into_refuted : exists t h (u : cty N),
  t = RStruct Unnamed [([], ("0", RLeaf LU16))] /\ describes t h /\ aligned t /\ carries c64 t (VSeq [VU 5]) (BTuple [BUInt16 5]) /\
  u = CFrom (fun v => match v with VUser n => VStd (XPlain (SStr [48 + n])) | v => v end) (fun v => v) (CStd (TPlain DString)) /\
  wresult (ser (csval u (VUser 5))) = WeOk /\
  run c64 (bde c64 h) (wbytes (ser (csval u (VUser 5)))) = OOk (BTuple [BUInt16 1]) [53].
Proof.
  eexists. exists (HTuple [HUInt16]). eexists. split; [reflexivity|]. split; [apply describes_iff; reflexivity|].
  split; [apply al_struct; constructor; [right; constructor|constructor]|]. split; [repeat constructor; intros H; apply skip_iff in H; discriminate H|].
  split; [reflexivity|]. split; vm_compute; reflexivity.
Qed.
Print Assumptions C95_into_refuted.

(** ** Cases *)
(** struct P { x: u16, #[serde(skip)] y: String, z: E } enum E { A, B { v: bool } } and
    struct P(#[serde(rename = "x")] u16, #[serde(skip_serializing)] String, E) enum E { A {}, B(bool) } *)
Example C95_ex :
  let skip := [Attr (Some "serde") (Some [NMeta (Some "skip")])] in
  let skip' := [Attr (Some "doc") None; Attr (Some "serde") (Some [NMeta (Some "default"); NMeta (Some "skip_serializing")])] in
  let rename := [Attr (Some "serde") (Some [NMeta (Some "rename")])] in
  let t := RStruct Named [([], ("x", RLeaf LU16)); (skip, ("y", RLeaf LString));
             ([], ("z", REnum [([], (UnitLike, [])); ([], (Named, [([], ("v", RLeaf LBool))]))]))] in
  let t' := RStruct Unnamed [(rename, ("0", RLeaf LU16)); (skip', ("1", RLeaf LString));
             ([], ("2", REnum [(rename, (Named, [])); ([], (Unnamed, [([], ("0", RLeaf LBool))]))]))] in
  let v := VSeq [VU 300; VB [104]; VVariant 1 [VBool true]] in
  relabelled t t' /\ t <> t' /\
  (exists w, ser_header t = Some w /\ wbytes w = [21; 2; 4; 24; 2; 0; 2]) /\
  (exists sv sv', rser c64 (fun _ _ => false) t v = Some sv /\ rser c64 (fun _ _ => false) t' v = Some sv' /\ sv <> sv' /\
     wbytes (ser sv) = [172; 4; 1; 1] /\ wbytes (ser sv') = [172; 4; 1; 1]).
Proof.
  cbv zeta.
  assert (S : forall a a', is_skip_field a = is_skip_field a' -> has_skip_serializing_if a = has_skip_serializing_if a' -> same_skips a a').
  { intros a a' H1 H2. split; [rewrite <- !skip_iff, H1; reflexivity|rewrite <- !skip_if_iff, H2; reflexivity]. }
  split; [repeat first [apply S; reflexivity|constructor]|]. split; [discriminate|].
  split; [eexists; split; vm_compute; reflexivity|].
  do 2 eexists. split; [vm_compute; reflexivity|]. split; [vm_compute; reflexivity|]. split; [discriminate|]. split; vm_compute; reflexivity.
Qed.
(** Leaving out what one of them skips is not a change of labels. *)
Example C95_ex_skip : let t a := RStruct Named [(a, ("x", RLeaf LU8))] in let skip := [Attr (Some "serde") (Some [NMeta (Some "skip")])] in
  ~ relabelled (t []) (t skip) /\ ser_header (t []) <> ser_header (t skip).
Proof.
  cbv zeta. split; [|discriminate]. intros H. inversion H as [| | | | | |? ? ? ? Hf| | |]; subst. inversion Hf as [|? ? ? ? ? ? ? ? Hs]; subst.
  apply skips_same in Hs as [Hs _]. discriminate Hs.
Qed.
