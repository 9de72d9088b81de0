(** * C87: what was read of a derived, recursive or standard library type can be written again. *)
From Coq Require Import String.
From Verif Require Import Base Varint Serde Typing SerdeSize Derive SpecDerive DeriveFacts DeriveDe SpecDeriveDe DeriveDeFacts DeriveBody SpecWritten Rec SpecRec RecFacts
  Std SpecStd StdFacts SpecAgain AgainFacts AgainStdFacts ExSerde ExDeriveDe ExStd.
Local Open Scope list_scope.
Local Open Scope N_scope.

(** ** C87 *)
(** Whatever bytes the value was read from (on a 32-bit target: if fewer than 2^32 were consumed),
    writing it succeeds, reads back the same, and takes no more bytes than were consumed. *)
Theorem C87_derived : forall c dflt omit t s v r,
  wf_cfg c -> 4096 <= heap_limit c -> usize_bits c = 64 \/ lenN s < 2 ^ usize_bits c + lenN r ->
  readable t -> regular t -> ~ reads_leaf LExtBigDecimal t -> bytes_ok s -> run c (rde c dflt t) s = OOk v r ->
  exists sv, rser c omit t v = Some sv /\ wresult (ser sv) = WeOk /\
    (forall rest, run c (rde c dflt t) (wbytes (ser sv) ++ rest) = OOk v rest) /\
    (~ reads_leaf LExtDateTime t -> lenN (wbytes (ser sv)) + lenN r <= lenN s).
Proof. intros c dflt omit t s v r Hc Hh Hw Hr Hg Hn Hs. exact (derived_again c dflt omit t Hc Hh Hr Hg Hn s v r Hs Hw). Qed.
Theorem C87_recursive : forall c items depth i s v r,
  wf_cfg c -> 4096 <= heap_limit c -> usize_bits c = 64 \/ lenN s < 2 ^ usize_bits c + lenN r ->
  wf_items items -> bytes_ok s -> run c (item_de c items depth i) s = OOk v r ->
  wresult (ser v) = WeOk /\ (forall rest, run c (item_de c items depth i) (wbytes (ser v) ++ rest) = OOk v rest) /\
  lenN (wbytes (ser v)) + lenN r <= lenN s.
Proof.
  intros c items depth i s v r Hc Hh Hw Hi Hs H. destruct (item_decoded c items Hc Hh Hi depth i s v r Hs Hw H) as [F G].
  split; [exact (proj1 (item_roundtrip c items Hc Hh Hi depth i v [] F))|].
  split; [intros rest; exact (proj2 (item_roundtrip c items Hc Hh Hi depth i v rest F))|].
  destruct (reencode c _ Hc Hh (wf_levels items depth i Hi) s v r Hs G) as (n & E1 & E2). unfold vsize, wsize in E2. lia.
Qed.
Theorem C87_library : forall c t s v r,
  wf_cfg c -> 4096 <= heap_limit c -> usize_bits c = 64 \/ lenN s < 2 ^ usize_bits c + lenN r ->
  proper t -> wf_dty (wire t) = true -> bytes_ok s -> run c (std_de c t) s = OOk v r ->
  wresult (ser (std_sval v)) = WeOk /\
  (forall rest, run c (std_de c t) (wbytes (ser (std_sval v)) ++ rest) = OOk v rest) /\
  (timed t = false -> lenN (wbytes (ser (std_sval v))) + lenN r <= lenN s).
Proof. intros c t s v r Hc Hh Hn P Hw Hs. exact (std_again c t Hc Hh P Hw s v r Hs Hn). Qed.

(** The exceptions are needed. A BigDecimal that was read may be one whose serializer panics... *)
Theorem C87_decimal_refuted : exists c dflt s v, wf_cfg c /\ usize_bits c = 64 /\ 4096 <= heap_limit c /\ bytes_ok s /\
  run c (rde c dflt (RLeaf LExtBigDecimal)) s = OOk v [] /\
  forall omit sv, rser c omit (RLeaf LExtBigDecimal) v = Some sv -> wresult (ser sv) = WePanic POverflow.
Proof.
  exists c64, (fun _ => VUnit), [1; 20; 255; 255; 255; 255; 255; 255; 255; 255; 255], (VDec 20 (- 2 ^ 63)).
  split; [split; [right; reflexivity|split; discriminate]|]. split; [reflexivity|]. split; [discriminate|]. split; [repeat constructor|].
  split; [vm_compute; reflexivity|]. intros omit sv E. vm_compute in E. injection E as <-. reflexivity.
Qed.
(** ... or one that is written differently, and longer; *)
Theorem C87_decimal_growth_refuted : exists c dflt s v sv, bytes_ok s /\ run c (rde c dflt (RLeaf LExtBigDecimal)) s = OOk v [] /\
  rser c (fun _ _ => false) (RLeaf LExtBigDecimal) v = Some sv /\ lenN s < lenN (wbytes (ser sv)) /\
  run c (rde c dflt (RLeaf LExtBigDecimal)) (wbytes (ser sv)) <> OOk v [].
Proof.
  exists c64, (fun _ => VUnit), [1; 10; 127], (VDec 10 (-64)), (SSeq None [SSeq (Some 1) [SU8 1]; SI64 (-65)]). split; [repeat constructor|]. split; [vm_compute; reflexivity|].
  split; [vm_compute; reflexivity|]. split; [reflexivity|]. vm_compute. discriminate.
Qed.
(** nanoseconds of a second and more move into the seconds, and the seconds may then need more room. *)
Theorem C87_datetime_growth_refuted : exists c dflt s v sv, bytes_ok s /\ run c (rde c dflt (RLeaf LExtDateTime)) s = OOk v [] /\
  rser c (fun _ _ => false) (RLeaf LExtDateTime) v = Some sv /\ lenN s < lenN (wbytes (ser sv)).
Proof.
  exists c64, (fun _ => VUnit), [126; 240; 255; 147; 53; 119], (VOdt (Time.Odt 64 999999999 0)), (SSeq None [SI64 64; SU32 999999999]). split; [repeat constructor|]. split; [vm_compute; reflexivity|].
  split; vm_compute; reflexivity.
Qed.
Theorem C87_duration_growth_refuted : exists c s v, bytes_ok s /\ run c (std_de c TDuration) s = OOk v [] /\
  lenN s < lenN (wbytes (ser (std_sval v))).
Proof.
  exists c64, [127; 240; 255; 147; 53; 119], (XDuration 128 999999999). split; [repeat constructor|]. split; vm_compute; reflexivity.
Qed.

(** A length and a number in long form. *)
Example C87_ex_derived : readable ex_de_struct /\ regular ex_de_struct /\ ~ reads_leaf LExtBigDecimal ex_de_struct /\ ~ reads_leaf LExtDateTime ex_de_struct /\
  run c64 (rde c64 ex_de_dflt ex_de_struct) [7; 130; 0; 0; 1; 224; 44; 1; 1; 1; 5] = OOk ex_de_back [5] /\
  option_map (fun sv => wbytes (ser sv)) (rser c64 (fun _ _ => false) ex_de_struct ex_de_back) = Some [7; 2; 0; 1; 172; 4; 1; 1].
Proof.
  assert (K : ~ skipped []) by (apply not_skipped_nil).
  assert (L : forall l, l <> LU8 -> l <> LU16 -> l <> LBool -> ~ reads_leaf l ex_de_struct).
  { intros l H1 H2 H3 H. inversion H as [| | | | | |? ? f Hin Hs Hf|]; subst. destruct Hin as [<-|[<-|[<-|[<-|[]]]]]; cbn [snd fst] in *.
    - inversion Hf; congruence.
    - apply Hs, skip_de_iff. reflexivity.
    - inversion Hf as [|? Hf1|? Hf1| | | | |]; subst. inversion Hf1 as [|? Hf2| | | | | |]; subst. inversion Hf2; congruence.
    - inversion Hf as [| | | | | | |? w f Hin Hs1 Hin1 Hs2 Hf2]; subst. destruct Hin as [<-|[<-|[<-|[]]]]; cbn [snd fst] in *.
      + destruct Hin1.
      + destruct Hin1 as [<-|[<-|[]]]; cbn [snd fst] in *; [inversion Hf2; congruence|]. apply Hs2, skip_de_iff. reflexivity.
      + destruct Hin1. }
  assert (S : skipped (ex_attr "skip")) by (apply skip_iff; reflexivity).
  assert (S' : skipped_de (ex_attr "skip")) by (apply skip_de_iff; reflexivity).
  split; [apply readable_b_ok; reflexivity|]. split.
  { apply rg_struct; [discriminate|discriminate|]. apply Forall_cons; [right; constructor|]. apply Forall_cons; [left; exact S|].
    apply Forall_cons; [right; repeat constructor|]. apply Forall_cons; [|constructor]. right. apply rg_enum.
    apply Forall_cons; [right; split; [exact K|split; [intros _; reflexivity|constructor]]|].
    apply Forall_cons; [|apply Forall_cons; [left; split; assumption|constructor]].
    right. split; [exact K|]. split; [discriminate|]. apply Forall_cons; [right; constructor|]. apply Forall_cons; [left; exact S|constructor]. }
  split; [apply L; discriminate|]. split; [apply L; discriminate|]. split; vm_compute; reflexivity.
Qed.
(** The third member of the set is the first again; on a 32-bit target the count 2^32 + 3 is 3. *)
Example C87_ex_library :
  let t := TTuple [TSet by_number (TPlain DU16); TOption TIp4] in
  let v := XTuple [XSeq [XPlain (SU16 4); XPlain (SU16 9)]; XSome (XIp4 [127; 0; 0; 1])] in
  proper t /\ wf_dty (wire t) = true /\ timed t = false /\
  run c32 (std_de c32 t) [255; 3; 0; 0; 0; 1; 0; 0; 0; 9; 4; 9; 1; 127; 0; 0; 1; 77] = OOk v [77] /\
  run c64 (std_de c64 t) [3; 9; 4; 9; 1; 127; 0; 0; 1; 77] = OOk v [77] /\ wbytes (ser (std_sval v)) = [2; 4; 9; 1; 127; 0; 0; 1].
Proof. cbv zeta. split; [cbn; pose proof by_number_lawful; tauto|]. repeat split; vm_compute; reflexivity. Qed.
Example C87_ex_time : proper TDuration /\ wf_dty (wire TDuration) = true /\
  run c64 (std_de c64 TDuration) [127; 240; 255; 147; 53; 119; 4] = OOk (XDuration 128 999999999) [4] /\
  run c64 (std_de c64 TDuration) [128; 2; 240; 255; 201; 154; 59] = OOk (XDuration 128 999999999) [].
Proof. repeat split; vm_compute; reflexivity. Qed.
Example C87_ex_recursive :
  let tree := [XStruct ["name"; "children"]%string [("name", Rec.XPlain DString); ("children", XVec (XItem 0))]%string] in
  let v := SStruct [("name", SStr []); ("children", SSeq (Some 1) [SStruct [("name", SStr [97]); ("children", SSeq (Some 0) [])]])]%string in
  wf_items tree /\ run c64 (item_de c64 tree 2 0) [128; 0; 1; 129; 0; 97; 0; 5] = OOk v [5] /\ wbytes (ser v) = [0; 1; 1; 97; 0].
Proof.
  cbv zeta. split; [|split; vm_compute; reflexivity].
  apply Forall_cons; [|constructor]. split; [reflexivity|]. split; [reflexivity|]. intros j Hj.
  inversion Hj as [| | | | | | |? ? ? Hin Hm|]; subst. destruct Hin as [<-|[<-|[]]]; cbn [snd] in Hm; inversion Hm as [| | |? Hm'| | | | |]; subst.
  inversion Hm'; subst; cbn; lia.
Qed.

Print Assumptions C87_derived.
Print Assumptions C87_recursive.
Print Assumptions C87_library.
Print Assumptions C87_decimal_refuted.
Print Assumptions C87_decimal_growth_refuted.
Print Assumptions C87_datetime_growth_refuted.
Print Assumptions C87_duration_growth_refuted.
