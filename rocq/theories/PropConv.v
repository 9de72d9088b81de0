(** * C90: types with conversions of their own. *)
From Coq Require Import String.
From Verif Require Import Base Serde Typing SerdeFacts Std SpecStd StdFacts Conv SpecConv ConvFacts ExSerde ExConv.
Local Open Scope list_scope.
Local Open Scope N_scope.

(** ** C90 *)
(** Every input, whatever the user's functions do: read as the wire type is, and the value turned into
    the user's, or refused with Message ([read_as], as for C84). The panics are the wire type's. *)
Theorem C90_read : forall (U : Type) c (t : cty U) s, cproper t ->
  read_as (crefusing t) (cshadowing t) (turned t) (run c (de c (cwire t)) s) (run c (cde c t) s).
Proof. intros U c t s P. exact (conv_follows c t P s). Qed.
Theorem C90_one_value : forall (U : Type) (t : cty U) w v v', cproper t -> turned t w v -> turned t w v' -> v = v'.
Proof. intros U t w v v' P. exact (turned_fun t P w v v'). Qed.
(** Conversions that cannot fail: no input is refused that the wire type takes. *)
Theorem C90_infallible : forall (U : Type) c (t : cty U) s, cproper t -> crefusing t = false ->
  match run c (de c (cwire t)) s with
  | OOk w r => exists v, run c (cde c t) s = OOk v r /\ turned t w v
  | OErr e => run c (cde c t) s = OErr e
  | OPanic p => run c (cde c t) s = OPanic p
  end.
Proof.
  intros U c t s P H. pose proof (conv_follows c t P s) as F. rewrite H in F.
  destruct F as [w v r Hr|e|p|w r Hb Hw|e Hb|p Hb]; try reflexivity; try discriminate Hb. exists v. auto.
Qed.
(** What is written comes back as the conversions make it, and cut short it is Read. *)
Theorem C90_round_trip : forall (U : Type) c (t : cty U) v v' rest, wf_cfg c -> 4096 <= heap_limit c -> cproper t -> wf_dty (cwire t) = true ->
  returns c t v v' ->
  wresult (ser (csval t v)) = WeOk /\ run c (cde c t) (wbytes (ser (csval t v)) ++ rest) = OOk v' rest.
Proof. intros U. exact conv_roundtrip. Qed.
Theorem C90_truncated : forall (U : Type) c (t : cty U) v v' u x u', wf_cfg c -> 4096 <= heap_limit c -> cproper t -> wf_dty (cwire t) = true ->
  returns c t v v' -> wbytes (ser (csval t v)) = u ++ x :: u' -> run c (cde c t) u = OErr ERead.
Proof. intros U. exact conv_truncated. Qed.
(** Whoever knows the wire type alone reads it, as a wire value that stands for the same. *)
Theorem C90_wire : forall (U : Type) c (t : cty U) v v' rest, wf_cfg c -> 4096 <= heap_limit c -> cproper t -> wf_dty (cwire t) = true ->
  returns c t v v' ->
  exists w, run c (de c (cwire t)) (wbytes (ser (csval t v)) ++ rest) = OOk w rest /\ turned t w v'.
Proof. intros U. exact conv_wire. Qed.
(** A conversion that fails while writing: nothing of the value is written. *)
Theorem C90_unwritable : forall (U : Type) into from (t : cty U) v, into v = None ->
  wbytes (ser (csval (CTry into from t) v)) = [] /\ wresult (ser (csval (CTry into from t) v)) = WeErr SEMsg.
Proof. intros U into from t v H. cbn [csval]. rewrite H. split; reflexivity. Qed.
(** Nothing makes the conversions inverse of each other. *)
Theorem C90_inverse_refuted : exists c (t : cty N) v v', wf_cfg c /\ 4096 <= heap_limit c /\ cproper t /\ wf_dty (cwire t) = true /\
  returns c t v v' /\ v <> v' /\ run c (cde c t) (wbytes (ser (csval t v))) = OOk v' [].
Proof.
  exists c64, tens, (VUser 37), (VUser 30).
  split; [split; [right; reflexivity|split; discriminate]|]. split; [discriminate|]. split; [exact I|]. split; [reflexivity|].
  split; [|split; [discriminate|vm_compute; reflexivity]].
  change (@VUser N 30) with ((fun v : cval N => match v with VStd (XPlain (SU16 n)) => VUser (n * 10) | _ => v end) (VStd (XPlain (SU16 3)))).
  apply re_from. apply re_std, cb_plain. reflexivity.
Qed.

Example C90_ex_round_trip : cproper ex_conv /\ wf_dty (cwire ex_conv) = true /\ returns c32 ex_conv ex_conv_val ex_conv_back /\
  crefusing ex_conv = true /\ crefusing tens = false /\
  wbytes (ser (csval ex_conv ex_conv_val)) = [2; 1; 97; 3; 1; 98; 5; 1; 7; 9; 2; 3].
Proof.
  split; [|split; [reflexivity|split; [|split; [reflexivity|split; [reflexivity|vm_compute; reflexivity]]]]].
  { assert (D : forall l, nodupb l = true -> NoDup l) by exact nodupb_NoDup.
    cbn [ex_conv cproper fold_right fst snd ex_how2 cpayload]. repeat split; try (apply D; reflexivity); eexists; reflexivity. }
  assert (L : forall n, n <= 5 -> returns c32 level (VUser n) (VUser n)).
  { intros n Hn. eapply re_try; [reflexivity|apply re_std, cb_plain|].
    - apply N.ltb_lt, (N.le_lt_trans _ 5); [exact Hn|reflexivity].
    - cbv beta iota. rewrite (proj2 (N.leb_le n 5) Hn). reflexivity. }
  apply re_struct; [reflexivity|reflexivity|]. cbn [map snd]. apply ar_cons.
  { apply re_map; [reflexivity|reflexivity|repeat constructor|reflexivity|]. cbn [map snd].
    repeat (apply Forall2_cons; [apply L; discriminate|]). constructor. }
  apply ar_cons.
  { apply re_some. change (@VStd N (XDuration 7 9)) with ((fun v : cval N => v) (VStd (XDuration 7 9))) at 2. apply re_from, re_std, cb_duration; reflexivity. }
  apply ar_cons; [|constructor]. apply (re_variant c32 _ KStruct 2 (CStruct [("x"%string, tens)])); [reflexivity|].
  apply re_struct; [reflexivity|reflexivity|]. cbn [map snd]. apply ar_cons; [|constructor].
  change (@VUser N 30) with ((fun v : cval N => match v with VStd (XPlain (SU16 n)) => VUser (n * 10) | _ => v end) (VStd (XPlain (SU16 3)))).
  apply re_from. apply re_std, cb_plain. reflexivity.
Qed.
(** A level of 6 is refused, also where a later entry replaces it, and before the missing rest is; a cut
    is Read. *)
Example C90_ex_refused : run c64 (cde c64 ex_conv) [1; 1; 97; 6; 0; 0] = OErr EMsg /\
  run c64 (cde c64 ex_conv) [2; 1; 97; 6; 1; 97; 4; 0; 0] = OErr EMsg /\
  run c64 (cde c64 ex_conv) [2; 1; 97; 6] = OErr EMsg /\ run c64 (cde c64 ex_conv) [2; 1; 97; 4] = OErr ERead /\
  run c64 (cde c64 ex_conv) [2; 1; 97; 3; 1; 97; 4; 0; 0; 8] = OOk (VRecord [("by"%string, VDict [([97], VUser 4)]); ("wait"%string, VNone);
    ("how"%string, VVariant KUnit 0 (VStd (XPlain SUnit)))]) [8].
Proof. repeat split; vm_compute; reflexivity. Qed.
Example C90_ex_unwritable : match level with CTry into _ _ => into VNone = None /\ into (VUser 3) <> None | _ => False end.
Proof. split; [reflexivity|discriminate]. Qed.

Print Assumptions C90_read.
Print Assumptions C90_one_value.
Print Assumptions C90_infallible.
Print Assumptions C90_round_trip.
Print Assumptions C90_truncated.
Print Assumptions C90_wire.
Print Assumptions C90_unwritable.
Print Assumptions C90_inverse_refuted.
