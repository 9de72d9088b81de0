(** * C93: types with conversions, aliases and unreadable parts are read as safely as plain ones. *)
From Coq Require Import String.
From Verif Require Import Base BaseFacts Serde Typing SpecDty SerdeFacts SerdeSafe SpecRequest Alias Std SpecStd Conv SpecConv ConvFacts Tagged Io SpecIo IoFacts
  SpecAlike AlikeFacts SpecCalls CallsFacts AlikeMoreFacts SpecAgain SpecUndo AgainConvFacts ExSerde ExConv ExAlias ExTagged.
Local Open Scope list_scope.
Local Open Scope N_scope.

(** ** C93 *)
(** The user's conversions are any functions (C90). No buffer larger than 4096 bytes is asked for up
    front, whatever the input declares. *)
Theorem C93_requests : forall c s,
  (forall (U : Type) (t : cty U), Forall (fun n => n <= 4096) (requests c (cde c t) s)) /\
  (forall t, Forall (fun n => n <= 4096) (requests c (gtde c t) s)) /\
  (forall every fs, Forall (fun n => n <= 4096) (requests c (alias_de c every fs) s)).
Proof.
  intros c s. split; [|split].
  - intros U t. exact (small_requests _ c _ s (all_conv c _ (kept_small c) t)).
  - intros t. exact (small_requests _ c _ s (all_tagged c _ (kept_small c) t)).
  - intros every fs. exact (small_requests _ c _ s (all_alias c _ (kept_small c) every fs)).
Qed.
(** The bytes consumed decide the value, and nothing shorter does (64-bit). *)
Theorem C93_bytes : forall c, usize_bits c = 64 ->
  (forall (U : Type) (t : cty U), decided_by_bytes c (cde c t)) /\ (forall t, decided_by_bytes c (gtde c t)) /\
  (forall every fs, decided_by_bytes c (alias_de c every fs)).
Proof.
  intros c Hc. split; [|split].
  - intros U t s v r. exact (local_known c _ s v r (all_conv c _ (kept_local c Hc) t)).
  - intros t s v r. exact (local_known c _ s v r (all_tagged c _ (kept_local c Hc) t)).
  - intros every fs s v r. exact (local_known c _ s v r (all_alias c _ (kept_local c Hc) every fs)).
Qed.
(** A reader which fails after delivering [s], in any chunks, is treated as one which ends there
    (64-bit)... *)
Theorem C93_fault_is_end : forall c evs s, usize_bits c = 64 -> bytes_ok s -> delivers evs s ->
  (forall (U : Type) (t : cty U), same (run c (cde c t) s) (exec c (cde c t) evs)) /\
  (forall t, same (run c (gtde c t) s) (exec c (gtde c t) evs)) /\
  (forall every fs, same (run c (alias_de c every fs) s) (exec c (alias_de c every fs) evs)).
Proof.
  intros c evs s Hc Hs D. split; [|split].
  - intros U t. exact (all_conv c _ (kept_steady c Hc) t evs s Hs D).
  - intros t. exact (all_tagged c _ (kept_steady c Hc) t evs s Hs D).
  - intros every fs. exact (all_alias c _ (kept_steady c Hc) every fs evs s Hs D).
Qed.
(** ... so if bytes of the value were still missing, a read error is returned, not a value. *)
Theorem C93_torn : forall c evs s t, usize_bits c = 64 -> bytes_ok (s ++ t) -> delivers evs s ->
  (forall (U : Type) (ty : cty U) a r, run c (cde c ty) (s ++ t) = OOk a r -> (List.length r < List.length t)%nat -> exec c (cde c ty) evs = EErr ERead) /\
  (forall ty a r, run c (gtde c ty) (s ++ t) = OOk a r -> (List.length r < List.length t)%nat -> exec c (gtde c ty) evs = EErr ERead) /\
  (forall every fs a r, run c (alias_de c every fs) (s ++ t) = OOk a r -> (List.length r < List.length t)%nat ->
    exec c (alias_de c every fs) evs = EErr ERead).
Proof.
  intros c evs s t Hc Hs D. split; [|split].
  - intros U ty a r. exact (steady_short c _ _ evs s t a r (all_conv c _ (kept_steady c Hc) ty) (all_conv c _ (kept_local c Hc) ty) Hs D).
  - intros ty a r. exact (steady_short c _ _ evs s t a r (all_tagged c _ (kept_steady c Hc) ty) (all_tagged c _ (kept_local c Hc) ty) Hs D).
  - intros every fs a r.
    exact (steady_short c _ _ evs s t a r (all_alias c _ (kept_steady c Hc) every fs) (all_alias c _ (kept_local c Hc) every fs) Hs D).
Qed.
(** Read, a message, or CharSize for a char. *)
Theorem C93_errors : forall c s e,
  (exists (U : Type) (t : cty U), run c (cde c t) s = OErr e) \/ (exists t, run c (gtde c t) s = OErr e) \/
  (exists every fs, run c (alias_de c every fs) s = OErr e) ->
  e = ERead \/ e = EMsg \/ e = ECharSize.
Proof.
  intros c s e [(U & t & H)|[(t & H)|(every & fs & H)]].
  - exact (names_run _ c _ s e (all_conv c _ (kept_names c) t) H).
  - exact (names_run _ c _ s e (all_tagged c _ (kept_names c) t) H).
  - exact (names_run _ c _ s e (all_alias c _ (kept_names c) every fs) H).
Qed.
(** At most two calls of the reader for each byte (as C85). *)
Theorem C93_calls : forall c s,
  (forall (U : Type) (t : cty U), two_per_byte (run c (cde c t) s) s (reader_calls c (cde c t) s)) /\
  (forall t, two_per_byte (run c (gtde c t) s) s (reader_calls c (gtde c t) s)) /\
  (forall every fs, two_per_byte (run c (alias_de c every fs) s) s (reader_calls c (alias_de c every fs) s)).
Proof.
  intros c s. split; [|split].
  - intros U t. exact (two_per c _ (all_conv c _ (kept_thrifty c) t) s).
  - intros t. exact (two_per c _ (all_tagged c _ (kept_thrifty c) t) s).
  - intros every fs. exact (two_per c _ (all_alias c _ (kept_thrifty c) every fs) s).
Qed.
(** Panics of types with conversions: only dates inside them, with overflow checks. *)
Theorem C93_panics : forall (U : Type) c (t : cty U) s q, wf_cfg c -> 4096 <= heap_limit c -> cproper t -> wf_dty (cwire t) = true -> bytes_ok s ->
  run c (cde c t) s = OPanic q -> q = POverflow /\ overflow_checks c = true /\ occurs is_date (cwire t) = true.
Proof.
  intros U c t s q Hw Hh Hp Hd Hs H. pose proof (conv_follows c t Hp s) as F. rewrite H in F. inversion F as [| |p E X| | |]; subst p.
  pose proof (ends_de c (cwire t) Hw Hh Hd s Hs) as G. rewrite <- E in G. exact G.
Qed.

(** Whatever was read can be written again, as C87, if writing undoes the conversions. *)
Theorem C93_again : forall (U : Type) c (t : cty U) s v r,
  wf_cfg c -> 4096 <= heap_limit c -> usize_bits c = 64 \/ lenN s < 2 ^ usize_bits c + lenN r ->
  cproper t -> wf_dty (cwire t) = true -> undone c t -> bytes_ok s -> run c (cde c t) s = OOk v r ->
  wresult (ser (csval t v)) = WeOk /\
  (forall rest, run c (cde c t) (wbytes (ser (csval t v)) ++ rest) = OOk v rest) /\
  (ctimed t = false -> lenN (wbytes (ser (csval t v))) + lenN r <= lenN s).
Proof. intros U c t s v r Hc Hh Hn P Hw K Hs. exact (conv_again c t Hc Hh P Hw K s v r Hs Hn). Qed.
(** Otherwise it may not be writable, or come back as something else. *)
Theorem C93_unwritable_refuted : exists c (t : cty N) s v, wf_cfg c /\ usize_bits c = 64 /\ 4096 <= heap_limit c /\ cproper t /\
  wf_dty (cwire t) = true /\ bytes_ok s /\ run c (cde c t) s = OOk v [] /\ wresult (ser (csval t v)) = WeErr SEMsg.
Proof.
  exists c64, no_zero, [0], (VUser 0). split; [split; [right; reflexivity|split; discriminate]|]. split; [reflexivity|]. split; [discriminate|].
  split; [exact I|]. split; [reflexivity|]. split; [repeat constructor|]. split; vm_compute; reflexivity.
Qed.
Theorem C93_drift_refuted : exists c (t : cty N) s v v', wf_cfg c /\ usize_bits c = 64 /\ 4096 <= heap_limit c /\ cproper t /\
  wf_dty (cwire t) = true /\ bytes_ok s /\ run c (cde c t) s = OOk v [] /\ wresult (ser (csval t v)) = WeOk /\
  run c (cde c t) (wbytes (ser (csval t v))) = OOk v' [] /\ v <> v'.
Proof.
  exists c64, halves, [9], (VUser 4), (VUser 2). split; [split; [right; reflexivity|split; discriminate]|]. split; [reflexivity|]. split; [discriminate|].
  split; [exact I|]. split; [reflexivity|]. split; [repeat constructor|]. split; [vm_compute; reflexivity|]. split; [reflexivity|].
  split; [vm_compute; reflexivity|discriminate].
Qed.

(** The length of the map and the tens in long form. *)
Example C93_ex_again : cproper ex_conv /\ wf_dty (cwire ex_conv) = true /\ undone c64 ex_conv /\
  run c64 (cde c64 ex_conv) [130; 0; 1; 97; 3; 1; 98; 5; 1; 7; 9; 2; 131; 0; 8] = OOk ex_conv_back [8] /\
  wbytes (ser (csval ex_conv ex_conv_back)) = [2; 1; 97; 3; 1; 98; 5; 1; 7; 9; 2; 3].
Proof.
  split. { assert (D : forall l, nodupb l = true -> NoDup l) by exact nodupb_NoDup.
    cbn [ex_conv cproper fold_right fst snd ex_how2 cpayload]. repeat split; try (apply D; reflexivity); eexists; reflexivity. }
  split; [reflexivity|]. split; [|split; vm_compute; reflexivity].
  assert (L : undone c64 level). { split; [|exact I]. intros w x v Hw Ht. inversion Ht as [t0 w0 v0 H0| | | | | | | | | | | |]; subst. inversion H0; subst.
    destruct w; try discriminate Hw. destruct (n <=? 5) eqn:E; [|discriminate]. intros X. injection X as <-. reflexivity. }
  assert (T : undone c64 tens). { split; [|exact I]. intros w x Hw Ht. inversion Ht as [t0 w0 v0 H0| | | | | | | | | | | |]; subst. inversion H0; subst.
    destruct w; try discriminate Hw. rewrite N.div_mul by discriminate. reflexivity. }
  cbn [ex_conv ex_how2 undone fold_right snd wait]. repeat split; try exact I; try apply L; try apply T. 
Qed.
Example C93_ex_calls :
  reader_calls c64 (cde c64 (CVec level)) [3; 1; 2; 6; 4] = 4 /\ run c64 (cde c64 (CVec level)) [3; 1; 2; 6; 4] = OErr EMsg /\
  reader_calls c64 (gtde c64 (YTuple [YPlain DBool; YUntagged])) [1; 9] = 1 /\
  run c64 (gtde c64 (YTuple [YPlain DBool; YUntagged])) [1; 9] = OPanic PTodo.
Proof. vm_compute. auto. Qed.
(** 2^40 elements are declared. *)
Example C93_ex_requests :
  requests c64 (cde c64 (CVec level)) [255; 0; 0; 0; 0; 0; 1; 0; 0; 1; 2] = [1; 8; 1; 1; 1].
Proof. vm_compute. auto. Qed.
Example C93_ex_torn :
  run c64 (alias_de c64 false ex_user) [7; 2; 104; 105; 1; 9] = OOk ex_user_val [9] /\
  exec c64 (alias_de c64 false ex_user) [EvData [7; 2]; EvData [104]; EvError] = EErr ERead /\
  run c64 (cde c64 (CTuple [level; tens])) [5; 2; 1] = OOk (VTuple [VUser 5; VUser 20]) [1] /\
  exec c64 (cde c64 (CTuple [level; tens])) [EvData [5]; EvError] = EErr ERead /\
  exec c64 (cde c64 (CTuple [level; tens])) [EvData [6]; EvError] = EErr EMsg.
Proof. vm_compute. auto. Qed.
Example C93_ex_delivers : delivers [EvData [7; 2]; EvData [104]; EvError] [7; 2; 104].
Proof. apply (D_data 7 [2] _ [104]), (D_data 104 [] _ []), D_fault. Qed.
Example C93_ex_panic : cproper (CVec (CFrom (fun v => v) (fun v => v) (@CStd N (TPlain DDate)))) /\
  run c64 (cde c64 (CVec (CFrom (fun v => v) (fun v => v) (@CStd N (TPlain DDate))))) [1; 240; 254; 255; 255; 255; 0] = OPanic POverflow.
Proof. split; [exact I|]. vm_compute; reflexivity. Qed.

Print Assumptions C93_requests.
Print Assumptions C93_bytes.
Print Assumptions C93_fault_is_end.
Print Assumptions C93_torn.
Print Assumptions C93_errors.
Print Assumptions C93_calls.
Print Assumptions C93_panics.
Print Assumptions C93_again.
Print Assumptions C93_unwritable_refuted.
Print Assumptions C93_drift_refuted.
