(** * Nesting of calls on headers and bodies: C75. *)
From Verif Require Import Base BaseFacts Serde Header HeaderFacts Body SpecBody SpecStack ExSerde Stack StackFacts.
Local Open Scope list_scope.
Local Open Scope N_scope.

(** ** C75 *)
(** Reading a body nests no deeper than its header, whatever the input. *)
Theorem C75_read_enough : forall c d h s, (header_levels h <= d)%nat -> run c (bde_d c d h) s = run c (bde c h) s.
Proof. exact bde_d_enough_run. Qed.
(** With less room: the same result, or an overflow; what is read is never nested deeper than the room. *)
Theorem C75_read_any : forall c d h s,
  run c (bde_d c d h) s = OPanic PStack \/
  run c (bde_d c d h) s = run c (bde c h) s /\ (forall b r, run c (bde c h) s = OOk b r -> (body_levels b <= d)%nat).
Proof.
  intros c d h s. destruct (bde_d_any_run c d h s) as [E|E]; [right|left; exact E]. split; [exact E|].
  intros b r Eb. rewrite Eb in E. exact (proj2 (bde_d_decoded c d h s b r E)).
Qed.
(** Reading back what was written needs exactly as many nested calls as the body has levels. *)
Theorem C75_read_exact : forall c d h b rest, wf_cfg c -> 4096 <= heap_limit c ->
  validate h b = true -> body_ok c b = true -> body_fits c b = true ->
  run c (bde_d c d h) (wbytes (bser c b) ++ rest) = if (body_levels b <=? d)%nat then OOk b rest else OPanic PStack.
Proof. exact bde_d_roundtrip. Qed.
(** A stack which was large enough to read the header is large enough for every body of it. *)
Theorem C75_header_then_body : forall c d s h r t, run c (hde c d) s = OOk h r -> run c (bde_d c d h) t = run c (bde c h) t.
Proof. intros c d s h r t H. apply bde_d_enough_run. rewrite levels_hdepth. exact (hde_depth c d s h r H). Qed.
Theorem C75_valid_levels : forall h b, validate h b = true -> (body_levels b <= header_levels h)%nat.
Proof. exact validate_levels. Qed.
(** Writing a body: enough room changes nothing; otherwise the first bytes are written before the overflow. *)
Theorem C75_write_enough : forall c d b, (body_levels b <= d)%nat -> bser_d c d b = bser c b.
Proof. exact bser_enough. Qed.
Theorem C75_write_overflow : forall c d b, (d < body_levels b)%nat -> wresult (bser c b) = WeOk ->
  wresult (bser_d c d b) = WePanic PStack /\ exists t, wbytes (bser c b) = wbytes (bser_d c d b) ++ t.
Proof. intros c d b. exact (bser_torn c b d). Qed.
(** Writing a header. *)
Theorem C75_header_write : forall d h,
  ((header_levels h <= d)%nat -> hser_d d h = hser h) /\
  ((d < header_levels h)%nat -> wresult (hser_d d h) = WePanic PStack /\ exists t, wbytes (hser h) = wbytes (hser_d d h) ++ t).
Proof. intros d h. split; [exact (hser_enough h d)|exact (hser_torn h d)]. Qed.
(** Validation: the smaller of the two depths suffices, even when header and body do not match; a
    matching body needs all its levels. *)
Theorem C75_validate : forall d h b,
  (forall x, validate_d d h b = Some x -> x = validate h b) /\
  ((Nat.min (header_levels h) (body_levels b) <= d)%nat -> validate_d d h b = Some (validate h b)) /\
  (validate h b = true -> (d < body_levels b)%nat -> validate_d d h b = None).
Proof.
  intros d h b. split; [exact (validate_d_some d h b)|]. split.
  - intros H. pose proof (validate_d_total d h b H) as Ht.
    destruct (validate_d d h b) as [x|] eqn:E; [|destruct (Ht eq_refl)]. f_equal. exact (validate_d_some d h b x E).
  - intros Hv Hl. destruct (validate_d d h b) as [x|] eqn:E; [|reflexivity]. rewrite (validate_d_some d h b x E), Hv in E.
    apply validate_d_true in E. lia.
Qed.
(** Option<Vec<Option<u8>>>; Some(vec![None, Some(5)]) has four levels, Some(vec![None]) three. *)
Example C75_ex :
  let h := HOptional (HArray (HOptional HUInt8)) in
  let deep := BOptional (Some (BArray [BOptional None; BOptional (Some (BUInt8 5))])) in
  let flat := BOptional (Some (BArray [BOptional None])) in
  header_levels h = 4%nat /\ body_levels deep = 4%nat /\ body_levels flat = 3%nat /\
  validate h deep = true /\ body_ok c64 deep = true /\ body_fits c64 deep = true /\
  wbytes (bser c64 deep) = [1; 2; 0; 1; 5] /\
  run c64 (bde_d c64 3 h) [1; 2; 0; 1; 5] = OPanic PStack /\
  run c64 (bde_d c64 4 h) [1; 2; 0; 1; 5; 9] = OOk deep [9] /\
  run c64 (bde_d c64 3 h) [1; 1; 0; 9] = OOk flat [9] /\
  wbytes (bser_d c64 3 deep) = [1; 2; 0; 1] /\ wresult (bser_d c64 3 deep) = WePanic PStack /\
  wbytes (hser_d 2 h) = [1; 20] /\ wresult (hser_d 2 h) = WePanic PStack /\
  validate_d 3 h deep = None /\ validate_d 3 h flat = Some true /\ validate_d 1 HUnit deep = Some false /\
  run (Cfg true 64 32 32 (2 ^ 40)) (hde (Cfg true 64 32 32 (2 ^ 40)) 4) [1; 20; 1; 3] = OOk h [].
Proof. repeat split; vm_compute; reflexivity. Qed.
Print Assumptions C75_read_enough.
Print Assumptions C75_read_any.
Print Assumptions C75_read_exact.
Print Assumptions C75_header_then_body.
Print Assumptions C75_valid_levels.
Print Assumptions C75_write_enough.
Print Assumptions C75_write_overflow.
Print Assumptions C75_header_write.
Print Assumptions C75_validate.
