(** * Writers that fail and readers that deliver piecemeal: C40 - C42, C54. *)
From Verif Require Import Base BaseFacts Serde Typing SerdeFacts SerdeMore SerdeProps Header HeaderFacts SpecHeader Body SpecBody BodyFacts Io SpecIo IoFacts ExSerde.

(** ** C40 *)
(** Any serializer (values, headers, bodies) on any writer: either everything was written and the
    result is the one of a perfect writer, or Err(Write) is returned, the writer did fail, and a
    proper prefix was written. *)
Theorem C40_writer_faults : forall w evs out r, wexec w evs = (out, r) ->
  (out = wbytes w /\ r = wresult w) \/
  (r = WeErr SEWrite /\ ~ sound_writer evs /\ exists x rest, wbytes w = out ++ x :: rest).
Proof.
  intros w evs out r E. pose proof (wexec_spec w evs) as H. rewrite E in H. destruct H as [H|(H1 & H2 & H3)]; [left; exact H|].
  right. split; [exact H1|]. split; [intros [S1 S2]; destruct H2; auto|exact H3].
Qed.
Theorem C40_ok_means_written : forall v evs out, wexec (ser v) evs = (out, WeOk) -> out = wbytes (ser v) /\ wresult (ser v) = WeOk.
Proof.
  intros v evs out E. destruct (C40_writer_faults _ _ _ _ E) as [[-> H]|[H _]]; [|discriminate]. split; [reflexivity|symmetry; exact H].
Qed.
Theorem C40_slow_writer : forall w evs, sound_writer evs -> wexec w evs = (wbytes w, wresult w).
Proof.
  intros w evs S. destruct (wexec w evs) as [out r] eqn:E. destruct (C40_writer_faults _ _ _ _ E) as [[-> ->]|(_ & H & _)]; [reflexivity|].
  destruct (H S).
Qed.
Example C40_ex :
  wexec (ser (SStr [104; 101; 108; 108; 111])) [WvAccept 1; WvInterrupted; WvAccept 2; WvError] = ([5; 104; 101], WeErr SEWrite) /\
  wexec (ser (SStr [104; 101; 108; 108; 111])) [WvInterrupted; WvAccept 1; WvAccept 2; WvInterrupted; WvAccept 9] =
    ([5; 104; 101; 108; 108; 111], WeOk) /\
  wexec (hser (HTuple [HUnit; HDate])) [WvAccept 1; WvZero] = ([21], WeErr SEWrite).
Proof. repeat split. Qed.
Print Assumptions C40_writer_faults.
Print Assumptions C40_ok_means_written.
Print Assumptions C40_slow_writer.

(** ** C41 *)
Theorem C41_torn_value : forall c d v evs out r, wf_cfg c -> 4096 <= heap_limit c -> wf_dty d = true -> has_ty c d v = true ->
  wexec (ser v) evs = (out, r) -> r <> WeOk -> r = WeErr SEWrite /\ run c (de c d) out = OErr ERead.
Proof.
  intros c d v evs out r Hc Hh Hd Hv E Hr. destruct (C40_writer_faults _ _ _ _ E) as [[-> H]|(H1 & _ & x & rest & H)].
  - destruct Hr. rewrite H. apply (roundtrip c d v Hc Hh Hd Hv).
  - split; [exact H1|]. exact (rt_prefix c d v _ _ _ Hc Hh Hd Hv H).
Qed.
Theorem C41_torn_header : forall c depth h evs out r, room c -> counts_fit h = true -> (hdepth h <= depth)%nat ->
  wexec (hser h) evs = (out, r) -> r <> WeOk -> r = WeErr SEWrite /\ run c (hde c depth) out = OErr EIo.
Proof.
  intros c depth h evs out r Hc Hf Hd E Hr. destruct (hde_roundtrip c depth h [] Hc Hf Hd) as [W _].
  destruct (C40_writer_faults _ _ _ _ E) as [[-> H]|(H1 & _ & x & rest & H)].
  - destruct Hr. rewrite H. exact W.
  - split; [exact H1|]. pose proof (proj1 (wire_parses c true Hc) _ _ (proj2 (hser_wire h) Hf) depth Hd) as [_ P]. eapply P, H.
Qed.
Theorem C41_torn_body : forall c h b evs out r, wf_cfg c -> 4096 <= heap_limit c ->
  validate h b = true -> body_ok c b = true -> body_fits c b = true ->
  wexec (bser c b) evs = (out, r) -> r <> WeOk -> r = WeErr SEWrite /\ run c (bde c h) out = OErr ERead.
Proof.
  intros c h b evs out r Hc Hh H1 H2 H3 E Hr. destruct (body_roundtrip c h b Hc Hh H1 H2 H3) as [W [_ P]].
  destruct (C40_writer_faults _ _ _ _ E) as [[-> H]|(H4 & _ & x & rest & H)].
  - destruct Hr. rewrite H. exact W.
  - split; [exact H4|]. eapply P, H.
Qed.
Example C41_ex : has_ty c64 (DVec DU16) (SSeq (Some 2) [SU16 300; SU16 7]) = true /\
  wexec (ser (SSeq (Some 2) [SU16 300; SU16 7])) [WvAccept 2; WvAccept 1; WvError] = ([2; 172], WeErr SEWrite) /\
  run c64 (de c64 (DVec DU16)) [2; 172] = OErr ERead.
Proof. repeat split. Qed.
Print Assumptions C41_torn_value.
Print Assumptions C41_torn_header.
Print Assumptions C41_torn_body.

(** ** C42 *)
(** Every decoder, every build, any chunking and interruptions: same result as from one slice, and
    what the reader has left are the bytes the slice has left. *)
Theorem C42_chunking : forall A c (p : prog A) evs s, sound_reader evs -> delivers evs s ->
  match run c p s with
  | OOk a r => exists evs', exec c p evs = EOk a evs' /\ delivers evs' r /\ sound_reader evs'
  | OErr e => exec c p evs = EErr e
  | OPanic q => exec c p evs = EPanic q
  end.
Proof. exact @exec_sound. Qed.
(** A fault after the bytes [s] (64-bit): as if the input ended after [s]. *)
Theorem C42_fault_is_end : forall c evs s, usize_bits c = 64 -> bytes_ok s -> delivers evs s ->
  (forall d, same (run c (de c d) s) (exec c (de c d) evs)) /\
  (forall h, same (run c (bde c h) s) (exec c (bde c h) evs)) /\
  (forall depth, same (run c (hde c depth) s) (exec c (hde c depth) evs)).
Proof.
  intros c evs s Hc Hs D. split; [intros d; apply steady_de; assumption|]. split; [intros h; apply steady_bde; assumption|].
  intros depth; apply steady_hde; assumption.
Qed.
(** If decoding needs bytes beyond the fault, the error is Err(Read). *)
Theorem C42_fault_reported : forall c evs s t, usize_bits c = 64 -> bytes_ok (s ++ t) -> delivers evs s ->
  (forall d v r, run c (de c d) (s ++ t) = OOk v r -> (length r < length t)%nat -> exec c (de c d) evs = EErr ERead) /\
  (forall h b r, run c (bde c h) (s ++ t) = OOk b r -> (length r < length t)%nat -> exec c (bde c h) evs = EErr ERead) /\
  (room c -> forall depth h r, run c (hde c depth) (s ++ t) = OOk h r -> (length r < length t)%nat -> exec c (hde c depth) evs = EErr EIo).
Proof.
  intros c evs s t Hc Hs D. split; [|split].
  - intros d v r. apply (steady_short c ERead); [apply steady_de, Hc|apply local_de, Hc|exact Hs|exact D].
  - intros h b r. apply (steady_short c ERead); [apply steady_bde, Hc|apply body_local, Hc|exact Hs|exact D].
  - intros Hr depth h r H. revert H. apply (steady_short c EIo); [apply steady_hde| |exact Hs|exact D].
    intros s0 h0 r0 Hb E. exact (hde_local c depth s0 h0 r0 Hr Hb E (hde_depth c depth s0 h0 r0 E)).
Qed.
(** On 32-bit targets the end of the input can be accepted where a fault is reported (C44). *)
Theorem C42_fault_is_end_32_refuted : exists c evs s d, wf_cfg c /\ usize_bits c = 32 /\ bytes_ok s /\ delivers evs s /\
  exec c (de c d) evs = EErr ERead /\ exists v, run c (de c d) s = OOk v [].
Proof.
  pose (s := Varint.enc_u64 (2 ^ 32 + 200) ++ repeat 97 200).
  exists c32, [EvData s; EvError], s, DString. split; [split; [left; reflexivity|split; cbn; lia]|]. split; [reflexivity|].
  split; [apply bytes_okb_ok; vm_compute; reflexivity|]. split; [|split].
  - rewrite <- (app_nil_r s) at 2. apply (D_data 240), D_fault.
  - vm_compute; reflexivity.
  - exists (SStr (repeat 97 200)). vm_compute; reflexivity.
Qed.
Example C42_ex :
  let evs := [EvInterrupted; EvData [2; 104]; EvInterrupted; EvData [105; 9; 8]; EvError] in
  delivers evs [2; 104; 105; 9; 8] /\ exec c64 (de c64 DString) evs = EOk (SStr [104; 105]) [EvData [9; 8]; EvError] /\
  exec c64 (de c64 DString) [EvData [2]; EvData [104]; EvError; EvData [105]] = EErr ERead /\
  delivers [EvData [2]; EvData [104]; EvError; EvData [105]] [2; 104].
Proof.
  cbv zeta. split; [|split; [reflexivity|split; [reflexivity|]]].
  - apply D_interrupted, (D_data 2 [104]), D_interrupted, (D_data 105 [9; 8] _ []), D_fault.
  - apply (D_data 2 [] _ [104]), (D_data 104 [] _ []), D_fault.
Qed.
Print Assumptions C42_chunking.
Print Assumptions C42_fault_is_end.
Print Assumptions C42_fault_reported.
Print Assumptions C42_fault_is_end_32_refuted.

(** ** C54 *)
(** Values written one after another to a writer that fails: reading back gives the values before
    the failure unchanged, then Err(Read). *)
Theorem C54_torn_stream : forall c ds vs evs out r, wf_cfg c -> 4096 <= heap_limit c ->
  Forall2 (fun d v => wf_dty d = true /\ has_ty c d v = true) ds vs ->
  wexec (wconcat (map ser vs)) evs = (out, r) -> r <> WeOk ->
  r = WeErr SEWrite /\
  exists ds1 d ds2 vs1 v vs2 rest, ds = ds1 ++ d :: ds2 /\ vs = vs1 ++ v :: vs2 /\ length ds1 = length vs1 /\
    run c (sequence (map (de c) ds1)) out = OOk vs1 rest /\ run c (de c d) rest = OErr ERead.
Proof.
  intros c ds vs evs out r Hc Hh H E Hr. destruct (C40_writer_faults _ _ _ _ E) as [[-> W]|(H1 & _ & x & rest & W)].
  - destruct Hr. rewrite W. apply wresult_wconcat, Forall_map. clear - Hc Hh H.
    induction H as [|d v ds vs [Hd Hv] _ IH]; constructor; [apply (roundtrip c d v Hc Hh Hd Hv)|exact IH].
  - split; [exact H1|]. exact (cut_stream c ds vs _ _ _ Hc Hh H W).
Qed.
Example C54_ex : wexec (wconcat (map ser [SBool true; SStr [104; 105]; SU64 7])) [WvAccept 2; WvAccept 2; WvAccept 2; WvError] = ([1; 2; 104; 105], WeErr SEWrite) /\
  wexec (wconcat (map ser [SBool true; SStr [104; 105]; SU64 7])) [WvAccept 2; WvAccept 1; WvAccept 1; WvZero] = ([1; 2; 104], WeErr SEWrite) /\
  run c64 (sequence (map (de c64) [DBool])) [1; 2; 104] = OOk [SBool true] [2; 104] /\ run c64 (de c64 DString) [2; 104] = OErr ERead.
Proof. repeat split. Qed.
Print Assumptions C54_torn_stream.
