(** * C84: types of the standard library. *)
From Coq Require Import String.
From Verif Require Import Base Serde Typing Utf8 Utf8Facts SpecUtf8 SerdeFacts Std SpecStd StdFacts ExSerde ExStd.
Local Open Scope list_scope.
Local Open Scope N_scope.

(** ** C84 *)
(** Every input: read as the type's wire type is, and the wire value is turned into the value it
    stands for, or refused with Message. [shadowing]: in a map the refused value may be one that a
    later entry of the same key replaces. *)
Theorem C84_read : forall c t s, proper t ->
  read_as (refusing t) (shadowing t) (stands t) (run c (de c (wire t)) s) (run c (std_de c t) s).
Proof. intros c t s P. exact (std_follows c t P s). Qed.
Theorem C84_one_value : forall t w v v', proper t -> stands t w v -> stands t w v' -> v = v'.
Proof. intros t w v v' P. exact (stands_fun t P w v v'). Qed.
(** Writing: what the wire type's own value writes. *)
Theorem C84_written : forall c t v v', proper t -> comes_back c t v v' ->
  exists w, has_ty c (wire t) w = true /\ stands t w v' /\
    wbytes (ser (std_sval v)) = wbytes (ser w) /\ wresult (ser (std_sval v)) = wresult (ser w).
Proof. exact std_written_bytes. Qed.
Theorem C84_round_trip : forall c t v v' rest, wf_cfg c -> 4096 <= heap_limit c -> proper t -> wf_dty (wire t) = true ->
  comes_back c t v v' ->
  wresult (ser (std_sval v)) = WeOk /\ run c (std_de c t) (wbytes (ser (std_sval v)) ++ rest) = OOk v' rest.
Proof. exact std_roundtrip. Qed.
(** Cut short, on any target: Read, never Message. *)
Theorem C84_truncated : forall c t v v' u x u', wf_cfg c -> 4096 <= heap_limit c -> proper t -> wf_dty (wire t) = true ->
  comes_back c t v v' -> wbytes (ser (std_sval v)) = u ++ x :: u' -> run c (std_de c t) u = OErr ERead.
Proof. exact std_truncated. Qed.
(** Times before 1970 and paths that are no text: an error, and nothing is written. *)
Theorem C84_unwritable : forall v,
  (exists secs nanos, v = XTime secs nanos /\ (secs < 0)%Z) \/ (exists bs, v = XPath bs /\ ~ wellformed bs) ->
  wbytes (ser (std_sval v)) = [] /\ wresult (ser (std_sval v)) = WeErr SEMsg.
Proof.
  intros v H. apply unwritable. destruct H as [H|(bs & E & H)]; [left; exact H|right]. exists bs. split; [exact E|].
  destruct (utf8_valid bs) eqn:U; [|reflexivity]. destruct H. apply utf8_valid_iff, U.
Qed.
(** Not every value comes back the same, and not every value has one encoding. *)
Theorem C84_lossless_refuted : exists c t v v', wf_cfg c /\ 4096 <= heap_limit c /\ proper t /\ wf_dty (wire t) = true /\
  comes_back c t v v' /\ v <> v' /\ run c (std_de c t) (wbytes (ser (std_sval v))) = OOk v' [].
Proof.
  set (ip := [254; 128; 0; 0; 0; 0; 0; 0; 0; 0; 0; 0; 0; 0; 0; 1]).
  exists c64, TSock6, (XSock6 ip 80 0 3), (XSock6 ip 80 0 0).
  split; [split; [right; reflexivity|split; discriminate]|]. split; [discriminate|]. split; [exact I|]. split; [reflexivity|].
  split; [apply cb_sock6; [repeat constructor|reflexivity|reflexivity]|]. split; [discriminate|]. vm_compute. reflexivity.
Qed.
Theorem C84_one_encoding_refuted : exists c t s s' v, bytes_ok s /\ bytes_ok s' /\ s <> s' /\
  run c (std_de c t) s = OOk v [] /\ run c (std_de c t) s' = OOk v [].
Proof.
  exists c64, TDuration, (wbytes (ser (STuple [SU64 1; SU32 1500000000]))), (wbytes (ser (STuple [SU64 2; SU32 500000000]))), (XDuration 2 500000000).
  split; [vm_compute; repeat constructor|]. split; [vm_compute; repeat constructor|]. split; [vm_compute; discriminate|].
  split; vm_compute; reflexivity.
Qed.
(** A map is refused for an entry that the wire type's map does not keep. *)
Theorem C84_shadowed_refuted : exists c t s w v, proper t /\ bytes_ok s /\
  run c (de c (wire t)) s = OOk w [] /\ stands t w v /\ run c (std_de c t) s = OErr EMsg.
Proof.
  exists c64, (TMap (TNonZero DU8)), [2; 1; 97; 0; 1; 97; 5], (SMap (Some 1) [(SStr [97], SU8 5)]), (XDict [([97], XPlain (SU8 5))]).
  split; [exact I|]. split; [repeat constructor|]. split; [vm_compute; reflexivity|]. split; [|vm_compute; reflexivity].
  apply st_map; [reflexivity|]. constructor; [|constructor]. apply st_nonzero. intros H. unfold zero in H. cbn in H. intuition congruence.
Qed.

Example C84_ex_round_trip : proper ex_std /\ wf_dty (wire ex_std) = true /\ comes_back c64 ex_std ex_std_val ex_std_back.
Proof.
  split; [cbn; pose proof by_number_lawful; tauto|]. split; [reflexivity|].
  unfold ex_std, ex_std_val, ex_std_back. apply cb_tuple. apply ab_cons.
  { apply cb_ok, cb_duration; reflexivity. }
  apply ab_cons.
  { apply (cb_set _ _ _ _ [XPlain (SU16 3); XPlain (SU16 500)]); [reflexivity| |].
    - repeat (apply Forall2_cons; [apply cb_plain; reflexivity|]). constructor.
    - apply set_of_increasing; [exact by_number_lawful|]. split; [repeat constructor|]. split; [constructor|exact I]. }
  apply ab_cons.
  { apply cb_some, cb_sockaddr_6, cb_sock6; [repeat constructor|reflexivity|reflexivity]. }
  apply ab_cons; [|constructor].
  assert (N : forall z, (z <> 0)%Z -> ~ zero (SI8 z)).
  { intros z Hz H. unfold zero in H. cbn in H. intuition congruence. }
  apply cb_range; apply cb_nonzero; [reflexivity|apply N; discriminate|reflexivity|apply N; discriminate].
Qed.
Example C84_ex_job : proper ex_job /\ wf_dty (wire ex_job) = true /\ comes_back c32 ex_job ex_job_val ex_job_val /\
  wbytes (ser (std_sval ex_job_val)) = [1; 5; 6; 2; 1; 97; 3; 1; 98; 4; 1; 1; 2; 127; 0; 0; 1].
Proof.
  split; [|split; [reflexivity|split; [|vm_compute; reflexivity]]].
  { assert (D : forall l, nodupb l = true -> NoDup l) by exact nodupb_NoDup.
    cbn [ex_job proper fold_right fst snd ex_how payload]. repeat split; try (apply D; reflexivity); eexists; reflexivity. }
  assert (N : forall n, n <> 0 -> ~ zero (SU8 n)).
  { intros n Hn H. unfold zero in H. cbn in H. intuition congruence. }
  apply cb_struct; [reflexivity|reflexivity|]. cbn [map snd]. apply ab_cons; [apply cb_some, cb_time; [split; [discriminate|reflexivity]|reflexivity]|].
  apply ab_cons.
  { apply cb_map; [reflexivity|reflexivity|repeat constructor|reflexivity|].
    cbn [map snd]. repeat (apply Forall2_cons; [apply cb_nonzero; [reflexivity|apply N; discriminate]|]). constructor. }
  apply ab_cons; [|constructor]. apply (cb_variant c32 _ KTuple 1 (TTuple [TDuration; TIp4])); [reflexivity|].
  apply cb_tuple, ab_cons; [apply cb_duration; reflexivity|]. apply ab_cons; [apply cb_ip4; [repeat constructor|reflexivity]|constructor].
Qed.
(** Cut within the map, and with a zero in it. *)
Example C84_ex_cut : run c64 (std_de c64 ex_job) [1; 5; 6; 2; 1; 97; 3; 1] = OErr ERead /\
  run c64 (std_de c64 ex_job) [1; 5; 6; 2; 1; 97; 0; 1] = OErr EMsg /\
  run c64 (std_de c64 ex_job) [1; 5; 6; 0; 2; 1; 120; 9] = OOk (XRecord [("at"%string, XSome (XTime 5 6)); ("by"%string, XDict []);
    ("how"%string, XVariant KStruct 2 (XRecord [("to"%string, XPath [120])]))]) [9].
Proof. split; [|split]; vm_compute; reflexivity. Qed.
(** Three members of a set, two of them equal; a carry; a zero refused although the rest is missing;
    a time beyond what SystemTime holds. *)
Example C84_ex_set : run c64 (std_de c64 (TSet by_number (TPlain DU16))) [3; 9; 4; 9; 77] = OOk (XSeq [XPlain (SU16 4); XPlain (SU16 9)]) [77].
Proof. vm_compute. reflexivity. Qed.
Example C84_ex_refused : run c64 (std_de c64 (TVec (TNonZero DU8))) [3; 1; 0] = OErr EMsg /\
  run c64 (de c64 (wire (TVec (TNonZero DU8)))) [3; 1; 0] = OErr ERead.
Proof. split; vm_compute; reflexivity. Qed.
Example C84_ex_time : let late := wbytes (ser (STuple [SU64 (2 ^ 63); SU32 5])) in
  run c64 (std_de c64 TSystemTime) late = OErr EMsg /\ run c64 (std_de c64 TDuration) late = OOk (XDuration (2 ^ 63) 5) [].
Proof. split; vm_compute; reflexivity. Qed.
Example C84_ex_unwritable : ~ wellformed [104; 255] /\ (-1 < 0)%Z.
Proof. split; [|reflexivity]. intros H. apply utf8_valid_iff in H. discriminate. Qed.

Print Assumptions C84_read.
Print Assumptions C84_one_value.
Print Assumptions C84_written.
Print Assumptions C84_round_trip.
Print Assumptions C84_truncated.
Print Assumptions C84_shadowed_refuted.
Print Assumptions C84_unwritable.
Print Assumptions C84_lossless_refuted.
Print Assumptions C84_one_encoding_refuted.
