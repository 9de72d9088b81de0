(** * C91: untagged and internally tagged enums, borrowed text: written, but never read. *)
From Coq Require Import String.
From Verif Require Import Base Varint Serde Typing SerdeFacts Flatten Tagged SpecTagged TaggedFacts ExSerde ExTagged.
Local Open Scope list_scope.
Local Open Scope N_scope.

(** ** C91 *)
(** Every input: as for the type that asks for a dynamic value (deserialize_any) wherever such a type
    stands; so a successful read has met none of them. *)
Theorem C91_read : forall c t s, gproper t ->
  match run c (gtde c t) s with
  | OOk v r => run c (de c (gwire t)) s = OOk (gsval v) r /\ unreadable v = false
  | OErr e => run c (de c (gwire t)) s = OErr e
  | OPanic p => run c (de c (gwire t)) s = OPanic p
  end.
Proof. exact tagged_read. Qed.
(** What was written panics when read, whatever follows it, if the value has one of them anywhere. That
    holds even if writing it stopped with an error. *)
Theorem C91_reached : forall c t v rest, wf_cfg c -> 4096 <= heap_limit c -> gproper t -> hold c t v -> unreadable v = true ->
  run c (gtde c t) (wbytes (ser (gsval v)) ++ rest) = OPanic PTodo.
Proof. intros c t v rest Hc Hh P H Hu. pose proof (tagged_meets c t Hc Hh P v H) as M. rewrite Hu in M. exact (M rest). Qed.
(** A value that has none comes back. *)
Theorem C91_not_reached : forall c t v rest, wf_cfg c -> 4096 <= heap_limit c -> gproper t -> hold c t v -> unreadable v = false ->
  wresult (ser (gsval v)) = WeOk /\ run c (gtde c t) (wbytes (ser (gsval v)) ++ rest) = OOk v rest.
Proof.
  intros c t v rest Hc Hh P H Hu. pose proof (tagged_meets c t Hc Hh P v H) as M. rewrite Hu in M. destruct M as [R [Q _]]. split; [exact R|apply Q].
Qed.
(** An untagged variant: its payload alone. *)
Theorem C91_untagged : forall v,
  wbytes (ser (gsval (GUntagged v))) = wbytes (ser (gsval v)) /\ wresult (ser (gsval (GUntagged v))) = wresult (ser (gsval v)).
Proof. intros v. split; reflexivity. Qed.
(** An internally tagged variant without payload: its name alone; the name of a newtype struct that is
    the payload plays no part. *)
Theorem C91_tag_unit : forall tag name,
  wbytes (ser (gsval (GTagUnit tag name))) = wbytes (ser (SStr (name_bytes name))) /\
  wresult (ser (gsval (GTagUnit tag name))) = WeOk.
Proof. intros tag name. exact (tag_unit_bytes tag name). Qed.
Theorem C91_tag_newtype : forall tag name w,
  wbytes (ser (gsval (GTag tag name (GPlain (SNewtypeStruct w))))) = wbytes (ser (gsval (GTag tag name (GPlain w)))) /\
  wresult (ser (gsval (GTag tag name (GPlain (SNewtypeStruct w))))) = wresult (ser (gsval (GTag tag name (GPlain w)))).
Proof. intros tag name w. split; reflexivity. Qed.
(** An internally tagged variant: the variant's name, then the fields; the tag's own name only if the
    payload is a map. *)
Theorem C91_tag_struct : forall tag name fs,
  wbytes (ser (gsval (GTag tag name (GRecord fs)))) = wbytes (ser (SStr (name_bytes name))) ++ wbytes (ser (gsval (GRecord fs))) /\
  wresult (ser (gsval (GTag tag name (GRecord fs)))) = wresult (ser (gsval (GRecord fs))).
Proof. intros tag name fs. apply tag_struct_bytes. Qed.
Theorem C91_tag_map : forall tag name m, lenN m + 1 < 2 ^ 64 ->
  wbytes (ser (gsval (GTag tag name (GDict m)))) =
    enc_u64 (lenN m + 1) ++ wbytes (ser (SStr (name_bytes tag))) ++ wbytes (ser (SStr (name_bytes name))) ++
    skipn (length (enc_u64 (lenN m))) (wbytes (ser (gsval (GDict m)))) /\
  wresult (ser (gsval (GTag tag name (GDict m)))) = wresult (ser (gsval (GDict m))).
Proof. intros tag name m. apply tag_map_bytes. Qed.
(** Payloads an internally tagged variant cannot have: an error, and nothing is written. *)
Theorem C91_tag_refused : forall tag name v,
  (exists n, v = GPlain (SU8 n) \/ v = GPlain (SU64 n)) \/ (exists s, v = GPlain (SStr s)) \/ (exists b, v = GPlain (SBool b)) \/
  (exists l, v = GSeq l \/ v = GTuple l) \/ v = GNone \/ (exists x, v = GSome x) ->
  wbytes (ser (gsval (GTag tag name v))) = [] /\ wresult (ser (gsval (GTag tag name v))) = WeErr SEMsg.
Proof.
  intros tag name v H.
  destruct H as [(n & [-> | ->])|[(s & ->)|[(b & ->)|[(l & [-> | ->])|[-> |(x & ->)]]]]]; split; reflexivity.
Qed.
(** Nor would the bytes tell the variants of an untagged enum apart. *)
Theorem C91_untagged_distinct_refuted : exists c v v', wf_cfg c /\ hold c YUntagged v /\ hold c YUntagged v' /\ v <> v' /\
  wresult (ser (gsval v)) = WeOk /\ wresult (ser (gsval v')) = WeOk /\ wbytes (ser (gsval v)) = wbytes (ser (gsval v')) /\ wbytes (ser (gsval v)) <> [].
Proof.
  exists c64, (GUntagged (GPlain (SU8 1))), (GUntagged (GPlain (SBool true))).
  split; [split; [right; reflexivity|split; discriminate]|]. repeat split; try constructor; discriminate.
Qed.

Example C91_ex_values : gproper ex_tag /\ hold c64 ex_tag ex_tag_clean /\ hold c64 ex_tag ex_tag_dirty /\
  unreadable ex_tag_clean = false /\ unreadable ex_tag_dirty = true /\
  wbytes (ser (gsval ex_tag_clean)) = [172; 4; 1; 1; 0; 0] /\ wbytes (ser (gsval ex_tag_dirty)) = [172; 4; 2; 1; 0; 0; 1; 7; 0].
Proof.
  assert (D : forall l, nodupb l = true -> NoDup l) by exact nodupb_NoDup.
  assert (N1 : hold c64 (YTuple [YPlain DBool; YOption YUntagged]) (GTuple [GPlain (SBool true); GNone])).
  { apply ho_tuple, ah_cons; [apply ho_plain; reflexivity|]. apply ah_cons; [apply ho_none|constructor]. }
  split; [cbn; repeat split; apply D; reflexivity|]. split; [|split; [|split; [reflexivity|split; [reflexivity|split; vm_compute; reflexivity]]]].
  - apply ho_struct; [reflexivity|]. cbn [map snd]. apply ah_cons; [apply ho_plain; reflexivity|]. apply ah_cons.
    + apply ho_vec; [reflexivity|]. constructor; [exact N1|constructor].
    + apply ah_cons; [|constructor]. apply ho_map; [reflexivity|reflexivity|constructor|constructor].
  - apply ho_struct; [reflexivity|]. cbn [map snd]. apply ah_cons; [apply ho_plain; reflexivity|]. apply ah_cons.
    + apply ho_vec; [reflexivity|]. constructor; [exact N1|]. constructor; [|constructor].
      apply ho_tuple, ah_cons; [apply ho_plain; reflexivity|]. apply ah_cons; [apply ho_some, ho_untagged|constructor].
    + apply ah_cons; [|constructor]. apply ho_map; [reflexivity|reflexivity|constructor|constructor].
Qed.
(** Reading the second value panics already after its sixth byte; cut before that it is Read. *)
Example C91_ex_cut : run c64 (gtde c64 ex_tag) [172; 4; 2; 1; 0; 0; 1] = OPanic PTodo /\
  run c64 (gtde c64 ex_tag) [172; 4; 2; 1; 0; 0] = OErr ERead /\
  run c64 (gtde c64 ex_tag) [172; 4; 0; 1; 1; 97] = OPanic PTodo.
Proof. repeat split; vm_compute; reflexivity. Qed.
Example C91_ex_unit : wbytes (ser (gsval (GUntagged (GTuple [GPlain (SU8 1); GTagUnit "t"%string "Off"%string])))) = [1; 3; 79; 102; 102].
Proof. vm_compute. reflexivity. Qed.
Example C91_ex_tag : wbytes (ser (gsval ex_tag_on)) = [2; 79; 110; 9] /\ lenN (@nil (list N * gval)) + 1 < 2 ^ 64 /\
  wbytes (ser (gsval (GTag "kind"%string "On"%string (GDict [([97], GPlain (SU8 5))])))) = [2; 4; 107; 105; 110; 100; 2; 79; 110; 1; 97; 5].
Proof. split; [|split]; vm_compute; reflexivity. Qed.

Print Assumptions C91_read.
Print Assumptions C91_reached.
Print Assumptions C91_not_reached.
Print Assumptions C91_untagged.
Print Assumptions C91_tag_unit.
Print Assumptions C91_tag_newtype.
Print Assumptions C91_tag_struct.
Print Assumptions C91_tag_map.
Print Assumptions C91_tag_refused.
Print Assumptions C91_untagged_distinct_refuted.
