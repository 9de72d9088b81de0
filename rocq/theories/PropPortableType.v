(** * C72 for derived types. *)
From Coq Require Import String.
From Verif Require Import Base Serde Header Derive DeriveDe SpecDerive SpecDeriveDe SpecDerived SpecPortableType PortableTypeFacts ExSerde.
Local Open Scope list_scope.
Local Open Scope N_scope.

(** ** C72 *)
(** Inputs below 4 GiB; types without vectors of members that may take no bytes. *)
Theorem C72_derived : forall c c' dflt t s v r, wf_cfg c -> wf_cfg c' -> usize_bits c = 64 ->
  overflow_checks c = overflow_checks c' -> 4096 <= heap_limit c -> 4096 <= heap_limit c' ->
  declared t -> portable_type t -> bytes_ok s -> lenN s < 2 ^ 32 ->
  run c (rde c dflt t) s = OOk v r -> run c' (rde c' dflt t) s = OOk v r.
Proof. intros c c' dflt t s v r Hw Hw' H64 Ho Hh Hh' Hd Hp. exact (carry_rde c c' Hw Hw' H64 Ho Hh Hh' dflt t Hd Hp s v r). Qed.
(** Written documents are the same on every platform. *)
Theorem C72_written : forall c c' omit t v, overflow_checks c = overflow_checks c' ->
  option_map ser (rser c omit t v) = option_map ser (rser c' omit t v).
Proof. intros c c' omit t v Ho. rewrite (rser_platform c c' Ho). reflexivity. Qed.
(** Without the condition: a vector of 2^32 units is empty for a 32 bit target. *)
Theorem C72_units_refuted : exists c c' dflt t s v r w r', wf_cfg c /\ wf_cfg c' /\ usize_bits c = 64 /\ usize_bits c' = 32 /\
  overflow_checks c = overflow_checks c' /\ 4096 <= heap_limit c /\ 4096 <= heap_limit c' /\ declared t /\ bytes_ok s /\ lenN s < 2 ^ 32 /\
  run c (rde c dflt t) s = OOk v r /\ run c' (rde c' dflt t) s = OOk w r' /\ v <> w.
Proof. exact units_differ. Qed.

(** A skipped vector of units, a map of numbers and a vector of structs, one field of which takes a byte. *)
Example C72_ex_derived :
  let skip := [Attr (Some "serde") (Some [NMeta (Some "skip")])]%string in
  let t := RStruct Named [(skip, ("u", RVec (RLeaf LUnit))); ([], ("m", RBTreeMap (RLeaf LNumBigInt)));
                          ([], ("l", RVec (RStruct Unnamed [([], ("0", RLeaf LUnit)); ([], ("1", RLeaf LDate))])))]%string in
  let s := [1; 129; 0; 120; 1; 200; 1; 44; 100; 9] in
  let c := Cfg false 64 1 1 4096 in
  declared t /\ portable_type t /\ exists v, run c (rde c (fun _ => VSeq []) t) s = OOk v [9] /\ run c32 (rde c32 (fun _ => VSeq []) t) s = OOk v [9].
Proof.
  intros skip t s c. assert (Hs : skipped_de skip).
  { left. eexists _, _. split; [left; reflexivity|]. split; [reflexivity|]. split; [reflexivity|]. left. reflexivity. }
  split; [|split].
  - apply dc_struct, dc_fields; [discriminate| |].
    + left. cbn. repeat constructor; cbn; intuition discriminate.
    + apply Forall_cons; [left; exact Hs|]. apply Forall_cons; [right; apply dc_btree, dc_leaf|]. apply Forall_cons; [right|constructor].
      apply dc_vec, dc_struct, dc_fields; [discriminate|right; reflexivity|]. repeat (apply Forall_cons; [right; apply dc_leaf|]). constructor.
  - apply pt_struct. apply Forall_cons; [left; exact Hs|]. apply Forall_cons; [right; apply pt_btree, pt_leaf|]. apply Forall_cons; [right|constructor].
    apply pt_vec; [apply pt_struct; repeat (apply Forall_cons; [right; apply pt_leaf|]); constructor|].
    apply (tb_struct _ _ [] "1"%string (RLeaf LDate)); [right; left; reflexivity| |constructor; discriminate].
    intros [(a & ns & [] & _)|(a & ns & [] & _)].
  - eexists. split; vm_compute; reflexivity.
Qed.

Print Assumptions C72_derived.
Print Assumptions C72_written.
Print Assumptions C72_units_refuted.
