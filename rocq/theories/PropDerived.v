(** * What derived types read from every input: C78. *)
From Coq Require Import String Sorted.
From Verif Require Import Base Serde ExSerde Big Header Body Derive DeriveDe SpecVarint SpecMap SpecDerive SpecDeriveDe SpecAccept SpecReads SpecDerived ExDeriveDe BaseFacts SerdeFacts DeriveDeFacts ReadsFacts DerivedFacts.
Local Open Scope list_scope.
Local Open Scope N_scope.

(** ** C78 *)
(** Every input has exactly one outcome, the one the relation gives. *)
Theorem C78_outcome : forall c dflt t s o, wf_cfg c -> 4096 <= heap_limit c -> declared t -> bytes_ok s ->
  (run c (rde c dflt t) s = o <-> derived_reads c dflt t s o).
Proof. intros c dflt t s o Hw Hh Ht Hs. exact (does_iff c _ _ (does_derived c dflt t Hw Hh Ht) s o Hs). Qed.
(** Names, and the style of structs and variants, do not matter. *)
Theorem C78_layout : forall c dflt t t' s, wf_cfg c -> 4096 <= heap_limit c -> declared t -> declared t' ->
  relabelled dflt t t' -> bytes_ok s -> run c (rde c dflt t') s = run c (rde c dflt t) s.
Proof. exact relabelled_same. Qed.
Example C78_ex_declared : declared ex_de_struct /\ bytes_ok [7; 2; 0; 1; 172; 4; 1; 1; 99].
Proof.
  assert (Hs : skipped_de (ex_attr "skip")) by (apply skip_de_iff; reflexivity).
  split; [|apply bytes_okb_ok; reflexivity]. unfold ex_de_struct. apply dc_struct, dc_fields; [discriminate|left|].
  { repeat (constructor; [cbn; intuition discriminate|]). constructor. }
  constructor; [right; constructor|]. constructor; [left; exact Hs|]. constructor; [right; constructor; constructor; constructor|].
  constructor; [right|constructor]. apply dc_enum. constructor; [right|constructor; [right|constructor; [left; exact Hs|constructor]]].
  - apply dc_fields; [reflexivity|left; constructor|constructor].
  - apply dc_fields; [discriminate|left|].
    + repeat (constructor; [cbn; intuition discriminate|]). constructor.
    + constructor; [right; constructor|]. constructor; [left; exact Hs|constructor].
Qed.
(** The fields and the variant number are read; a skipped field takes its default. *)
Example C78_ex_reads : derived_reads c64 ex_de_dflt ex_de_struct [7; 2; 0; 1; 172; 4; 1; 1; 99] (OOk ex_de_back [99]).
Proof.
  destruct C78_ex_declared as [Hd Hb]. apply C78_outcome; [split; [right; reflexivity|split; discriminate]|discriminate|exact Hd|exact Hb|].
  vm_compute. reflexivity.
Qed.
(** The third variant is skipped, so that its number is unknown. *)
Example C78_ex_unknown : derived_reads c64 ex_de_dflt ex_de_enum [2] (OErr EMsg).
Proof.
  apply (vr_unknown _ [2] 2 2 []); [exists 2, []; repeat split; reflexivity| |discriminate].
  apply (rv_keep _ _ 1); [apply skip_de_false; reflexivity|]. apply (rv_keep _ _ 0); [apply skip_de_false; reflexivity|].
  apply rv_skip; [apply skip_de_iff; reflexivity|constructor].
Qed.
Example C78_ex_layout : relabelled ex_de_dflt ex_moved ex_relabelled.
Proof.
  assert (Hs : skipped_de (ex_attr "skip")) by (apply skip_de_iff; reflexivity).
  assert (Hn : ~ skipped_de []) by (apply skip_de_false; reflexivity).
  unfold ex_moved, ex_relabelled. apply rl_enum. constructor; [left; split; exact Hs|].
  constructor; [|constructor; [|constructor]]; right; (split; [exact Hn|split; [exact Hn|]]); (constructor; [|constructor]); (apply rl_field; [exact Hn|exact Hn|constructor]).
Qed.
Example C78_ex_layout_run :
  run c64 (rde c64 ex_de_dflt ex_moved) [0; 5; 6] = OOk (VVariant 1 [VU 5]) [6] /\
  run c64 (rde c64 ex_de_dflt ex_relabelled) [0; 5; 6] = OOk (VVariant 1 [VU 5]) [6].
Proof. split; vm_compute; reflexivity. Qed.

Print Assumptions C78_outcome.
Print Assumptions C78_layout.
