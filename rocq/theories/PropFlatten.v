(** * Structs with flattened fields: C82. *)
From Coq Require Import String.
From Verif Require Import Base BaseFacts Serde ExSerde SpecVarint SpecOutput Flatten SpecFlatten FlattenFacts ExFlatten.
Local Open Scope list_scope.
Local Open Scope N_scope.

(** ** C82 *)
(** Writing succeeds: for each named value its name's length, the name and the value; no count. *)
Theorem C82_written : forall ms l u, named_values ms l -> in_range l -> named_output l u ->
  exists sv, flatten_sval ms = Some sv /\ wresult (ser sv) = WeOk /\ wbytes (ser sv) = u.
Proof. intros ms l u H HR HO. destruct (named_output_bytes l u HR HO) as [HW ->]. exact (flat_written ms l H HW). Qed.
(** A flattened value without names is refused after what comes before it. *)
Theorem C82_refused : forall ms l u v ms' sv, named_values ms l -> in_range l -> named_output l u ->
  nameless v -> flatten_sval (ms ++ Flat v :: ms') = Some sv ->
  wresult (ser sv) = WeErr SEMsg /\ wbytes (ser sv) = u.
Proof. intros ms l u v ms' sv H HR HO. destruct (named_output_bytes l u HR HO) as [HW ->]. exact (flat_refused ms l v ms' sv H HW). Qed.
(** Reading it back never succeeds: the length of the first name is taken for the number of entries
    and the name's first bytes for a key, whose value ends in todo!(). *)
Theorem C82_not_read_back : forall c ms k v l u sv rest A (finish : prog A), wf_cfg c ->
  named_values ms ((k, v) :: l) -> in_range ((k, v) :: l) -> named_output ((k, v) :: l) u ->
  k <> [] -> lenN k < 2 ^ usize_bits c -> flatten_sval ms = Some sv -> bytes_ok (wbytes (ser sv) ++ rest) ->
  let o := run c (flatten_de c finish) (wbytes (ser sv) ++ rest) in
  (o = OPanic PTodo \/ o = OErr ERead) /\ (hd 0 k < 128 -> o = OPanic PTodo).
Proof.
  intros c ms k v l u sv rest A finish Hc H HR HO Hk Hl. destruct (named_output_bytes _ u HR HO) as [HW _].
  exact (flat_lost c ms k v l sv rest A finish Hc H Hk Hl HW).
Qed.
(** Whatever the input, reading ends as described, so no field ever gets its value from it. *)
Theorem C82_read : forall c A (finish : prog A) s x, bytes_ok s ->
  (flat_end c (run c finish) s x <-> run c (flatten_de c finish) s = x).
Proof. exact flat_ends. Qed.

Example C82_ex_named : named_values ex_flat [([97], SU8 7); ([98], SU16 300); ([99], SBool true)].
Proof. apply (nv_plain "a"). apply (nv_flat (SStruct ex_flat_rest) [_; _] [] []); [apply (ct_struct ex_flat_rest)|constructor]. Qed.
Example C82_ex_output : let l := [([97], SU8 7); ([98], SU16 300); ([99], SBool true)] in
  in_range l /\ named_output l [1; 97; 7; 1; 98; 172; 4; 1; 99; 1].
Proof.
  split; [repeat constructor|]. apply (no_cons [97] _ _ [7]); [constructor|]. apply (no_cons [98] _ _ [172; 4]); [apply (o_u16 300)|].
  apply (no_cons [99] _ _ [1] []); [apply (o_bool true)|constructor].
Qed.
Example C82_ex_written : exists sv, flatten_sval ex_flat = Some sv /\ wresult (ser sv) = WeOk /\
  wbytes (ser sv) = [1; 97; 7; 1; 98; 172; 4; 1; 99; 1].
Proof. eexists; repeat split. Qed.
Example C82_ex_lost : exists sv, flatten_sval ex_flat = Some sv /\ run c64 (flatten_de c64 (Ret tt)) (wbytes (ser sv)) = OPanic PTodo.
Proof. eexists; split; reflexivity. Qed.
(** A name that starts with an accented letter and ends before the key is complete: Err(Read). *)
Example C82_ex_short : exists sv, flatten_sval [Flat (SMap (Some 1) [(SStr [195; 169], SUnit)])] = Some sv /\
  wresult (ser sv) = WeOk /\ run c64 (flatten_de c64 (Ret tt)) (wbytes (ser sv)) = OErr ERead.
Proof. eexists; repeat split. Qed.
(** A number after the field. *)
Example C82_ex_refused : exists sv, flatten_sval [Plain "a" (SU8 7); Flat (SSome (SU32 1)); Plain "z" SUnit] = Some sv /\
  wresult (ser sv) = WeErr SEMsg /\ wbytes (ser sv) = [1; 97; 7] /\ nameless (SSome (SU32 1)).
Proof. eexists; split; [reflexivity|]. split; [reflexivity|]. split; [reflexivity|]. apply nl_some, nl_u32. Qed.
(** No entries: what is missing is filled in. On a 32-bit target a count of 2^32 is none. *)
Example C82_ex_empty : run c64 (flatten_de c64 (Ret 5)) [0; 9] = OOk 5 [9] /\
  run c64 (flatten_de c64 (Ret 5)) [240; 0; 0; 0; 32; 9] = OPanic PTodo /\ run c32 (flatten_de c32 (Ret 5)) [240; 0; 0; 0; 32; 9] = OOk 5 [9].
Proof. repeat split. Qed.
Print Assumptions C82_written.
Print Assumptions C82_refused.
Print Assumptions C82_not_read_back.
Print Assumptions C82_read.
