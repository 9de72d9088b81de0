(** * C86: derived, recursive and standard library types are read as safely as plain ones. *)
From Coq Require Import String.
From Verif Require Import Base BaseFacts Serde Typing SpecDty SerdeSafe SpecRequest Derive DeriveDe Rec Std SpecStd StdFacts Io SpecIo IoFacts SpecAlike AlikeFacts ExSerde ExDeriveDe.
Local Open Scope list_scope.
Local Open Scope N_scope.

(** ** C86 *)
(** No buffer larger than 4096 bytes is asked for up front, whatever the input declares. *)
Theorem C86_requests_derived : forall c dflt t s, Forall (fun n => n <= 4096) (requests c (rde c dflt t) s).
Proof. intros c dflt t s. exact (small_requests _ c _ s (all_derived c true _ (kept_small c) dflt t)). Qed.
Theorem C86_requests_recursive : forall c items depth i s, Forall (fun n => n <= 4096) (requests c (item_de c items depth i) s).
Proof. intros c items depth i s. exact (small_requests _ c _ s (all_items c true _ (kept_small c) items depth i eq_refl)). Qed.
Theorem C86_requests_std : forall c t s, Forall (fun n => n <= 4096) (requests c (std_de c t) s).
Proof. intros c t s. exact (small_requests _ c _ s (all_std c true _ (kept_small c) t eq_refl)). Qed.

(** The bytes consumed decide the value, and nothing shorter does (64-bit). *)
Theorem C86_bytes_derived : forall c dflt t, usize_bits c = 64 -> decided_by_bytes c (rde c dflt t).
Proof. intros c dflt t Hc s v r. exact (local_known c _ s v r (all_derived c true _ (kept_local c Hc) dflt t)). Qed.
Theorem C86_bytes_recursive : forall c items depth i, usize_bits c = 64 -> decided_by_bytes c (item_de c items depth i).
Proof. intros c items depth i Hc s v r. exact (local_known c _ s v r (all_items c true _ (kept_local c Hc) items depth i eq_refl)). Qed.
Theorem C86_bytes_std : forall c t, usize_bits c = 64 -> decided_by_bytes c (std_de c t).
Proof. intros c t Hc s v r. exact (local_known c _ s v r (all_std c true _ (kept_local c Hc) t eq_refl)). Qed.

(** A reader which fails after delivering [s], in any chunks, is treated as one which ends there
    (64-bit)... *)
Theorem C86_fault_is_end : forall c evs s, usize_bits c = 64 -> bytes_ok s -> delivers evs s ->
  (forall dflt t, same (run c (rde c dflt t) s) (exec c (rde c dflt t) evs)) /\
  (forall items depth i, same (run c (item_de c items depth i) s) (exec c (item_de c items depth i) evs)) /\
  (forall t, same (run c (std_de c t) s) (exec c (std_de c t) evs)).
Proof.
  intros c evs s Hc Hs D. split; [|split].
  - intros dflt t. exact (all_derived c true _ (kept_steady c Hc) dflt t evs s Hs D).
  - intros items depth i. exact (all_items c true _ (kept_steady c Hc) items depth i eq_refl evs s Hs D).
  - intros t. exact (all_std c true _ (kept_steady c Hc) t eq_refl evs s Hs D).
Qed.
(** ... so if bytes of the value were still missing, a read error is returned, not a value. *)
Theorem C86_torn : forall c evs s t, usize_bits c = 64 -> bytes_ok (s ++ t) -> delivers evs s ->
  (forall dflt ty a r, run c (rde c dflt ty) (s ++ t) = OOk a r -> (List.length r < List.length t)%nat -> exec c (rde c dflt ty) evs = EErr ERead) /\
  (forall items depth i a r, run c (item_de c items depth i) (s ++ t) = OOk a r -> (List.length r < List.length t)%nat ->
    exec c (item_de c items depth i) evs = EErr ERead) /\
  (forall ty a r, run c (std_de c ty) (s ++ t) = OOk a r -> (List.length r < List.length t)%nat -> exec c (std_de c ty) evs = EErr ERead).
Proof.
  intros c evs s t Hc Hs D. split; [|split].
  - intros dflt ty a r. exact (steady_short c _ _ evs s t a r (all_derived c true _ (kept_steady c Hc) dflt ty) (all_derived c true _ (kept_local c Hc) dflt ty) Hs D).
  - intros items depth i a r.
    exact (steady_short c _ _ evs s t a r (all_items c true _ (kept_steady c Hc) items depth i eq_refl) (all_items c true _ (kept_local c Hc) items depth i eq_refl) Hs D).
  - intros ty a r. exact (steady_short c _ _ evs s t a r (all_std c true _ (kept_steady c Hc) ty eq_refl) (all_std c true _ (kept_local c Hc) ty eq_refl) Hs D).
Qed.

(** Errors: a derived type reports Read or a message; the others also CharSize, for a char. *)
Theorem C86_errors_derived : forall c dflt t s e, run c (rde c dflt t) s = OErr e -> e = ERead \/ e = EMsg.
Proof.
  intros c dflt t s e. exact (names_run (fun e => e = ERead \/ e = EMsg) c _ s e
    (all_derived c false _ (kept_names_0 _ (or_introl eq_refl) (or_intror eq_refl) c) dflt t)).
Qed.
Theorem C86_errors : forall c s e,
  (exists items depth i, run c (item_de c items depth i) s = OErr e) \/ (exists t, run c (std_de c t) s = OErr e) ->
  e = ERead \/ e = EMsg \/ e = ECharSize.
Proof.
  intros c s e [(items & depth & i & H)|(t & H)];
    [exact (names_run _ c _ s e (all_items c true _ (kept_names c) items depth i eq_refl) H)|exact (names_run _ c _ s e (all_std c true _ (kept_names c) t eq_refl) H)].
Qed.
(** Panics of standard library types: only dates inside them, with overflow checks. *)
Theorem C86_panics_std : forall c t s q, wf_cfg c -> 4096 <= heap_limit c -> proper t -> wf_dty (wire t) = true -> bytes_ok s ->
  run c (std_de c t) s = OPanic q -> q = POverflow /\ overflow_checks c = true /\ occurs is_date (wire t) = true.
Proof.
  intros c t s q Hw Hh Hp Hd Hs H. pose proof (std_follows c t Hp s) as F. rewrite H in F. inversion F as [| |p E X| | |]; subst p.
  pose proof (ends_de c (wire t) Hw Hh Hd s Hs) as G. rewrite <- E in G. exact G.
Qed.

Example C86_ex_derived :
  let ex_alike := RStruct Named [([], ("a"%string, RLeaf LBool)); (ex_attr "skip", ("x"%string, RLeaf LU64)); ([], ("c"%string, RLeaf LString))] in
  run c64 (rde c64 (fun _ => VU 0) ex_alike) [1; 2; 97; 98; 5] = OOk (VSeq [VBool true; VU 0; VB [97; 98]]) [5] /\
  run c64 (rde c64 (fun _ => VU 0) ex_alike) [1; 2; 97] = OErr ERead /\
  exec c64 (rde c64 (fun _ => VU 0) ex_alike) [EvData [1]; EvInterrupted; EvData [2; 97]; EvError] = EErr ERead.
Proof. vm_compute. auto. Qed.
(** 2^40 elements, or a CString of as many bytes, are declared. *)
Example C86_ex_requests :
  let huge := [255; 0; 0; 0; 0; 0; 1; 0; 0] in
  requests c64 (std_de c64 (TVec (TPlain DU8))) (huge ++ [1; 2]) = [1; 8; 1; 1; 1] /\
  requests c64 (std_de c64 TCString) (huge ++ [1; 2]) = [1; 8; 4096; 4096].
Proof. vm_compute. auto. Qed.
Example C86_ex_recursive :
  let tree := [XStruct ["name"; "children"]%string [("name", Rec.XPlain DString); ("children", XVec (XItem 0))]%string] in
  let leaf x := SStruct [("name", SStr [x]); ("children", SSeq (Some 0) [])]%string in
  run c64 (item_de c64 tree 2 0) [0; 2; 1; 97; 0; 1; 98; 0; 5] =
    OOk (SStruct [("name", SStr []); ("children", SSeq (Some 2) [leaf 97; leaf 98])]%string) [5] /\
  run c64 (item_de c64 tree 2 0) [0; 2; 1; 97; 0; 1] = OErr ERead /\
  exec c64 (item_de c64 tree 2 0) [EvData [0; 2; 1]; EvData [97; 0; 1]; EvError; EvData [98; 0]] = EErr ERead.
Proof. vm_compute. auto. Qed.
Example C86_ex_delivers : delivers [EvData [0; 2; 1]; EvData [97; 0; 1]; EvError; EvData [98; 0]] [0; 2; 1; 97; 0; 1].
Proof. apply (D_data 0 [2; 1] _ [97; 0; 1]), (D_data 97 [0; 1] _ []), D_fault. Qed.
Example C86_ex_errors :
  run c64 (std_de c64 (TNonZero DU8)) [0] = OErr EMsg /\ run c64 (std_de c64 (TVec (TPlain DChar))) [1; 0] = OErr ECharSize /\
  run c64 (rde c64 (fun _ => VU 0) (RLeaf LExtDate)) [0; 251; 1; 7] = OErr EMsg /\
  run c64 (rde c64 (fun _ => VU 0) (RLeaf LBool)) [2] = OErr ERead.
Proof. vm_compute. auto. Qed.
Example C86_ex_panic :
  proper (TOption (TPlain DDate)) /\ wf_dty (wire (TOption (TPlain DDate))) = true /\
  run c64 (std_de c64 (TOption (TPlain DDate))) [1; 240; 254; 255; 255; 255; 0] = OPanic POverflow.
Proof. split; [exact I|]. split; vm_compute; reflexivity. Qed.

Print Assumptions C86_requests_derived.
Print Assumptions C86_requests_recursive.
Print Assumptions C86_requests_std.
Print Assumptions C86_bytes_derived.
Print Assumptions C86_bytes_recursive.
Print Assumptions C86_bytes_std.
Print Assumptions C86_fault_is_end.
Print Assumptions C86_torn.
Print Assumptions C86_errors_derived.
Print Assumptions C86_errors.
Print Assumptions C86_panics_std.
