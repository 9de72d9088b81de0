(** * Builds with and without overflow checks: C83. *)
From Coq Require Import String.
From Verif Require Import Base Serde Header Body Big Time Derive DeriveDe Io BuildFacts.
Local Open Scope list_scope.
Local Open Scope N_scope.

(** ** C83 *)
(** Reading any type, whatever the reader does: the build with overflow checks panics with an
    overflow, or both builds end in the same way (value, error or panic) with the same input left. *)
Theorem C83_read : forall u sb sh hl d evs,
  let on := Cfg true u sb sh hl in let off := Cfg false u sb sh hl in
  exec on (de on d) evs = EPanic POverflow \/ exec on (de on d) evs = exec off (de off d) evs.
Proof. intros u sb sh hl d evs on off. apply (until_exec on off); [reflexivity|apply de_builds]. Qed.
Theorem C83_body_read : forall u sb sh hl h evs,
  let on := Cfg true u sb sh hl in let off := Cfg false u sb sh hl in
  exec on (bde on h) evs = EPanic POverflow \/ exec on (bde on h) evs = exec off (bde off h) evs.
Proof. intros u sb sh hl h evs on off. apply (until_exec on off); [reflexivity|apply bde_builds]. Qed.
(** Derived types, and the format modules for foreign numbers and dates. *)
Theorem C83_derived_read : forall u sb sh hl dflt t evs,
  let on := Cfg true u sb sh hl in let off := Cfg false u sb sh hl in
  exec on (rde on dflt t) evs = EPanic POverflow \/ exec on (rde on dflt t) evs = exec off (rde off dflt t) evs.
Proof. intros u sb sh hl dflt t evs on off. apply (until_exec on off); [reflexivity|apply rde_builds]. Qed.
(** Headers: no difference at all. *)
Theorem C83_header_read : forall u sb sh hl depth evs,
  let on := Cfg true u sb sh hl in let off := Cfg false u sb sh hl in
  exec on (hde on depth) evs = exec off (hde off depth) evs.
Proof. exact header_builds. Qed.
(** Writing, whatever the writer does: the build with overflow checks panics with an overflow after
    a first part of what the other build gets through, or both do the same. *)
Theorem C83_body_written : forall u sb sh hl b evs,
  let on := wexec (bser (Cfg true u sb sh hl) b) evs in let off := wexec (bser (Cfg false u sb sh hl) b) evs in
  (snd on = WePanic POverflow /\ exists more, fst off = fst on ++ more) \/ on = off.
Proof. intros u sb sh hl b evs on off. apply wuntil_exec, bser_builds. Qed.
Theorem C83_derived_written : forall u sb sh hl omit t v,
  match rser (Cfg true u sb sh hl) omit t v, rser (Cfg false u sb sh hl) omit t v with
  | Some s, Some s' => forall evs,
      (snd (wexec (ser s) evs) = WePanic POverflow /\ exists more, fst (wexec (ser s') evs) = fst (wexec (ser s) evs) ++ more) \/
      wexec (ser s) evs = wexec (ser s') evs
  | None, None => True
  | _, _ => False
  end.
Proof. exact derived_builds. Qed.

(** An array of dates. The second one lies outside the range of i32 (2147483647 + 2000): the checked
    build panics, the other one wraps around. With the first alone, or with too few bytes, no difference. *)
Example C83_ex :
  let on := Cfg true 64 1 1 4096 in let off := Cfg false 64 1 1 4096 in
  let s2 := [EvData [2; 44; 100; 254; 254; 255; 255; 255; 7]] in
  exec on (bde on (HArray HDate)) s2 = EPanic POverflow /\
  exec off (bde off (HArray HDate)) s2 = EOk (BArray [BDate 2022 101; BDate (-2147481649) 8]) [] /\
  (forall c, c = on \/ c = off -> exec c (bde c (HArray HDate)) [EvData [1; 44; 100]] = EOk (BArray [BDate 2022 101]) []) /\
  (forall c, c = on \/ c = off -> exec c (bde c (HArray HDate)) [EvData [1; 44]] = EErr ERead).
Proof. repeat split; try (vm_compute; reflexivity); intros c [->| ->]; vm_compute; reflexivity. Qed.
Example C83_ex_written :
  let b := BTuple [BBoolean true; BDate 2022 0; BBoolean false] in
  wexec (bser (Cfg true 64 1 1 4096) b) [] = ([1; 44], WePanic POverflow) /\
  wexec (bser (Cfg false 64 1 1 4096) b) [] = ([1; 44; 192; 255; 255; 0], WeOk) /\
  wexec (bser (Cfg true 64 1 1 4096) b) [WvError] = ([], WeErr SEWrite) /\
  wexec (bser (Cfg false 64 1 1 4096) b) [WvError] = ([], WeErr SEWrite).
Proof. vm_compute. repeat split. Qed.
(** A decimal whose normalized scale leaves the range of i64: 100 with scale -2^63. *)
Example C83_ex_derived :
  let t := RStruct Named [([], ("n"%string, RLeaf LU8)); ([], ("d"%string, RLeaf LExtBigDecimal))] in
  let v := VSeq [VU 7; VDec 100 (-9223372036854775808)] in
  let out (on : bool) := option_map (fun s => wexec (ser s) []) (rser (Cfg on 64 1 1 4096) (fun _ _ => false) t v) in
  out true = Some ([7], WePanic POverflow) /\
  out false = Some ([7; 1; 1; 255; 252; 255; 255; 255; 255; 255; 255; 255], WeOk).
Proof. vm_compute. split; reflexivity. Qed.

Print Assumptions C83_read.
Print Assumptions C83_body_read.
Print Assumptions C83_derived_read.
Print Assumptions C83_header_read.
Print Assumptions C83_body_written.
Print Assumptions C83_derived_written.
