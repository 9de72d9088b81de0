(** * C88: structs whose fields have aliases. *)
From Coq Require Import String.
From Verif Require Import Base BaseFacts Serde Typing SpecReads Alias SpecAlias AliasFacts ExSerde ExAlias.
Local Open Scope list_scope.
Local Open Scope N_scope.

(** ** C88 *)
(** If the generated code announces the names of the fields only, aliases have no effect: names are not
    in the input, and the struct is read as the one without them. *)
Theorem C88_names_only : forall c fs s, NoDup (flat_map names_of fs) ->
  run c (alias_de c false fs) s = run c (de c (without_aliases fs)) s.
Proof. exact alias_names_only. Qed.
(** If it announces the aliases as well, the fields are read up to the first one with an alias, and
    then its second name is refused as a repeated field: whatever the input, nothing is ever read. *)
Theorem C88_all_names : forall c fs1 f fs2 s a,
  NoDup (flat_map names_of (fs1 ++ f :: fs2)) -> Forall (fun g => af_aliases g = []) fs1 -> In a (af_aliases f) ->
  run c (alias_de c true (fs1 ++ f :: fs2)) s = then_refused (run c (de c (DTuple (map af_ty (fs1 ++ [f])))) s).
Proof. exact alias_twice. Qed.
Theorem C88_never_read : forall c fs s v r, NoDup (flat_map names_of fs) -> (exists f, In f fs /\ af_aliases f <> []) ->
  run c (alias_de c true fs) s <> OOk v r.
Proof. exact alias_never. Qed.
(** In particular every value of the type is written without an error and refused with a message when
    it is read back. *)
Theorem C88_written_refused : forall c fs v rest, wf_cfg c -> 4096 <= heap_limit c ->
  wf_dty (without_aliases fs) = true -> has_ty c (without_aliases fs) v = true ->
  NoDup (flat_map names_of fs) -> (exists f, In f fs /\ af_aliases f <> []) ->
  wresult (ser v) = WeOk /\ run c (alias_de c true fs) (wbytes (ser v) ++ rest) = OErr EMsg.
Proof. exact alias_lost. Qed.
(** Structs without an alias are read alike by both. *)
Theorem C88_without : forall c fs s, NoDup (map af_name fs) -> Forall (fun f => af_aliases f = []) fs ->
  run c (alias_de c true fs) s = run c (de c (without_aliases fs)) s.
Proof. exact alias_unused. Qed.

(** struct { id: u16, #[serde(alias = "label", alias = "title")] name: String, on: bool } *)
Example C88_ex_user :
  NoDup (flat_map names_of ex_user) /\ wf_dty (without_aliases ex_user) = true /\ has_ty c64 (without_aliases ex_user) ex_user_val = true /\
  wbytes (ser ex_user_val) = [7; 2; 104; 105; 1] /\
  run c64 (alias_de c64 false ex_user) [7; 2; 104; 105; 1; 9] = OOk ex_user_val [9] /\
  run c64 (alias_de c64 true ex_user) [7; 2; 104; 105; 1; 9] = OErr EMsg /\
  run c64 (alias_de c64 true ex_user) [7; 2; 104] = OErr ERead /\
  flat_map (announced true) ex_user = ["id"; "label"; "name"; "title"; "on"]%string.
Proof.
  split; [|repeat split; vm_compute; reflexivity].
  cbn [flat_map names_of ex_user af_name af_aliases app]. repeat constructor; cbn [In]; intuition discriminate.
Qed.
Example C88_ex_refused : exists f, In f ex_user /\ af_aliases f <> [].
Proof. exists (AField "name" ["title"; "label"]%string DString). split; [right; left; reflexivity|discriminate]. Qed.

Print Assumptions C88_names_only.
Print Assumptions C88_all_names.
Print Assumptions C88_never_read.
Print Assumptions C88_written_refused.
Print Assumptions C88_without.
