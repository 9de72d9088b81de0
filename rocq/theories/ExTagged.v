(** * Write-only types and values used by the Examples. *)
From Coq Require Import String.
From Verif Require Import Base Serde Tagged SpecTagged.
Local Open Scope list_scope.
Local Open Scope N_scope.

(** struct { id: u16, notes: Vec<(bool, Option<Note>)>, by: BTreeMap<String, Note> }, where Note is
    untagged *)
Definition ex_tag : gty :=
  YStruct [("id"%string, YPlain DU16); ("notes"%string, YVec (YTuple [YPlain DBool; YOption YUntagged]));
           ("by"%string, YMap YUntagged)].
Definition ex_tag_clean : gval :=
  GRecord [("id"%string, GPlain (SU16 300)); ("notes"%string, GSeq [GTuple [GPlain (SBool true); GNone]]); ("by"%string, GDict [])].
Definition ex_tag_dirty : gval :=
  GRecord [("id"%string, GPlain (SU16 300));
           ("notes"%string, GSeq [GTuple [GPlain (SBool true); GNone]; GTuple [GPlain (SBool false); GSome (GUntagged (GPlain (SU8 7)))]]);
           ("by"%string, GDict [])].
(** #[serde(tag = "kind")] enum { On { at: u16 } } *)
Definition ex_tag_on : gval := GTag "kind"%string "On"%string (GRecord [("at"%string, GPlain (SU16 9))]).
