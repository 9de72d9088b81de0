(** * Fields with a second name: examples. *)
From Coq Require Import String.
From Verif Require Import Base Serde Alias.
Local Open Scope list_scope.
Local Open Scope N_scope.
Local Open Scope string_scope.

Definition ex_user : list afield :=
  [AField "id" [] DU16; AField "name" ["title"; "label"] DString; AField "on" [] DBool].
Definition ex_user_val : sval :=
  SStruct [("id", SU16 7); ("name", SStr [104; 105]%N); ("on", SBool true)].
