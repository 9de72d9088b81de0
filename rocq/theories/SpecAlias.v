(** * Fields with a second name: specification. *)
From Coq Require Import String.
From Verif Require Import Base Serde Alias.
Local Open Scope list_scope.

Definition names_of (f : afield) : list string := af_name f :: af_aliases f.
(** The same struct without its aliases. *)
Definition without_aliases (fs : list afield) : dty :=
  DStruct (map af_name fs) (map (fun f => (af_name f, af_ty f)) fs).
(** What reads a field twice: after the first time, an error. *)
Definition then_refused {A B} (o : outcome A) : outcome B :=
  match o with OOk _ _ => OErr EMsg | OErr e => OErr e | OPanic p => OPanic p end.
