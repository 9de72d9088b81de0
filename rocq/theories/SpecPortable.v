(** * Types whose documents mean the same on 32 bit and on 64 bit targets. *)
From Coq Require Import String.
From Verif Require Import Base Serde Header Body.
Local Open Scope list_scope.
Local Open Scope N_scope.

(** Every value of the type takes at least one byte. *)
Fixpoint fills (d : dty) : bool :=
  match d with
  | DUnit | DUnitStruct => false
  | DNewtypeStruct d => fills d
  | DTuple ds | DTupleStruct ds => existsb fills ds
  | DStruct keys fields => existsb (fun f => fills (snd f) && existsb (String.eqb (fst f)) keys)%bool fields
  | _ => true
  end.
(** No usize or isize inside, and no vector of members that may take no bytes. *)
Fixpoint portable (d : dty) : bool :=
  match d with
  | DUsize | DIsize => false
  | DOption d | DNewtypeStruct d | DMap d => portable d
  | DVec d => (portable d && fills d)%bool
  | DTuple ds | DTupleStruct ds => forallb portable ds
  | DStruct _ fields => forallb (fun f => portable (snd f)) fields
  | DEnum vs => forallb (fun kd => portable (snd kd)) vs
  | _ => true
  end.

(** Headers: the same, and the size of the longest tuple. *)
Fixpoint header_fills (h : header) : bool :=
  match h with HUnit => false | HTuple hs => existsb header_fills hs | _ => true end.
Fixpoint header_portable (h : header) : bool :=
  match h with
  | HOptional h | HMap h => header_portable h
  | HArray h => (header_portable h && header_fills h)%bool
  | HTuple hs | HEnum hs => forallb header_portable hs
  | _ => true
  end.
Fixpoint widest (h : header) : N :=
  match h with
  | HOptional h | HMap h | HArray h => widest h
  | HTuple hs => fold_right N.max (lenN hs) (map widest hs)
  | HEnum hs => fold_right N.max 0 (map widest hs)
  | _ => 0
  end.
(** A vector of n bodies fits into memory. *)
Definition fits (c : cfg) (n : N) : Prop :=
  n * size_of_body c < 2 ^ (usize_bits c - 1) /\ n * size_of_body c <= heap_limit c.
