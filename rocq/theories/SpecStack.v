(** * Nesting depth of headers and bodies: length of the longest chain of parts. *)
From Verif Require Import Base Header Body.

Fixpoint header_levels (h : header) : nat :=
  match h with
  | HOptional h | HArray h | HMap h => 1 + header_levels h
  | HTuple hs | HEnum hs => 1 + fold_right (fun h n => Nat.max (header_levels h) n) O hs
  | _ => 1
  end.
Fixpoint body_levels (b : body) : nat :=
  match b with
  | BOptional (Some b) | BEnum _ b => 1 + body_levels b
  | BArray l | BTuple l => 1 + fold_right (fun b n => Nat.max (body_levels b) n) O l
  | BMap m => 1 + fold_right (fun kv n => Nat.max (body_levels (snd kv)) n) O m
  | _ => 1
  end.
