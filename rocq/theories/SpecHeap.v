(** * Memory granted over a whole run, and bounds computed from the header. *)
From Verif Require Import Base Serde Header Body SpecRequest.

(** The allocations (Vec::with_capacity, vec![0; n]) which the system granted, in order. *)
Definition granted {A} (c : cfg) (p : prog A) (s : list N) : list N :=
  filter (fun n => (n <=? isize_max c) && (n <=? heap_limit c)) (allocs c p s).

(** Memory granted for one byte of a binary: on 32 bit targets a declared length may be truncated
    to zero after the buffer was allocated. *)
Definition per_buffer_byte (c : cfg) : N := if usize_bits c =? 64 then 1 else 4096.

(** What one body takes without reading anything: the vectors of its tuples. *)
Fixpoint fixed_part (c : cfg) (h : header) : N :=
  match h with
  | HOptional h => fixed_part c h
  | HTuple hs => lenN hs * size_of_body c + fold_right (fun h n => fixed_part c h + n) 0 hs
  | HEnum hs => fold_right (fun h n => N.max (fixed_part c h) n) 0 hs
  | _ => 0
  end.
(** What each byte read adds at most. *)
Fixpoint per_byte (c : cfg) (h : header) : N :=
  match h with
  | HOptional h => per_byte c h
  | HBinary => per_buffer_byte c
  | HArray h => size_of_body c + fixed_part c h + per_byte c h
  | HMap h => fixed_part c h + per_byte c h
  | HTuple hs | HEnum hs => fold_right (fun h n => N.max (per_byte c h) n) 0 hs
  | _ => 0
  end.
(** What parts begun but not finished hold: a full request for each array around the failing point. *)
Fixpoint unfinished (c : cfg) (h : header) : N :=
  match h with
  | HOptional h => unfinished c h
  | HBinary => 4096
  | HArray h => heap_limit c + fixed_part c h + unfinished c h
  | HMap h => fixed_part c h + unfinished c h
  | HTuple hs | HEnum hs => fold_right (fun h n => N.max (unfinished c h) n) 0 hs
  | _ => 0
  end.
