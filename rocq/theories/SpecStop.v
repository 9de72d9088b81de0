(** * Calls of a reader up to the last byte of a value. *)
From Coq Require Import List NArith.
From Verif Require Import Base Io.
Import ListNotations.

(** These calls deliver exactly the bytes [s], in non-empty chunks with any interruptions before
    them; the last call delivers the last byte. *)
Inductive delivered : list ev -> list N -> Prop :=
| dl_nothing : delivered [] []
| dl_interrupted t x s : delivered t (x :: s) -> delivered (EvInterrupted :: t) (x :: s)
| dl_data b ch t s : delivered t s -> delivered (EvData (b :: ch) :: t) ((b :: ch) ++ s).
