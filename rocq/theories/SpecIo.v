(** * What a reader delivers and what a writer may do, independently of who reads or writes. *)
From Coq Require Import List NArith.
From Verif Require Import Base Io.
Import ListNotations.

(** The reader delivers the bytes [s], in non-empty chunks with any interruptions in between,
    and then ends or fails. *)
Inductive delivers : list ev -> list N -> Prop :=
| D_end : delivers [] []
| D_fault t : delivers (EvError :: t) []
| D_interrupted t s : delivers t s -> delivers (EvInterrupted :: t) s
| D_data b ch t s : delivers t s -> delivers (EvData (b :: ch) :: t) ((b :: ch) ++ s).

(** It never fails. *)
Definition sound_reader (evs : list ev) : Prop := ~ In EvError evs.
(** The writer never fails (it may accept few bytes at a time and be interrupted). *)
Definition sound_writer (evs : list wev) : Prop := ~ In WvError evs /\ ~ In WvZero evs.

(** Decoding from the reader ends like decoding from a byte slice, leaving the same bytes unread. *)
Definition same {A} (o : outcome A) (x : eoutcome A) : Prop :=
  match o with
  | OOk a r => exists evs', x = EOk a evs' /\ delivers evs' r
  | OErr e => x = EErr e
  | OPanic q => x = EPanic q
  end.
