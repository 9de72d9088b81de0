(** * Memory asked for by messages: specification. *)
From Verif Require Import Base Header Body SpecHeap.
Local Open Scope N_scope.

(** A header and a byte for each level of nesting: pairs of a unit and the next level. *)
Fixpoint rows (w : nat) : header := match w with O => HUInt8 | S w => HTuple [HUnit; rows w] end.
Fixpoint row (w : nat) (x : N) : body := match w with O => BUInt8 x | S w => BTuple [BUnit; row w x] end.

(** Bytes asked for, for each byte of a body and each byte of its header. *)
Definition per_pair (c : cfg) (e : N -> N) : N := 14 * size_of_body c + e (size_of_body c) + per_buffer_byte c + 25.
