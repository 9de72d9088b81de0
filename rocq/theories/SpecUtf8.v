(** * Specification of UTF-8, in plain arithmetic. *)
From Coq Require Import List NArith.
Import ListNotations.
Local Open Scope N_scope.

(** Unicode scalar values. *)
Definition scalar (c : N) : Prop := c < 55296 \/ (57344 <= c /\ c < 1114112).

(** Encoding of one scalar value. *)
Definition utf8 (c : N) : list N :=
  if c <? 128 then [c]
  else if c <? 2048 then [192 + c / 64; 128 + c mod 64]
  else if c <? 65536 then [224 + c / 4096; 128 + c / 64 mod 64; 128 + c mod 64]
  else [240 + c / 262144; 128 + c / 4096 mod 64; 128 + c / 64 mod 64; 128 + c mod 64].

(** Well-formed UTF-8: the concatenation of the encodings of some scalar values. *)
Definition wellformed (bs : list N) : Prop :=
  exists cs, Forall scalar cs /\ bs = concat (map utf8 cs).
