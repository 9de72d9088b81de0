(** * Specification of the header format: codes and grammar, independent of the serializer and of
    the decoder. *)
From Verif Require Import Base Header SpecVarint.

(** What follows a code: nothing, one header, or a count and that many headers. *)
Inductive hkind : Type :=
| Leaf (h : header)
| Box (f : header -> header)
| Members (f : list header -> header).

(** The assigned codes. 7, 12 (128-bit integers) and 22 (struct) are reserved. *)
Definition code_table : list (N * hkind) :=
  [ (0, Leaf HUnit); (1, Box HOptional); (2, Leaf HBoolean);
    (3, Leaf HUInt8); (4, Leaf HUInt16); (5, Leaf HUInt32); (6, Leaf HUInt64);
    (8, Leaf HInt8); (9, Leaf HInt16); (10, Leaf HInt32); (11, Leaf HInt64);
    (13, Leaf HFloat32); (14, Leaf HFloat64);
    (15, Leaf HBigUInt); (16, Leaf HBigInt); (17, Leaf HBigDecimal);
    (18, Leaf HString); (19, Leaf HBinary);
    (20, Box HArray); (21, Members HTuple); (23, Box HMap); (24, Members HEnum);
    (25, Leaf HDate); (26, Leaf HDateTime) ].

(** [canon]: member counts are written in the shortest form; otherwise any form of a number
    (first byte [p], further bytes [t]) is allowed. *)
Inductive header_wire (canon : bool) : list N -> header -> Prop :=
| hw_leaf b h : In (b, Leaf h) code_table -> header_wire canon [b] h
| hw_box b f u h : In (b, Box f) code_table -> header_wire canon u h -> header_wire canon (b :: u) (f h)
| hw_members b f p t u hs : In (b, Members f) code_table ->
    p < 256 -> bytes_ok t -> length t = varint_extra 2 p -> varint_value 2 p t = lenN hs ->
    (canon = true -> p :: t = varint_bytes 2 (lenN hs)) ->
    headers_wire canon u hs -> header_wire canon (b :: (p :: t) ++ u) (f hs)
with headers_wire (canon : bool) : list N -> list header -> Prop :=
| hws_nil : headers_wire canon [] []
| hws_cons u h v hs : header_wire canon u h -> headers_wire canon v hs ->
    headers_wire canon (u ++ v) (h :: hs).

(** Every tuple and enum has at most 65535 members. *)
Fixpoint counts_fit (h : header) : bool :=
  match h with
  | HOptional h | HArray h | HMap h => counts_fit h
  | HTuple hs | HEnum hs => (lenN hs <? 2 ^ 16) && forallb counts_fit hs
  | _ => true
  end.

(** n times Optional. *)
Fixpoint nested (n : nat) : header := match n with O => HUnit | S n => HOptional (nested n) end.

(** A vector of 65535 headers can be allocated. *)
Definition room (c : cfg) : Prop :=
  65535 * size_of_header c <= heap_limit c /\ 65535 * size_of_header c <= isize_max c.
