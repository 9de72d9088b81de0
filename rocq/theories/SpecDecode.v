(** * Specification of decoding a varint from a byte string. *)
From Verif Require Import Base Serde SpecVarint.

(** What the decoder must do: first byte p announces [varint_extra m p] further bytes. *)
Definition varint_decode (m : nat) (wrap : N -> sval) (s : list N) : outcome sval :=
  match s with
  | [] => OErr ERead
  | p :: t =>
    let k := varint_extra m p in
    if (length t <? k)%nat then OErr ERead
    else OOk (wrap (varint_value m p (firstn k t))) (skipn k t)
  end.
