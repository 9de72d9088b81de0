(** * Dotted decimal notation, with the standard library's decimal numerals. *)
From Coq Require Import List NArith String Ascii DecimalString DecimalN.
Import ListNotations.

Definition text_bytes (s : string) : list N := map N_of_ascii (list_ascii_of_string s).
Definition decimal (n : N) : string := NilEmpty.string_of_uint (N.to_uint n).
Definition dotted (ns : list N) : list N := text_bytes (String.concat "." (map decimal ns)).
