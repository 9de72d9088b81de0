(** * Memory asked for while reading headers, with their boxes (dlhn/src/header/de.rs). *)
From Verif Require Import Base Varint Header.

(** header/de.rs:16-19, 38-41, 58-61: the inner header is read, then moved to a box of its own;
    size_of::<Header>() is not zero. *)
Definition hboxed (c : cfg) (mk : header -> header) (p : prog header) : prog header :=
  h <- p ;; Alloc (size_of_header c) (Ret (mk h)).

(** header/de.rs:9-78 deserialize_header, as [hde] with the boxes. The vectors of tuples and enums
    have their full size from the start (de.rs:42-49, 62-69) and do not grow. *)
Fixpoint ghde (c : cfg) (depth : nat) : prog header :=
  match depth with
  | O => Crash PStack
  | S d =>
    let inner_vec (mk : list header -> header) :=
      size <- dec_u16 EIo ;;
      Alloc (size * size_of_header c) (pmap mk (repeatN size (ghde c d))) in
    ReadExact 1 EIo (fun buf =>
      let code := at_ buf 0 in
      if code =? UNIT_CODE then Ret HUnit
      else if code =? OPTIONAL_CODE then hboxed c HOptional (ghde c d)
      else if code =? BOOLEAN_CODE then Ret HBoolean
      else if code =? UINT8_CODE then Ret HUInt8
      else if code =? UINT16_CODE then Ret HUInt16
      else if code =? UINT32_CODE then Ret HUInt32
      else if code =? UINT64_CODE then Ret HUInt64
      else if code =? INT8_CODE then Ret HInt8
      else if code =? INT16_CODE then Ret HInt16
      else if code =? INT32_CODE then Ret HInt32
      else if code =? INT64_CODE then Ret HInt64
      else if code =? FLOAT32_CODE then Ret HFloat32
      else if code =? FLOAT64_CODE then Ret HFloat64
      else if code =? BIG_UINT_CODE then Ret HBigUInt
      else if code =? BIG_INT_CODE then Ret HBigInt
      else if code =? BIG_DECIMAL_CODE then Ret HBigDecimal
      else if code =? STRING_CODE then Ret HString
      else if code =? BINARY_CODE then Ret HBinary
      else if code =? ARRAY_CODE then hboxed c HArray (ghde c d)
      else if code =? TUPLE_CODE then inner_vec HTuple
      else if code =? MAP_CODE then hboxed c HMap (ghde c d)
      else if code =? ENUM_CODE then inner_vec HEnum
      else if code =? DATE_CODE then Ret HDate
      else if code =? DATETIME_CODE then Ret HDateTime
      else Fail EInvalid)
  end.
