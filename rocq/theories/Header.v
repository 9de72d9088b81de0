(** * Model of dlhn/src/header (mod.rs, ser.rs, de.rs). *)
From Verif Require Import Base Varint.

(** header/mod.rs:32-61 *)
Inductive header : Type :=
| HUnit | HOptional (h : header) | HBoolean
| HUInt8 | HUInt16 | HUInt32 | HUInt64
| HInt8 | HInt16 | HInt32 | HInt64
| HFloat32 | HFloat64
| HBigUInt | HBigInt | HBigDecimal
| HString | HBinary
| HArray (h : header)
| HTuple (hs : list header)
| HMap (h : header)
| HEnum (hs : list header)
| HDate | HDateTime.

(** header/mod.rs:4-30 *)
Definition UNIT_CODE := 0.       Definition OPTIONAL_CODE := 1.   Definition BOOLEAN_CODE := 2.
Definition UINT8_CODE := 3.      Definition UINT16_CODE := 4.     Definition UINT32_CODE := 5.
Definition UINT64_CODE := 6.     Definition INT8_CODE := 8.       Definition INT16_CODE := 9.
Definition INT32_CODE := 10.     Definition INT64_CODE := 11.     Definition FLOAT32_CODE := 13.
Definition FLOAT64_CODE := 14.   Definition BIG_UINT_CODE := 15.  Definition BIG_INT_CODE := 16.
Definition BIG_DECIMAL_CODE := 17. Definition STRING_CODE := 18.  Definition BINARY_CODE := 19.
Definition ARRAY_CODE := 20.     Definition TUPLE_CODE := 21.     Definition MAP_CODE := 23.
Definition ENUM_CODE := 24.      Definition DATE_CODE := 25.      Definition DATETIME_CODE := 26.

(** inner.len() as u16 *)
Definition len_u16 {A} (l : list A) : N := lenN l mod 2 ^ 16.

(** header/ser.rs:255-305 Header::serialize, serialize_inner_box, serialize_inner_vec *)
Fixpoint hser (h : header) : wprog :=
  let inner_box code h := wseq (wr [code]) (hser h) in
  let inner_vec code hs :=
    wseq (wr [code]) (wseq (wr (enc_u16 (len_u16 hs))) (wconcat (map hser hs))) in
  match h with
  | HUnit => wr [UNIT_CODE]
  | HOptional h => inner_box OPTIONAL_CODE h
  | HBoolean => wr [BOOLEAN_CODE]
  | HUInt8 => wr [UINT8_CODE] | HUInt16 => wr [UINT16_CODE]
  | HUInt32 => wr [UINT32_CODE] | HUInt64 => wr [UINT64_CODE]
  | HInt8 => wr [INT8_CODE] | HInt16 => wr [INT16_CODE]
  | HInt32 => wr [INT32_CODE] | HInt64 => wr [INT64_CODE]
  | HFloat32 => wr [FLOAT32_CODE] | HFloat64 => wr [FLOAT64_CODE]
  | HBigUInt => wr [BIG_UINT_CODE] | HBigInt => wr [BIG_INT_CODE]
  | HBigDecimal => wr [BIG_DECIMAL_CODE]
  | HString => wr [STRING_CODE] | HBinary => wr [BINARY_CODE]
  | HArray h => inner_box ARRAY_CODE h
  | HTuple hs => inner_vec TUPLE_CODE hs
  | HMap h => inner_box MAP_CODE h
  | HEnum hs => inner_vec ENUM_CODE hs
  | HDate => wr [DATE_CODE] | HDateTime => wr [DATETIME_CODE]
  end.

(** header/de.rs:9-78 deserialize_header. [depth]: number of nested calls the stack can hold;
    exceeding it is a stack overflow. *)
Fixpoint hde (c : cfg) (depth : nat) : prog header :=
  match depth with
  | O => Crash PStack
  | S d =>
    let inner_vec (mk : list header -> header) :=
      size <- dec_u16 EIo ;;
      Alloc (size * size_of_header c) (pmap mk (repeatN size (hde c d))) in
    ReadExact 1 EIo (fun buf =>
      let code := at_ buf 0 in
      if code =? UNIT_CODE then Ret HUnit
      else if code =? OPTIONAL_CODE then pmap HOptional (hde c d)
      else if code =? BOOLEAN_CODE then Ret HBoolean
      else if code =? UINT8_CODE then Ret HUInt8
      else if code =? UINT16_CODE then Ret HUInt16
      else if code =? UINT32_CODE then Ret HUInt32
      else if code =? UINT64_CODE then Ret HUInt64
      else if code =? INT8_CODE then Ret HInt8
      else if code =? INT16_CODE then Ret HInt16
      else if code =? INT32_CODE then Ret HInt32
      else if code =? INT64_CODE then Ret HInt64
      else if code =? FLOAT32_CODE then Ret HFloat32
      else if code =? FLOAT64_CODE then Ret HFloat64
      else if code =? BIG_UINT_CODE then Ret HBigUInt
      else if code =? BIG_INT_CODE then Ret HBigInt
      else if code =? BIG_DECIMAL_CODE then Ret HBigDecimal
      else if code =? STRING_CODE then Ret HString
      else if code =? BINARY_CODE then Ret HBinary
      else if code =? ARRAY_CODE then pmap HArray (hde c d)
      else if code =? TUPLE_CODE then inner_vec HTuple
      else if code =? MAP_CODE then pmap HMap (hde c d)
      else if code =? ENUM_CODE then inner_vec HEnum
      else if code =? DATE_CODE then Ret HDate
      else if code =? DATETIME_CODE then Ret HDateTime
      else Fail EInvalid)
  end.

(** Number of nodes and nesting depth of a header. *)
Fixpoint hsize (h : header) : nat :=
  match h with
  | HOptional h | HArray h | HMap h => S (hsize h)
  | HTuple hs | HEnum hs => S (list_sum (map hsize hs))
  | _ => 1
  end.
Fixpoint hdepth (h : header) : nat :=
  match h with
  | HOptional h | HArray h | HMap h => S (hdepth h)
  | HTuple hs | HEnum hs => S (list_max (map hdepth hs))
  | _ => 1
  end.
