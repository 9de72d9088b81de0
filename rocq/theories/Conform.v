(** * The unit tests of /repo replayed in the model.

    Checks of the transcription only, not proofs of properties: each Example carries over the
    assertions of the named test function. Bytes that a test computes with the crate's own
    encoders are given literally where the test fixes them, otherwise computed by the model. *)
From Coq Require Import String Ascii.
From Verif Require Import Base Varint Utf8 Serde Big Time Header Body Derive ExSerde.
Local Open Scope list_scope.
Local Open Scope N_scope.

Definition out (w : wprog) : list N * wend := (wbytes w, wresult w).
(** "test".as_bytes() for an ASCII string *)
Fixpoint ascii (s : string) : list N :=
  match s with EmptyString => [] | String a s => N_of_ascii a :: ascii s end.
(** v is written and read back *)
Definition back (d : dty) (v : sval) : Prop :=
  wresult (ser v) = WeOk /\ run c64 (de c64 d) (wbytes (ser v)) = OOk v [].
Ltac go :=
  intros;
  repeat match goal with
  | |- _ /\ _ => split
  | |- Forall _ nil => apply Forall_nil
  | |- Forall _ (_ :: _) => apply Forall_cons
  | |- Forall _ ?l => let l' := eval hnf in l in change l with l'
  | |- back _ _ => split
  | |- (let _ := _ in _) => cbv zeta
  | |- match _ with Some _ => _ | None => False end => vm_compute; split
  end; vm_compute; reflexivity.

(** ** prefix_varint.rs *)
Definition pow_run (from n : nat) : list N := map (fun k => 2 ^ N.of_nat k) (seq from n).
(** encode_u8, encode_u16, encode_u32, encode_u64: number of bytes of 1 << k, and of the largest
    value of each size *)
Example encode_u8 : map lenN (map enc_u8 (0 :: pow_run 0 7 ++ [127; 128; 255])) = repeat 1 9 ++ [2; 2].
Proof. go. Qed.
Example encode_u16 :
  map lenN (map enc_u16 (0 :: pow_run 0 7 ++ [127] ++ pow_run 7 7 ++ [16383] ++ pow_run 14 2 ++ [65535])) =
  repeat 1 9 ++ repeat 2 8 ++ repeat 3 3.
Proof. go. Qed.
Example encode_u32 :
  map lenN (map enc_u32 (0 :: pow_run 0 7 ++ [127] ++ pow_run 7 7 ++ [2 ^ 14 - 1] ++ pow_run 14 7 ++ [2 ^ 21 - 1] ++
    pow_run 21 7 ++ [2 ^ 28 - 1] ++ pow_run 28 4 ++ [2 ^ 32 - 1])) =
  repeat 1 9 ++ repeat 2 8 ++ repeat 3 8 ++ repeat 4 8 ++ repeat 5 5.
Proof. go. Qed.
Example encode_u64 :
  map lenN (map enc_u64 (0 :: pow_run 0 7 ++ [127] ++ pow_run 7 7 ++ [2 ^ 14 - 1] ++ pow_run 14 7 ++ [2 ^ 21 - 1] ++
    pow_run 21 7 ++ [2 ^ 28 - 1] ++ pow_run 28 7 ++ [2 ^ 35 - 1] ++ pow_run 35 7 ++ [2 ^ 42 - 1] ++
    pow_run 42 7 ++ [2 ^ 49 - 1] ++ pow_run 49 7 ++ [2 ^ 56 - 1] ++ pow_run 56 8 ++ [2 ^ 64 - 1])) =
  repeat 1 9 ++ repeat 2 8 ++ repeat 3 8 ++ repeat 4 8 ++ repeat 5 8 ++ repeat 6 8 ++ repeat 7 8 ++ repeat 8 8 ++ repeat 9 9.
Proof. go. Qed.
(** decode_u8 .. decode_u64, issue_2. The tests read from the whole buffer, zero-filled to its
    fixed size. *)
Definition padded (size : nat) (bs : list N) : list N := bs ++ repeat 0 (size - length bs).
Definition reads {A} (p : prog A) (s : list N) : option A := match run c64 p s with OOk a _ => Some a | _ => None end.
Example decode_u8 : map (fun v => reads (dec_u8 EIo) (padded 2 (enc_u8 v))) [0; 127; 128; 255] = map Some [0; 127; 128; 255].
Proof. go. Qed.
Example decode_u16 :
  let vs := [0; 127; 128; 16383; 16384; 65535] ++ pow_run 0 16 in
  map (fun v => reads (dec_u16 EIo) (padded 3 (enc_u16 v))) vs = map Some vs.
Proof. go. Qed.
Example decode_u32 :
  let vs := [0; 127; 128; 16383; 16384; 2 ^ 21 - 1; 2 ^ 21; 2 ^ 28 - 1; 2 ^ 28; 2 ^ 32 - 1] ++ pow_run 0 32 in
  map (fun v => reads (dec_u32 EIo) (padded 5 (enc_u32 v))) vs = map Some vs.
Proof. go. Qed.
Example decode_u64 :
  let vs := [0; 127; 128; 16383; 16384; 2 ^ 21 - 1; 2 ^ 21; 2 ^ 28 - 1; 2 ^ 28; 2 ^ 35 - 1; 2 ^ 35; 2 ^ 42 - 1; 2 ^ 42;
             2 ^ 49 - 1; 2 ^ 49; 2 ^ 56 - 1; 2 ^ 56; 2 ^ 64 - 1; 37486878914941] ++ pow_run 0 64 in
  map (fun v => reads (dec_u64 EIo) (padded 9 (enc_u64 v))) vs = map Some vs.
Proof. go. Qed.

(** ** ser.rs *)
Example serialize_bool : out (ser (SBool true)) = ([1], WeOk) /\ out (ser (SBool false)) = ([0], WeOk).
Proof. go. Qed.
Example serialize_i8 : map (fun z => out (ser (SI8 z))) [-128; 0; 127]%Z = [([128], WeOk); ([0], WeOk); ([127], WeOk)].
Proof. go. Qed.
Example serialize_i16 : map (fun z => wbytes (ser (SI16 z))) [-32768; 0; 32767]%Z = [enc_u16 65535; [0]; enc_u16 65534].
Proof. go. Qed.
Example serialize_i32 : map (fun z => wbytes (ser (SI32 z))) [- 2 ^ 31; 0; 2 ^ 31 - 1]%Z = [enc_u32 (2 ^ 32 - 1); [0]; enc_u32 (2 ^ 32 - 2)].
Proof. go. Qed.
Example serialize_i64 : map (fun z => wbytes (ser (SI64 z))) [- 2 ^ 63; 0; 2 ^ 63 - 1]%Z = [enc_u64 (2 ^ 64 - 1); [0]; enc_u64 (2 ^ 64 - 2)].
Proof. go. Qed.
Example serialize_unsigned :
  map (fun n => wbytes (ser (SU8 n))) [0; 255] = [[0]; [255]] /\
  map (fun n => wbytes (ser (SU16 n))) [0; 65535] = map enc_u16 [0; 65535] /\
  map (fun n => wbytes (ser (SU32 n))) [0; 2 ^ 32 - 1] = map enc_u32 [0; 2 ^ 32 - 1] /\
  map (fun n => wbytes (ser (SU64 n))) [0; 2 ^ 64 - 1] = map enc_u64 [0; 2 ^ 64 - 1].
Proof. go. Qed.
(** serialize_f32: 0, 1.1, -1.1, +-infinity, +-NaN; serialize_f64: 1.1, -infinity *)
Example serialize_f32 :
  map (fun n => out (ser (SF32 n))) [0; 0x3F8CCCCD; 0xBF8CCCCD; 0x7F800000; 0xFF800000; 0x7FC00000; 0xFFC00000] =
  map (fun bs => (bs, WeOk)) [[0; 0; 0; 0]; [205; 204; 140; 63]; [205; 204; 140; 191]; [0; 0; 128; 127]; [0; 0; 128; 255]; [0; 0; 192; 127]; [0; 0; 192; 255]].
Proof. go. Qed.
Example serialize_f64 :
  map (fun n => out (ser (SF64 n))) [0; 0x3FF199999999999A; 0xFFF0000000000000] =
  map (fun bs => (bs, WeOk)) [repeat 0 8; [154; 153; 153; 153; 153; 153; 241; 63]; [0; 0; 0; 0; 0; 0; 240; 255]].
Proof. go. Qed.
Example serialize_char : out (ser (SChar 97)) = ([1; 97], WeOk) /\ out (ser (SChar 0x3042)) = ([3; 0xE3; 0x81; 0x82], WeOk).
Proof. go. Qed.
Example serialize_str : out (ser (SStr [])) = ([0], WeOk) /\ out (ser (SStr (ascii "test"))) = (4 :: ascii "test", WeOk).
Proof. go. Qed.
Example serialize_option : out (ser SNone) = ([0], WeOk) /\ out (ser (SSome (SU8 123))) = ([1; 123], WeOk).
Proof. go. Qed.
Example serialize_units :
  out (ser SUnit) = ([], WeOk) /\ out (ser SUnitStruct) = ([], WeOk) /\ out (ser (SUnitVariant 0)) = ([0], WeOk).
Proof. go. Qed.
Definition test_struct : sval := SStruct [("c"%string, SStr (ascii "test")); ("a"%string, SBool true); ("b"%string, SU8 123)].
Example serialize_newtype_struct :
  out (ser (SNewtypeStruct test_struct)) = ([4] ++ ascii "test" ++ [1; 123], WeOk) /\
  out (ser (SStruct [("c"%string, SStr (ascii "test")); ("a"%string, SBool true); ("b"%string, SNewtypeStruct (SU8 123))])) =
    ([4] ++ ascii "test" ++ [1; 123], WeOk).
Proof. go. Qed.
Example serialize_newtype_variant : out (ser (SNewtypeVariant 1 (SStr (ascii "test")))) = ([1; 4] ++ ascii "test", WeOk).
Proof. go. Qed.
Example serialize_seq :
  out (ser (SSeq (Some 0) [])) = ([0], WeOk) /\ out (ser (SSeq (Some 1) [SU8 123])) = ([1; 123], WeOk) /\
  out (ser (SSeq (Some 128) (repeat (SU8 1) 128))) = (enc_u64 128 ++ repeat 1 128, WeOk) /\
  out (ser (SSeq (Some 3) [SBool true; SBool false; SBool true])) = ([3; 1; 0; 1], WeOk).
Proof. go. Qed.
Example serialize_tuple :
  let l := [SBool true; SU8 123; SStr (ascii "test")] in
  out (ser (STuple l)) = ([1; 123; 4] ++ ascii "test", WeOk) /\ out (ser (STupleStruct l)) = ([1; 123; 4] ++ ascii "test", WeOk) /\
  out (ser (STupleVariant 1 l)) = ([1; 1; 123; 4] ++ ascii "test", WeOk).
Proof. go. Qed.
Example serialize_struct :
  out (ser test_struct) = ([4] ++ ascii "test" ++ [1; 123], WeOk) /\
  out (ser (SStructVariant 1 [("a"%string, SBool true); ("b"%string, SU8 123); ("c"%string, SStr (ascii "test"))])) =
    ([1; 1; 123; 4] ++ ascii "test", WeOk).
Proof. go. Qed.
Example serialize_map :
  out (ser (SMap (Some 3) [(SStr [97], SU8 0); (SStr [98], SU8 123); (SStr [99], SU8 255)])) = ([3; 1; 97; 0; 1; 98; 123; 1; 99; 255], WeOk) /\
  wresult (ser (SMap (Some 3) [(SI32 1, SU8 0); (SI32 2, SU8 123); (SI32 3, SU8 255)])) = WeErr SEKey.
Proof. go. Qed.
Example serialize_bytes : out (ser (SBytes [0; 1; 2; 3; 255])) = ([5; 0; 1; 2; 3; 255], WeOk).
Proof. go. Qed.

(** ** de.rs: every test writes a value and reads it back *)
Example deserialize_numbers :
  Forall (fun b => back DBool (SBool b)) [true; false] /\
  Forall (fun z => back DI8 (SI8 z)) [-128; 0; 127]%Z /\ Forall (fun z => back DI16 (SI16 z)) [-32768; 0; 32767]%Z /\
  Forall (fun z => back DI32 (SI32 z)) [- 2 ^ 31; 0; 2 ^ 31 - 1]%Z /\ Forall (fun z => back DI64 (SI64 z)) [- 2 ^ 63; 0; 2 ^ 63 - 1]%Z /\
  Forall (fun n => back DU8 (SU8 n)) [0; 255] /\ Forall (fun n => back DU16 (SU16 n)) [0; 65535] /\
  Forall (fun n => back DU32 (SU32 n)) [0; 2 ^ 32 - 1] /\ Forall (fun n => back DU64 (SU64 n)) [0; 2 ^ 64 - 1] /\
  Forall (fun n => back DF32 (SF32 n)) [0xFF800000; 0xFF7FFFFF; 0; 0x7F7FFFFF; 0x7F800000] /\
  Forall (fun n => back DF64 (SF64 n)) [0xFFF0000000000000; 0xFFEFFFFFFFFFFFFF; 0; 0x7FEFFFFFFFFFFFFF; 0x7FF0000000000000].
Proof. go. Qed.
Example deserialize_char : back DChar (SChar 97) /\ back DChar (SChar 0x3042).
Proof. go. Qed.
Example deserialize_string : back DString (SStr (ascii "test")).
Proof. go. Qed.
Example deserialize_string129_issue : back DString (SStr (repeat 32 129)).
Proof. go. Qed.
Example deserialize_byte_buf :
  back DByteBuf (SBytes (concat (repeat [0; 1; 2; 3; 255] 1000))) /\ back DByteBuf (SBytes (repeat 0 (N.to_nat 4097))).
Proof. go. Qed.
Example deserialize_option : back (DOption DU8) SNone /\ back (DOption DU8) (SSome (SU8 255)).
Proof. go. Qed.
Example deserialize_units : back DUnit SUnit /\ back DUnitStruct SUnitStruct.
Proof. go. Qed.
Definition test_dty : dty := DStruct ["c"; "a"; "b"]%string [("c"%string, DString); ("a"%string, DBool); ("b"%string, DU8)].
Example deserialize_struct :
  back test_dty test_struct /\ back (DNewtypeStruct test_dty) (SNewtypeStruct test_struct) /\
  back (DStruct ["c"; "a"; "b"]%string [("c"%string, DString); ("a"%string, DNewtypeStruct DU8); ("b"%string, DBool)])
    (SStruct [("c"%string, SStr (ascii "test")); ("a"%string, SNewtypeStruct (SU8 123)); ("b"%string, SBool true)]).
Proof. go. Qed.
Example deserialize_seq :
  back (DVec DBool) (SSeq (Some 0) []) /\ back (DVec DBool) (SSeq (Some 3) [SBool true; SBool false; SBool true]) /\
  back (DVec DU8) (SSeq (Some 5) [SU8 0; SU8 1; SU8 2; SU8 3; SU8 255]) /\ back (DVec DChar) (SSeq (Some 3) [SChar 97; SChar 98; SChar 99]).
Proof. go. Qed.
Example deserialize_tuple :
  back (DTuple [DBool; DU8; DChar]) (STuple [SBool true; SU8 123; SChar 97]) /\
  back (DTupleStruct [DBool; DU8; DChar]) (STupleStruct [SBool true; SU8 123; SChar 97]).
Proof. go. Qed.
(** Written from a BTreeMap, and from a HashMap that visits "b" first. *)
Example deserialize_map :
  let m := SMap (Some 4) [(SStr [49], SBool false); (SStr [97], SBool true); (SStr [98], SBool false); (SStr [99], SBool true)] in
  let hm := SMap (Some 4) [(SStr [98], SBool false); (SStr [97], SBool true); (SStr [49], SBool false); (SStr [99], SBool true)] in
  back (DMap DBool) m /\ run c64 (de c64 (DMap DBool)) (wbytes (ser hm)) = OOk m [].
Proof. go. Qed.
Example deserialize_enum :
  let fs := [("a"%string, DBool); ("b"%string, DU8); ("c"%string, DString)] in
  let d := DEnum [(KUnit, DUnit); (KNewtype, DString); (KTuple, DTuple [DBool; DU8; DString]); (KStruct, DStruct ["a"; "b"; "c"]%string fs)] in
  let l := [SBool true; SU8 123; SStr (ascii "test")] in
  back d (SUnitVariant 0) /\ back d (SNewtypeVariant 1 (SStr (ascii "test"))) /\ back d (STupleVariant 2 l) /\
  back d (SStructVariant 3 (combine ["a"; "b"; "c"]%string l)).
Proof. go. Qed.

(** ** big_uint.rs, big_int.rs, big_decimal.rs and format/ *)
Definition u_cases : list (N * list N) :=
  [(0, [0]); (255, [1; 255]); (2 ^ 16 - 1, [2; 255; 255]); (2 ^ 16, [3; 0; 0; 1]); (2 ^ 32 - 1, 4 :: repeat 255 4);
   (2 ^ 32, [5; 0; 0; 0; 0; 1]); (2 ^ 64 - 1, 8 :: repeat 255 8); (2 ^ 64, 9 :: repeat 0 8 ++ [1]);
   (2 ^ 128 - 1, 16 :: repeat 255 16); (2 ^ 128, 17 :: repeat 0 16 ++ [1])].
Example big_uint_from_into : biguint_from 123 = [123] /\ biguint_into (biguint_from 123) = 123.
Proof. go. Qed.
Example big_uint_tests :
  Forall (fun x => out (ser (big_sval (biguint_from (fst x)))) = (snd x, WeOk) /\ out (ser (fmt_biguint_sval (fst x))) = (snd x, WeOk) /\
    run c64 (de c64 DBigUint) (snd x) = OOk (big_sval (biguint_from (fst x))) [] /\ run c64 (fmt_de_biguint c64) (snd x) = OOk (fst x) []) u_cases.
Proof. go. Qed.
Definition i_cases : list (Z * list N) :=
  [(0%Z, [0]); ((-128)%Z, [1; 128]); (127%Z, [1; 127]); ((-129)%Z, [2; 127; 255]); (128%Z, [2; 128; 0]);
   ((- 2 ^ 15)%Z, [2; 0; 128]); ((2 ^ 15 - 1)%Z, [2; 255; 127]); ((- 2 ^ 15 - 1)%Z, [3; 255; 127; 255]); ((2 ^ 15)%Z, [3; 0; 128; 0]);
   ((- 2 ^ 31)%Z, [4; 0; 0; 0; 128]); ((2 ^ 31 - 1)%Z, [4; 255; 255; 255; 127]); ((- 2 ^ 31 - 1)%Z, [5; 255; 255; 255; 127; 255]);
   ((2 ^ 31)%Z, [5; 0; 0; 0; 128; 0]); ((- 2 ^ 63)%Z, 8 :: repeat 0 7 ++ [128]); ((2 ^ 63 - 1)%Z, 8 :: repeat 255 7 ++ [127]);
   ((- 2 ^ 63 - 1)%Z, 9 :: repeat 255 7 ++ [127; 255]); ((2 ^ 63)%Z, 9 :: repeat 0 7 ++ [128; 0]);
   ((- 2 ^ 127)%Z, 16 :: repeat 0 15 ++ [128]); ((2 ^ 127 - 1)%Z, 16 :: repeat 255 15 ++ [127]);
   ((- 2 ^ 127 - 1)%Z, 17 :: repeat 255 15 ++ [127; 255]); ((2 ^ 127)%Z, 17 :: repeat 0 15 ++ [128; 0])].
Example big_int_from_into : bigint_from 123 = [123] /\ bigint_into (bigint_from (-123)) = (-123)%Z.
Proof. go. Qed.
Example big_int_tests :
  Forall (fun x => out (ser (big_sval (bigint_from (fst x)))) = (snd x, WeOk) /\ out (ser (fmt_bigint_sval (fst x))) = (snd x, WeOk) /\
    run c64 (de c64 DBigInt) (snd x) = OOk (big_sval (bigint_from (fst x))) [] /\ run c64 (fmt_de_bigint c64) (snd x) = OOk (fst x) []) i_cases.
Proof. go. Qed.
(** (digits, scale), bytes, what format::big_decimal reads back *)
Definition d_cases : list ((Z * Z) * list N * (Z * Z)) :=
  [((0, 0)%Z, [0], (0, 0)%Z); ((1, 0)%Z, [1; 1; 0], (1, 0)%Z); ((1, -1)%Z, [1; 1; 1], (1, -1)%Z); ((1, 1)%Z, [1; 1; 2], (1, 1)%Z); ((10, 0)%Z, [1; 1; 1], (1, -1)%Z);
   ((1, 63)%Z, [1; 1; 126], (1, 63)%Z); ((1, 64)%Z, [1; 1; 128; 2], (1, 64)%Z); ((1, -64)%Z, [1; 1; 127], (1, -64)%Z); ((1, -65)%Z, [1; 1; 129; 2], (1, -65)%Z);
   ((-32768, 0)%Z, [2; 0; 128; 0], (-32768, 0)%Z); ((32767, 0)%Z, [2; 255; 127; 0], (32767, 0)%Z)].
Example big_decimal_from : bigdecimal_from c64 (123, 0)%Z = Some ([123], 0%Z).
Proof. go. Qed.
Example big_decimal_tests :
  Forall (fun x => let '(v, bs, r) := x in
    match bigdecimal_from c64 v with
    | Some (m, s) => out (ser (big_decimal_sval m s)) = (bs, WeOk) /\ run c64 (de c64 DBigDecimal) bs = OOk (big_decimal_sval m s) []
    | None => False
    end /\ out (ser (fmt_bigdecimal_sval c64 v)) = (bs, WeOk) /\ run c64 (fmt_de_bigdecimal c64) bs = OOk r []) d_cases.
Proof. go. Qed.

(** ** date.rs, date_time.rs and format/ *)
Definition t_cases : list (Z * N * list N) :=
  [(2000%Z, 1, [0; 0]); (1936%Z, 1, [127; 0]); (1935%Z, 1, enc_u32 129 ++ [0]); (2063%Z, 128, [126; 127]); (2064%Z, 129, enc_u32 128 ++ enc_u16 128);
   (2000%Z, 366, 0 :: enc_u16 365); (1970%Z, 11, [59; 10])].
Example date_tests :
  Forall (fun x => let '(y, o, bs) := x in
    out (ser (date_sval c64 y o)) = (bs, WeOk) /\ out (ser (fmt_date_sval c64 (y, o))) = (bs, WeOk) /\
    run c64 (de_date c64) bs = OOk (y, o) [] /\ run c64 (fmt_de_date c64) bs = OOk (y, o) [] /\ date_try_into (date_from (y, o)) = Some (y, o)) t_cases.
Proof. go. Qed.
(** Seconds and nanoseconds of: epoch; + 1 ns; + 999999999 ns; + 10^9 ns; -+ 100000 days;
    - 100000 days - 999999999 ns; + 100000 days + 1 ns. *)
Definition dt_cases : list (Z * N) :=
  [((0)%Z, 0); ((0)%Z, 1); ((0)%Z, 999999999); ((1)%Z, 0); ((-8640000000)%Z, 0); ((8640000000)%Z, 0); ((-8640000001)%Z, 1); ((8640000000)%Z, 1)].
Example date_time_tests :
  Forall (fun x => let '(t, n) := x in let o := Odt t n 0 in let bs := enc_u64 (enc_zigzag 64 t) ++ enc_u32 n in
    datetime_from o = (t, n) /\ datetime_try_into (t, n) = COk o /\
    out (ser (date_time_sval t n)) = (bs, WeOk) /\ out (ser (fmt_datetime_sval o)) = (bs, WeOk) /\
    run c64 de_date_time bs = OOk (t, n) [] /\ run c64 fmt_de_datetime bs = OOk o []) dt_cases.
Proof. go. Qed.

(** ** header/ser.rs, header/de.rs *)
Definition theader (t : rty) : option (list N * wend) := option_map out (ser_header t).
Definition h_cases : list (rty * list N * header) :=
  map (fun x => let '(l, b, h) := x in (RLeaf l, [b], h))
    [(LUnit, 0, HUnit); (LBool, 2, HBoolean); (LU8, 3, HUInt8); (LU16, 4, HUInt16); (LU32, 5, HUInt32); (LU64, 6, HUInt64);
     (LI8, 8, HInt8); (LI16, 9, HInt16); (LI32, 10, HInt32); (LI64, 11, HInt64); (LF32, 13, HFloat32); (LF64, 14, HFloat64);
     (LBigUint, 15, HBigUInt); (LNumBigUint, 15, HBigUInt); (LBigInt, 16, HBigInt); (LNumBigInt, 16, HBigInt);
     (LBigDecimal, 17, HBigDecimal); (LExtBigDecimal, 17, HBigDecimal); (LStr, 18, HString); (LString, 18, HString);
     (LBytes, 19, HBinary); (LByteBuf, 19, HBinary); (LDate, 25, HDate); (LExtDate, 25, HDate); (LDateTime, 26, HDateTime); (LExtDateTime, 26, HDateTime)] ++
  [(ROption (RLeaf LUnit), [1; 0], HOptional HUnit); (ROption (RLeaf LBool), [1; 2], HOptional HBoolean); (RVec (RLeaf LBool), [20; 2], HArray HBoolean); (RVec (RLeaf LUnit), [20; 0], HArray HUnit);
   (RTuple [RLeaf LUnit; ROption (RLeaf LUnit); RLeaf LBool; RLeaf LU8], [21; 4; 0; 1; 0; 2; 3], HTuple [HUnit; HOptional HUnit; HBoolean; HUInt8]);
   (RTuple [RLeaf LUnit; RLeaf LBool; RLeaf LU8], [21; 3; 0; 2; 3], HTuple [HUnit; HBoolean; HUInt8]);
   (RBTreeMap (RLeaf LBool), [23; 2], HMap HBoolean); (RHashMap (RLeaf LBool), [23; 2], HMap HBoolean)].
Definition ch : cfg := Cfg true 64 32 32 (2 ^ 40).
Example header_tests :
  Forall (fun x => let '(t, bs, h) := x in
    theader t = Some (bs, WeOk) /\ out (hser h) = (bs, WeOk) /\ run ch (hde ch 10) bs = OOk h []) h_cases.
Proof. go. Qed.
Example header_serialize_enum : out (hser (HEnum [HBoolean; HUInt8; HTuple [HBoolean; HUInt8]])) = ([24; 3; 2; 3; 21; 2; 2; 3], WeOk).
Proof. go. Qed.

(** ** tests/derive.rs *)
Definition serde_attr (i : string) : attrs := [Attr (Some "serde"%string) (Some [NMeta (Some i)])].
Definition tstruct (b : attrs) : rty :=
  RStruct Named [([], ("a"%string, RLeaf LBool)); (b, ("b"%string, RLeaf LU8)); ([], ("c"%string, ROption (RLeaf LU32)))].
Definition tenum (cattrs : attrs) (d : style) : rty :=
  REnum [([], (Unnamed, [([], ("0"%string, RLeaf LBool))])); ([], (UnitLike, [])); (cattrs, (Unnamed, [([], ("0"%string, RLeaf LU32))]));
         ([], (d, [([], ("a"%string, RLeaf LBool)); ([], ("b"%string, RLeaf LU8)); ([], ("c"%string, RLeaf LU32))]))].
Example derive_serialize_header :
  theader (tstruct []) = Some ([21; 3; 2; 3; 1; 5], WeOk) /\
  theader (tenum [] Unnamed) = Some ([24; 4; 2; 0; 5; 21; 3; 2; 3; 5], WeOk) /\ theader (tenum [] Named) = Some ([24; 4; 2; 0; 5; 21; 3; 2; 3; 5], WeOk).
Proof. go. Qed.
Example derive_serialize_header_with_skip :
  Forall (fun a => theader (tstruct (serde_attr a)) = Some ([21; 2; 2; 1; 5], WeOk) /\
    theader (tenum (serde_attr a) Unnamed) = Some ([24; 3; 2; 0; 21; 3; 2; 3; 5], WeOk)) ["skip"; "skip_serializing"]%string.
Proof. go. Qed.
Example derive_deserialize_header :
  option_map (fun w => run ch (hde ch 10) (wbytes w)) (ser_header (tenum [] Unnamed)) =
  Some (OOk (HEnum [HBoolean; HUnit; HUInt32; HTuple [HBoolean; HUInt8; HUInt32]]) []).
Proof. go. Qed.

(** ** tests/stream.rs *)
Example stream_tests :
  let bs := wbytes (wseq (ser test_struct) (ser test_struct)) in
  bs = [4] ++ ascii "test" ++ [1; 123; 4] ++ ascii "test" ++ [1; 123] /\
  run c64 (x <- de c64 test_dty ;; y <- de c64 test_dty ;; Ret (x, y)) bs = OOk (test_struct, test_struct) [] /\
  match run c64 (_ <- de c64 test_dty ;; _ <- de c64 test_dty ;; de c64 test_dty) bs with OErr _ => True | _ => False end.
Proof. cbv zeta. split; [go|]. split; [go|]. vm_compute. exact I. Qed.

(** ** body/mod.rs *)
Definition b_cases : list (header * body * sval) :=
  [(HUnit, BUnit, SUnit); (HOptional HBoolean, BOptional (Some (BBoolean true)), SSome (SBool true)); (HOptional HBoolean, BOptional None, SNone)] ++
  map (fun b => (HBoolean, BBoolean b, SBool b)) [true; false] ++
  map (fun n => (HUInt8, BUInt8 n, SU8 n)) [0; 255] ++ map (fun n => (HUInt16, BUInt16 n, SU16 n)) [0; 65535] ++
  map (fun n => (HUInt32, BUInt32 n, SU32 n)) [0; 2 ^ 32 - 1] ++ map (fun n => (HUInt64, BUInt64 n, SU64 n)) [0; 2 ^ 64 - 1] ++
  map (fun z => (HInt8, BInt8 z, SI8 z)) [-128; 0; 127]%Z ++ map (fun z => (HInt16, BInt16 z, SI16 z)) [-32768; 0; 32767]%Z ++
  map (fun z => (HInt32, BInt32 z, SI32 z)) [- 2 ^ 31; 0; 2 ^ 31 - 1]%Z ++ map (fun z => (HInt64, BInt64 z, SI64 z)) [- 2 ^ 63; 0; 2 ^ 63 - 1]%Z ++
  map (fun n => (HFloat32, BFloat32 n, SF32 n)) [0; 0x3F8CCCCD; 0xBF8CCCCD; 0x7F800000; 0xFF800000; 0x7FC00000; 0xFFC00000] ++
  map (fun n => (HFloat64, BFloat64 n, SF64 n)) [0; 0x3FF199999999999A; 0xFFF0000000000000] ++
  map (fun x => (HBigUInt, BBigUInt (biguint_from (fst x)), big_sval (biguint_from (fst x)))) u_cases ++
  map (fun x => (HBigInt, BBigInt (bigint_from (fst x)), big_sval (bigint_from (fst x)))) i_cases ++
  [(HBigDecimal, BBigDecimal [123] 0, big_decimal_sval [123] 0); (HBigDecimal, BBigDecimal [] 0, big_decimal_sval [] 0)] ++
  map (fun s => (HString, BString s, SStr s)) [ascii "test"; [0xE3; 0x83; 0x86; 0xE3; 0x82; 0xB9; 0xE3; 0x83; 0x88]] ++
  [(HBinary, BBinary [0; 1; 2; 3], SBytes [0; 1; 2; 3]);
   (HArray HBoolean, BArray [BBoolean true; BBoolean false; BBoolean true], SSeq (Some 3) [SBool true; SBool false; SBool true]);
   (HTuple [HUnit; HBoolean], BTuple [BUnit; BBoolean false], STuple [SUnit; SBool false]);
   (HTuple [HBoolean; HUInt8; HString], BTuple [BBoolean true; BUInt8 123; BString (ascii "test")], STuple [SBool true; SU8 123; SStr (ascii "test")]);
   (HMap HBoolean, BMap [([97], BBoolean true); ([98], BBoolean false); ([99], BBoolean true)],
      SMap (Some 3) [(SStr [97], SBool true); (SStr [98], SBool false); (SStr [99], SBool true)]);
   (HEnum [HBoolean; HUInt8], BEnum 1 (BUInt8 123), SNewtypeVariant 1 (SU8 123));
   (HEnum [HUnit; HBoolean; HTuple [HBoolean; HUInt8]], BEnum 2 (BTuple [BBoolean true; BUInt8 123]), STupleVariant 2 [SBool true; SU8 123]);
   (HDate, BDate 1970 1, date_sval c64 1970 1); (HDateTime, BDateTime 0 0, date_time_sval 0 0)].
Example body_tests :
  Forall (fun x => let '(h, b, v) := x in
    out (bser c64 b) = out (ser v) /\ wresult (ser v) = WeOk /\ run c64 (bde c64 h) (wbytes (ser v)) = OOk b [] /\ validate h b = true /\
    validate h (match h with HUnit => BBoolean true | _ => BUnit end) = false) b_cases.
Proof. unfold b_cases. go. Qed.
Example validate_tests :
  validate (HOptional HBoolean) (BOptional (Some BUnit)) = false /\ validate (HArray HBoolean) (BArray [BUnit]) = false /\
  validate (HTuple [HBoolean; HUInt8]) (BTuple [BBoolean true; BUInt8 123]) = true /\
  validate (HTuple [HBoolean; HUInt8]) (BTuple [BBoolean true; BBoolean true]) = false /\
  validate (HTuple [HBoolean; HUInt8]) (BTuple [BBoolean true; BUInt8 123; BUInt8 123]) = false /\
  validate (HMap HBoolean) (BMap [([97], BUnit); ([98], BUnit); ([99], BUnit)]) = false /\
  validate (HMap HBoolean) (BMap [([97], BBoolean true); ([98], BUnit); ([99], BUnit)]) = false /\
  validate (HEnum [HUnit; HBoolean]) (BEnum 0 BUnit) = true /\ validate (HEnum [HUnit; HBoolean]) (BEnum 1 (BBoolean true)) = true /\
  validate (HEnum [HUnit; HBoolean]) (BEnum 0 (BBoolean true)) = false /\ validate (HEnum [HUnit; HBoolean]) (BEnum 1 BUnit) = false.
Proof. go. Qed.

(** ** README.md *)
Definition readme_dty : dty := DStruct ["a"; "b"; "c"]%string [("a"%string, DBool); ("b"%string, DU8); ("c"%string, DString)].
Definition readme_val : sval := SStruct [("a"%string, SBool true); ("b"%string, SU8 123); ("c"%string, SStr (ascii "test"))].
Example readme_body : back readme_dty readme_val.
Proof. go. Qed.
Example readme_header :
  let t := RStruct Named [([], ("a"%string, RLeaf LBool)); ([], ("b"%string, RLeaf LU8)); ([], ("c"%string, RLeaf LString))] in
  theader t = Some ([21; 3; 2; 3; 18], WeOk) /\ run ch (hde ch 10) [21; 3; 2; 3; 18] = OOk (HTuple [HBoolean; HUInt8; HString]) [].
Proof. go. Qed.
Example readme_stream : out (wseq (ser (SBool true)) (ser (SBool false))) = ([1; 0], WeOk) /\
  run c64 (x <- de c64 DBool ;; y <- de c64 DBool ;; Ret (x, y)) [1; 0] = OOk (SBool true, SBool false) [] /\
  run c64 (_ <- de c64 DBool ;; _ <- de c64 DBool ;; de c64 DBool) [1; 0] = OErr ERead.
Proof. go. Qed.
