(** * Model of dlhn/src/ser.rs and dlhn/src/de.rs.

    A Rust value is represented by the calls its [Serialize] impl makes: a value
    of serde's data model ([sval]). A Rust type is represented by the requests
    its [Deserialize] impl makes ([dty]). *)
From Coq Require Import String.
From Verif Require Import Base Varint Utf8.
Local Open Scope list_scope.
Local Open Scope N_scope.

(** ** serde data model values *)
Inductive sval : Type :=
| SBool (b : bool)
| SI8 (z : Z) | SI16 (z : Z) | SI32 (z : Z) | SI64 (z : Z) | SI128 (z : Z)
| SU8 (n : N) | SU16 (n : N) | SU32 (n : N) | SU64 (n : N) | SU128 (n : N)
| SF32 (bits : N) | SF64 (bits : N)
| SChar (c : N)
| SStr (bs : list N)
| SBytes (bs : list N)
| SNone | SSome (v : sval)
| SUnit | SUnitStruct
| SUnitVariant (i : N)
| SNewtypeStruct (v : sval)
| SNewtypeVariant (i : N) (v : sval)
| SSeq (len : option N) (l : list sval)
| STuple (l : list sval)
| STupleStruct (l : list sval)
| STupleVariant (i : N) (l : list sval)
| SMap (len : option N) (l : list (sval * sval))
| SStruct (l : list (string * sval))
| SStructVariant (i : N) (l : list (string * sval))
| SPanic (p : panic)    (* the Serialize impl panics when control reaches this point *)
| SError.               (* the Serialize impl returns an error of its own, made with Error::custom *)

(** ** ser.rs: Serializer. Each [wr] is one [self.output.write_all(..)] call. *)

(** i8::to_le_bytes (ser.rs:65-69) *)
Definition i8_byte (z : Z) : N := as_u 8 z.

(** ser.rs:101-117 and 71-87 *)
Definition ser_u16 (n : N) : wprog := wr (enc_u16 n).
Definition ser_u32 (n : N) : wprog := wr (enc_u32 n).
Definition ser_u64 (n : N) : wprog := wr (enc_u64 n).
Definition ser_i16 (z : Z) : wprog := wr (enc_u16 (enc_zigzag 16 z)).
Definition ser_i32 (z : Z) : wprog := wr (enc_u32 (enc_zigzag 32 z)).
Definition ser_i64 (z : Z) : wprog := wr (enc_u64 (enc_zigzag 64 z)).

(** ser.rs:141-144 serialize_str (v.len() as u64 is exact on 32- and 64-bit targets) *)
Definition ser_str (bs : list N) : wprog := wseq (ser_u64 (lenN bs)) (wr bs).
(** ser.rs:146-149 serialize_bytes *)
Definition ser_bytes (bs : list N) : wprog := wseq (ser_u64 (lenN bs)) (wr bs).

(** serialize_seq / serialize_map length, ser.rs:205-210, 235-240; usize serializes as u64 *)
Definition ser_len (len : option N) : wprog :=
  match len with Some n => ser_u64 n | None => WDone end.

(** ser.rs:399-575 MapKeySerializer. i128/u128 are not overridden: serde's default
    methods return Error::custom(..). *)
Definition ser_key (k : sval) : wprog :=
  match k with
  | SStr bs => ser_str bs
  | SI128 _ | SU128 _ => WFail SEMsg
  | SPanic p => WPanic p
  | SError => WFail SEMsg
  | _ => WFail SEKey
  end.

Fixpoint ser (v : sval) : wprog :=
  match v with
  | SBool b => wr [if b then 1 else 0]                          (* 57-63 *)
  | SI8 z => wr [i8_byte z]                                     (* 65-69 *)
  | SI16 z => ser_i16 z | SI32 z => ser_i32 z | SI64 z => ser_i64 z  (* 71-87 *)
  | SI128 _ => WFail SEMsg      (* 89-93 commented out: serde default method *)
  | SU8 n => wr [n]                                             (* 95-99 *)
  | SU16 n => ser_u16 n | SU32 n => ser_u32 n | SU64 n => ser_u64 n  (* 101-117 *)
  | SU128 _ => WFail SEMsg      (* 119-123 commented out *)
  | SF32 bits => wr (le_bytes 4 bits)                           (* 125-129 *)
  | SF64 bits => wr (le_bytes 8 bits)                           (* 131-135 *)
  | SChar c => ser_str (char_utf8 c)                            (* 137-139 *)
  | SStr bs => ser_str bs                                       (* 141-144 *)
  | SBytes bs => ser_bytes bs                                   (* 146-149 *)
  | SNone => wr [0]                                             (* 151-153 *)
  | SSome v => wseq (wr [1]) (ser v)                            (* 155-161 *)
  | SUnit => WDone | SUnitStruct => WDone                       (* 163-169 *)
  | SUnitVariant i => ser_u32 i                                 (* 171-178 *)
  | SNewtypeStruct v => ser v                                   (* 180-189 *)
  | SNewtypeVariant i v => wseq (ser_u32 i) (ser v)             (* 191-203 *)
  | SSeq len l => wseq (ser_len len) (wconcat (map ser l))      (* 205-210, 268-283 *)
  | STuple l => wconcat (map ser l)                             (* 212-214, 285-300 *)
  | STupleStruct l => wconcat (map ser l)                       (* 216-222, 302-317 *)
  | STupleVariant i l => wseq (ser_u32 i) (wconcat (map ser l)) (* 224-233, 319-334 *)
  | SMap len l =>                                               (* 235-240, 336-357 *)
      wseq (ser_len len)
        (wconcat (map (fun kv => wseq (ser_key (fst kv)) (ser (snd kv))) l))
  | SStruct l => wconcat (map (fun kv => ser (snd kv)) l)       (* 243-249, 359-377 *)
  | SStructVariant i l =>                                       (* 251-260, 379-397 *)
      wseq (ser_u32 i) (wconcat (map (fun kv => ser (snd kv)) l))
  | SPanic p => WPanic p
  | SError => WFail SEMsg
  end.

(** ** de.rs: Deserializer *)

(** Shapes of the variants of a derived enum. *)
Inductive vkind := KUnit | KNewtype | KTuple | KStruct.

(** Requests made by Deserialize impls.
    [DStr], [DBytes], [DAny], [DIgnored]: deserialize_str, _bytes, _any, _ignored_any.
    [DMap d]: BTreeMap<String, d>.
    [DStruct keys fields]: derived struct; [keys] is the FIELDS constant handed to
    deserialize_struct, [fields] the table the derived visitor matches names against.
    [DEnum]: derived enum; payload type of a tuple/struct variant is DTuple/DStruct.
    [DBigUint].. [DDateTime]: the wrapper types of the crate (their decoders: Big.v, Time.v). *)
Inductive dty : Type :=
| DBool
| DI8 | DI16 | DI32 | DI64 | DI128
| DU8 | DU16 | DU32 | DU64 | DU128
| DIsize | DUsize
| DF32 | DF64
| DChar
| DString | DStr
| DByteBuf | DBytes
| DOption (d : dty)
| DUnit | DUnitStruct
| DNewtypeStruct (d : dty)
| DVec (d : dty)
| DTuple (ds : list dty)
| DTupleStruct (ds : list dty)
| DMap (d : dty)
| DStruct (keys : list string) (fields : list (string * dty))
| DEnum (vs : list (vkind * dty))
| DAny | DIgnored
| DBigUint | DBigInt | DBigDecimal | DDate | DDateTime.

Definition de_byte : prog N := ReadExact 1 ERead (fun b => Ret (at_ b 0)).

(** de.rs:69-80 deserialize_bool *)
Definition de_bool : prog bool :=
  b <- de_byte ;;
  if b =? 0 then Ret false else if b =? 1 then Ret true else Fail ERead.

(** de.rs:82-89 *)
Definition de_i8 : prog Z := pmap (as_i 8) de_byte.
(** de.rs:91-122 *)
Definition de_i16 : prog Z := pmap (dec_zigzag 16) (dec_u16 ERead).
Definition de_i32 : prog Z := pmap (dec_zigzag 32) (dec_u32 ERead).
Definition de_i64 : prog Z := pmap (dec_zigzag 64) (dec_u64 ERead).
(** de.rs:135-142 *)
Definition de_u8 : prog N := de_byte.
(** de.rs:144-163 *)
Definition de_u16 : prog N := dec_u16 ERead.
Definition de_u32 : prog N := dec_u32 ERead.
Definition de_u64 : prog N := dec_u64 ERead.
(** de.rs:172-188; floats are bit patterns *)
Definition de_f32 : prog N := ReadExact 4 ERead (fun b => Ret (of_le b)).
Definition de_f64 : prog N := ReadExact 8 ERead (fun b => Ret (of_le b)).

(** usize::deserialize, isize::deserialize (serde impls): deserialize_u64 / _i64, then
    a range check failing with invalid_value. *)
Definition de_usize (c : cfg) : prog N :=
  n <- de_u64 ;; if n <? 2 ^ usize_bits c then Ret n else Fail EMsg.
Definition de_isize (c : cfg) : prog Z :=
  z <- de_i64 ;; if in_s (usize_bits c) z then Ret z else Fail EMsg.

(** de.rs:215 and 251 *)
Definition STR_MAX : N := 128.
Definition BUF_MAX : N := 4096.

(** de.rs:210-237 deserialize_string *)
Definition de_string (c : cfg) : prog (list N) :=
  len <- dec_u64 ERead ;;
  if len <? STR_MAX then
    ReadExact len ERead (fun b => if utf8_valid b then Ret b else Fail ERead)
  else
    ReadLimit len ERead (fun b =>
      if utf8_valid b then
        if lenN b =? as_usize c len then Ret b else Fail ERead
      else Fail ERead).

(** de.rs:256-262, one iteration of the while loop. State: (result so far, reversed list of
    chunks; result.len(); pos). [inl]: go on, [inr]: left the loop. *)
Definition buf_state : Type := (list (list N) * N * N)%type.
Definition buf_step (c : cfg) (len : N) (st : buf_state + list N) : prog (buf_state + list N) :=
  match st with
  | inr r => Ret (inr r)
  | inl (acc, rlen, pos) =>
    if rlen <? as_usize c len then
      let n := N.min BUF_MAX (len - pos) in
      ReadExact n ERead (fun b => Ret (inl (b :: acc, rlen + n, pos + n)))
    else Ret (inr (concat (rev acc)))
  end.

(** de.rs:246-269 deserialize_byte_buf. [vec![0; 4096]] and [vec![0; len]] request memory.
    The loop runs at most len/4096+2 times (fuel); running out of fuel is a [PStack] crash,
    which PrimFacts proves unreachable. *)
Definition de_byte_buf (c : cfg) : prog (list N) :=
  len <- dec_u64 ERead ;;
  if BUF_MAX <? len then
    Alloc BUF_MAX
      (st <- foldN (len / BUF_MAX + 2) (buf_step c len) (inl ([], 0, 0)) ;;
       match st with inr r => Ret r | inl _ => Crash PStack end)
  else
    Alloc len (ReadExact len ERead (fun b => Ret b)).

(** de.rs:190-201 deserialize_char *)
Definition de_char (c : cfg) : prog N :=
  s <- de_string c ;;
  match next_char s with Some ch => Ret ch | None => Fail ECharSize end.

(** de.rs:271-280 deserialize_option *)
Definition de_option {A} (p : prog A) : prog (option A) :=
  b <- de_bool ;; if (b : bool) then pmap Some p else Ret None.

(** de.rs:311-317 deserialize_seq, 390-418 SeqDeserializer; the visitor is serde's VecVisitor
    (no size_hint, hence no up-front allocation) *)
Definition de_vec {A} (c : cfg) (p : prog A) : prog (list A) :=
  count <- dec_u64 ERead ;; repeatN (as_usize c count) p.

(** BTreeMap<String,_>::insert on a list sorted by key; keys are compared bytewise (str's Ord). *)
Fixpoint bytes_cmp (a b : list N) : comparison :=
  match a, b with
  | [], [] => Eq
  | [], _ => Lt
  | _, [] => Gt
  | x :: a', y :: b' => match N.compare x y with Eq => bytes_cmp a' b' | r => r end
  end.
Fixpoint map_insert {V} (k : list N) (v : V) (m : list (list N * V)) : list (list N * V) :=
  match m with
  | [] => [(k, v)]
  | (k', v') :: t =>
    match bytes_cmp k k' with
    | Lt => (k, v) :: m
    | Eq => (k, v) :: t
    | Gt => (k', v') :: map_insert k v t
    end
  end.

(** de.rs:338-344 deserialize_map, 420-455 MapDeserializer; visitor of BTreeMap<String, V> *)
Definition de_map_n {A} (c : cfg) (n : N) (p : prog A) : prog (list (list N * A)) :=
  foldN n (fun m => k <- de_string c ;; v <- p ;; Ret (map_insert k v m)) [].
Definition de_map {A} (c : cfg) (p : prog A) : prog (list (list N * A)) :=
  count <- dec_u64 ERead ;; de_map_n c (as_usize c count) p.

(** *** Derived structs: de.rs:346-356, 457-492 StructDeserializer + serde_derive's visit_map. *)
Fixpoint find_field {A} (key : string) (fs : list (string * A)) : option (nat * A) :=
  match fs with
  | [] => None
  | (name, a) :: t =>
    if String.eqb key name then Some (O, a)
    else match find_field key t with Some (i, x) => Some (S i, x) | None => None end
  end.
Fixpoint set_slot {A} (i : nat) (a : A) (slots : list (option A)) : list (option A) :=
  match slots, i with
  | [], _ => []
  | _ :: t, O => Some a :: t
  | s :: t, S i' => s :: set_slot i' a t
  end.

(** One pass of the derived loop per key of FIELDS: an unknown name asks for IgnoredAny
    (deserialize_ignored_any is todo!()), a repeated name is duplicate_field. *)
Fixpoint struct_loop {A} (keys : list string) (fs : list (string * prog A))
    (slots : list (option A)) : prog (list (option A)) :=
  match keys with
  | [] => Ret slots
  | key :: t =>
    match find_field key fs with
    | None => Crash PTodo
    | Some (i, p) =>
      match nth_error slots i with
      | Some None => a <- p ;; struct_loop t fs (set_slot i a slots)
      | _ => Fail EMsg
      end
    end
  end.

(** serde's missing_field: None for an Option field, an error otherwise. *)
Fixpoint fill_missing {A} (miss : list (option A)) (slots : list (option A)) : prog (list A) :=
  match miss, slots with
  | m :: ms, s :: ss =>
    match s, m with
    | Some a, _ | None, Some a => l <- fill_missing ms ss ;; Ret (a :: l)
    | None, None => Fail EMsg
    end
  | _, _ => Ret []
  end.

Definition de_struct {A} (keys : list string) (fs : list (string * prog A))
    (miss : list (option A)) : prog (list A) :=
  slots <- struct_loop keys fs (map (fun _ => None) fs) ;; fill_missing miss slots.

(** *** Derived enums: de.rs:358-375, 494-547. The variant identifier asks for
    deserialize_identifier, which is deserialize_u16 (374), and is compared with the
    number of variants by the derived visit_u64. *)
Definition variant_sval (k : vkind) (i : N) (v : sval) : sval :=
  match k, v with
  | KUnit, _ => SUnitVariant i
  | KNewtype, v => SNewtypeVariant i v
  | KTuple, STuple l => STupleVariant i l
  | KStruct, SStruct l => SStructVariant i l
  | _, v => SNewtypeVariant i v
  end.
Definition de_enum (alts : list (N -> prog sval)) : prog sval :=
  i <- de_u16 ;;
  match pickN alts i with Some alt => alt i | None => Fail EMsg end.

(** ** Wrapper types *)

(** big_int.rs:44-71, big_uint.rs:44-71: deserialize_tuple(1), one Vec<u8> *)
Definition de_big (c : cfg) : prog (list N) := de_vec c de_u8.

(** big_decimal.rs:71-92, 94-101: deserialize_tuple(2), Vec<u8>, then i64 unless empty *)
Definition de_big_decimal (c : cfg) : prog (list N * Z) :=
  bs <- de_vec c de_u8 ;;
  match bs with
  | [] => Ret ([], 0%Z)
  | _ => s <- de_i64 ;; Ret (bs, s)
  end.

(** date.rs:8-9 *)
Definition YEAR_OFFSET : Z := 2000.
Definition ORDINAL_OFFSET : N := 1.

(** date.rs:57-80 *)
Definition de_date (c : cfg) : prog (Z * N) :=
  y0 <- de_i32 ;;
  y <- or_overflow (arith_s c 32 (y0 + YEAR_OFFSET)) ;;
  o0 <- de_u16 ;;
  o <- or_overflow (arith_u c 16 (Z.of_N o0 + Z.of_N ORDINAL_OFFSET)) ;;
  Ret (y, o).

(** date_time.rs:5-9, derived Deserialize: FIELDS = ["unix_timestamp", "nanosecond"] *)
Definition de_date_time : prog (Z * N) :=
  t <- de_i64 ;; n <- de_u32 ;; Ret (t, n).

(** Vec<u8>::serialize: a sequence of u8 *)
Definition vec_u8 (bs : list N) : sval := SSeq (Some (lenN bs)) (map SU8 bs).
(** big_int.rs:31-42, big_uint.rs:31-42: serialize_seq(None) *)
Definition big_sval (bs : list N) : sval := SSeq None [vec_u8 bs].
(** big_decimal.rs:44-60 *)
Definition big_decimal_sval (bs : list N) (scale : Z) : sval :=
  match bs with
  | [] => SSeq None [SU8 0]
  | _ => SSeq None [vec_u8 bs; SI64 scale]
  end.
(** date.rs:36-46: self.year - 2000 (i32), self.ordinal - 1 (u16); each subtraction is
    evaluated just before its element is written *)
Definition date_sval (c : cfg) (year : Z) (ordinal : N) : sval :=
  STuple
    [ match arith_s c 32 (year - YEAR_OFFSET) with Some y => SI32 y | None => SPanic POverflow end;
      match arith_u c 16 (Z.of_N ordinal - Z.of_N ORDINAL_OFFSET) with
      | Some o => SU16 o | None => SPanic POverflow end ].
(** date_time.rs:5-9, derived Serialize *)
Definition date_time_sval (t : Z) (n : N) : sval :=
  SStruct [("unix_timestamp"%string, SI64 t); ("nanosecond"%string, SU32 n)].

(** ** deserialize for any type *)
Definition missing (d : dty) : option sval :=
  match d with DOption _ => Some SNone | _ => None end.

Fixpoint de (c : cfg) (d : dty) {struct d} : prog sval :=
  match d with
  | DBool => pmap SBool de_bool
  | DI8 => pmap SI8 de_i8 | DI16 => pmap SI16 de_i16
  | DI32 => pmap SI32 de_i32 | DI64 => pmap SI64 de_i64
  | DI128 | DU128 => Fail EMsg     (* de.rs:124-133, 165-170 commented out: serde default *)
  | DU8 => pmap SU8 de_u8 | DU16 => pmap SU16 de_u16
  | DU32 => pmap SU32 de_u32 | DU64 => pmap SU64 de_u64
  | DIsize => pmap SI64 (de_isize c) | DUsize => pmap SU64 (de_usize c)
  | DF32 => pmap SF32 de_f32 | DF64 => pmap SF64 de_f64
  | DChar => pmap SChar (de_char c)
  | DString => pmap SStr (de_string c)
  | DStr => Crash PTodo            (* de.rs:203-208 *)
  | DByteBuf => pmap SBytes (de_byte_buf c)
  | DBytes => Crash PTodo          (* de.rs:239-244 *)
  | DOption d => pmap (fun o => match o with Some v => SSome v | None => SNone end) (de_option (de c d))
  | DUnit => Ret SUnit             (* de.rs:282-287 *)
  | DUnitStruct => Ret SUnitStruct (* de.rs:289-298 *)
  | DNewtypeStruct d => pmap SNewtypeStruct (de c d)   (* de.rs:300-309 *)
  | DVec d => pmap (fun l => SSeq (Some (lenN l)) l) (de_vec c (de c d))
  | DTuple ds => pmap STuple (sequence (map (de c) ds))              (* de.rs:319-324 *)
  | DTupleStruct ds => pmap STupleStruct (sequence (map (de c) ds))  (* de.rs:326-336 *)
  | DMap d =>
      pmap (fun m => SMap (Some (lenN m)) (map (fun kv => (SStr (fst kv), snd kv)) m))
           (de_map c (de c d))
  | DStruct keys fields =>
      pmap (fun l => SStruct (combine (map fst fields) l))
           (de_struct keys (map (fun nf => (fst nf, de c (snd nf))) fields)
                      (map (fun nf => missing (snd nf)) fields))
  | DEnum vs =>
      de_enum (map (fun v i => pmap (variant_sval (fst v) i) (de c (snd v))) vs)
  | DAny | DIgnored => Crash PTodo (* de.rs:62-67, 377-382 *)
  | DBigUint | DBigInt => pmap big_sval (de_big c)
  | DBigDecimal => pmap (fun p => big_decimal_sval (fst p) (snd p)) (de_big_decimal c)
  | DDate => pmap (fun p => date_sval c (fst p) (snd p)) (de_date c)
  | DDateTime => pmap (fun p => date_time_sval (fst p) (snd p)) de_date_time
  end.

