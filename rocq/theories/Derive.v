(** * Typed headers and the derive macro.

    Models dlhn/src/header/ser.rs:9-253 (trait SerializeHeader and its impls),
    dlhn_derive/src/lib.rs (#[derive(SerializeHeader)]) and, because the bytes a header
    describes are written by it, the code serde_derive generates for #[derive(Serialize)]
    (a dependency, transcribed from its documented behaviour; attributes other than skip,
    skip_serializing and skip_serializing_if are not modelled).
    dlhn_derive/src/prefix_varint.rs is the same text as dlhn/src/prefix_varint.rs: Varint.v. *)
From Coq Require Import String.
From Verif Require Import Base Varint Utf8 Serde Header Big Time.
Local Open Scope list_scope.
Local Open Scope N_scope.

(** ** Attributes as syn presents them *)

(** syn::NestedMeta: a literal, or a meta item with path().get_ident(). *)
Inductive nested := NLit | NMeta (ident : option string).
(** syn::Attribute: path.get_ident(); parse_meta(), [Some l] for Ok(Meta::List(l)). *)
Record attr := Attr { attr_path : option string; attr_list : option (list nested) }.
Definition attrs : Type := list attr.

Definition is_ident (s : string) (o : option string) : bool :=
  match o with Some x => String.eqb x s | None => false end.
(** dlhn_derive/src/lib.rs:190-205 *)
Definition is_skip_field (l : attrs) : bool :=
  existsb (fun a => is_ident "serde" (attr_path a) &&
    match attr_list a with
    | Some ns => existsb (fun n => match n with
        | NMeta i => is_ident "skip" i || is_ident "skip_serializing" i
        | NLit => false end) ns
    | None => false
    end) l.
(** dlhn_derive/src/lib.rs:207-221 *)
Definition has_skip_serializing_if (l : attrs) : bool :=
  existsb (fun a => is_ident "serde" (attr_path a) &&
    match attr_list a with
    | Some ns => existsb (fun n => match n with
        | NMeta i => is_ident "skip_serializing_if" i
        | NLit => false end) ns
    | None => false
    end) l.

(** ** Rust types *)

(** Types without parameters that implement SerializeHeader. [LNum..], [LExt..]: the types of
    num-bigint, bigdecimal and time. *)
Inductive leaf :=
| LUnit | LBool | LU8 | LU16 | LU32 | LU64 | LI8 | LI16 | LI32 | LI64 | LF32 | LF64
| LBigUint | LNumBigUint | LBigInt | LNumBigInt | LBigDecimal | LExtBigDecimal
| LStr | LString | LBytes | LByteBuf | LDate | LExtDate | LDateTime | LExtDateTime.

Inductive style := Named | Unnamed | UnitLike.
(** A struct is its style and its fields (attributes, name, type), an enum its variants
    (attributes, style, fields). Keys of maps are strings. [RItem i]: struct or enum number [i] of
    the program, by name (Box has no impl of SerializeHeader, so recursion passes through Vec or a
    map). *)
Inductive rty : Type :=
| RLeaf (l : leaf)
| ROption (t : rty) | RVec (t : rty) | RBTreeMap (t : rty) | RHashMap (t : rty)
| RTuple (ts : list rty)
| RStruct (k : style) (fs : list (attrs * (string * rty)))
| REnum (vs : list (attrs * (style * list (attrs * (string * rty)))))
| RUnion
| RItem (i : nat).

(** ** SerializeHeader *)

(** header/ser.rs:13-17, 26-165, 174-198: the code each impl writes *)
Definition leaf_code (l : leaf) : N :=
  match l with
  | LUnit => UNIT_CODE | LBool => BOOLEAN_CODE
  | LU8 => UINT8_CODE | LU16 => UINT16_CODE | LU32 => UINT32_CODE | LU64 => UINT64_CODE
  | LI8 => INT8_CODE | LI16 => INT16_CODE | LI32 => INT32_CODE | LI64 => INT64_CODE
  | LF32 => FLOAT32_CODE | LF64 => FLOAT64_CODE
  | LBigUint => BIG_UINT_CODE | LNumBigUint => BIG_UINT_CODE
  | LBigInt => BIG_INT_CODE | LNumBigInt => BIG_INT_CODE
  | LBigDecimal => BIG_DECIMAL_CODE | LExtBigDecimal => BIG_DECIMAL_CODE
  | LStr => STRING_CODE | LString => STRING_CODE
  | LBytes => BINARY_CODE | LByteBuf => BINARY_CODE
  | LDate => DATE_CODE | LExtDate => DATE_CODE
  | LDateTime => DATETIME_CODE | LExtDateTime => DATETIME_CODE
  end.

(** None as soon as one is None: the generated code does not compile. *)
Fixpoint all_some {A} (l : list (option A)) : option (list A) :=
  match l with
  | [] => Some []
  | Some a :: t => option_map (cons a) (all_some t)
  | None :: _ => None
  end.

(** dlhn_derive/src/lib.rs:12-14 *)
Definition D_TUPLE_CODE : N := 21.
Definition D_ENUM_CODE : N := 24.

(** dlhn_derive/src/lib.rs:26-69. A field is its attributes and what its type writes. *)
Definition derive_struct (fs : list (attrs * option wprog)) : option wprog :=
  if existsb (fun f => has_skip_serializing_if (fst f)) fs then None
  else
    let types := map snd (filter (fun f => negb (is_skip_field (fst f))) fs) in
    option_map (fun ws => wseq (wr (D_TUPLE_CODE :: enc_u16 (len_u16 types))) (wconcat ws)) (all_some types).

(** dlhn_derive/src/lib.rs:85-152, 172-175: one non-skipped variant. The attributes of its fields
    are not looked at. *)
Definition derive_variant (fs : list (option wprog)) : option wprog :=
  match fs with
  | [] => Some (wseq (wr []) (wr [UNIT_CODE]))
  | [f] => option_map (wseq (wr [])) f
  | _ => option_map (fun ws => wseq (wr (D_TUPLE_CODE :: enc_u16 (len_u16 fs))) (wconcat ws)) (all_some fs)
  end.
(** dlhn_derive/src/lib.rs:70-183 *)
Definition derive_enum (vs : list (attrs * list (option wprog))) : option wprog :=
  if existsb (fun v => has_skip_serializing_if (fst v)) vs then None
  else
    let outers := map snd (filter (fun v => negb (is_skip_field (fst v))) vs) in
    option_map (fun ws => wseq (wr (D_ENUM_CODE :: enc_u16 (len_u16 outers))) (wconcat ws))
      (all_some (map derive_variant outers)).

(** T::serialize_header, [item] standing for the impls of the items; None: the program does not compile (no impl, or the macro reports an
    error). header/ser.rs:19-24 Option, 167-172 Vec, 200-212 maps, 214-253 tuples of 1 to 16
    members; dlhn_derive/src/lib.rs:184-186 unions. *)
Fixpoint ser_header_in (item : nat -> option wprog) (t : rty) : option wprog :=
  match t with
  | RLeaf l => Some (wr [leaf_code l])
  | ROption t => option_map (wseq (wr [OPTIONAL_CODE])) (ser_header_in item t)
  | RVec t => option_map (wseq (wr [ARRAY_CODE])) (ser_header_in item t)
  | RBTreeMap t => option_map (wseq (wr [MAP_CODE])) (ser_header_in item t)
  | RHashMap t => option_map (wseq (wr [MAP_CODE])) (ser_header_in item t)
  | RTuple ts =>
      if (1 <=? lenN ts) && (lenN ts <=? 16) then
        option_map (fun ws => wseq (wr [TUPLE_CODE]) (wseq (wr (enc_u16 (lenN ts))) (wconcat ws)))
          (all_some (map (ser_header_in item) ts))
      else None
  | RStruct _ fs => derive_struct (map (fun f => (fst f, ser_header_in item (snd (snd f)))) fs)
  | REnum vs =>
      derive_enum (map (fun v => (fst v, map (fun f => ser_header_in item (snd (snd f))) (snd (snd v)))) vs)
  | RUnion => None
  | RItem i => item i
  end.
(** For a type that mentions no item by name. *)
Definition ser_header : rty -> option wprog := ser_header_in (fun _ => None).
(** Item number [i] of a program, on a stack with room for [depth] nested calls of derived impls. *)
Fixpoint item_header (items : list rty) (depth : nat) (i : nat) : option wprog :=
  match depth with
  | O => Some (WPanic PStack)
  | S d => match nth_error items i with
           | Some t => ser_header_in (item_header items d) t
           | None => None
           end
  end.

(** ** Values and #[derive(Serialize)] *)

(** [VU], [VI]: integers of any width, num-bigint numbers; [VB]: strings, byte strings, wrapped
    big integers; [VDec]: bigdecimal's (digits, scale); [VSeq]: elements, members, fields (all of
    them, also skipped ones); [VMap]: entries in iteration order; [VVariant]: position of the
    variant among all variants of the enum, and its fields. *)
Inductive rval : Type :=
| VUnit | VBool (b : bool) | VU (n : N) | VI (z : Z) | VF (bits : N)
| VB (bs : list N) | VBDec (bs : list N) (scale : Z) | VDec (digits scale : Z)
| VDate (year : Z) (ordinal : N) | VDateTime (ts : Z) (ns : N) | VOdt (t : odt)
| VNone | VSome (v : rval)
| VSeq (l : list rval) | VMap (m : list (list N * rval)) | VVariant (i : N) (l : list rval).

(** The calls made for a value of a parameterless type. Numbers of num-bigint and bigdecimal and
    dates of time go through the modules of dlhn::format (#[serde(with)]). *)
Definition leaf_sval (c : cfg) (l : leaf) (v : rval) : option sval :=
  match l, v with
  | LUnit, VUnit => Some SUnit
  | LBool, VBool b => Some (SBool b)
  | LU8, VU n => Some (SU8 n) | LU16, VU n => Some (SU16 n)
  | LU32, VU n => Some (SU32 n) | LU64, VU n => Some (SU64 n)
  | LI8, VI z => Some (SI8 z) | LI16, VI z => Some (SI16 z)
  | LI32, VI z => Some (SI32 z) | LI64, VI z => Some (SI64 z)
  | LF32, VF n => Some (SF32 n) | LF64, VF n => Some (SF64 n)
  | LBigUint, VB bs | LBigInt, VB bs => Some (big_sval bs)
  | LNumBigUint, VU n => Some (fmt_biguint_sval n)
  | LNumBigInt, VI z => Some (fmt_bigint_sval z)
  | LBigDecimal, VBDec bs s => Some (big_decimal_sval bs s)
  | LExtBigDecimal, VDec d s => Some (fmt_bigdecimal_sval c (d, s))
  | LStr, VB bs | LString, VB bs => Some (SStr bs)
  | LBytes, VB bs | LByteBuf, VB bs => Some (SBytes bs)
  | LDate, VDate y o => Some (date_sval c y o)
  | LExtDate, VDate y o => Some (fmt_date_sval c (y, o))
  | LDateTime, VDateTime t n => Some (date_time_sval t n)
  | LExtDateTime, VOdt t => Some (fmt_datetime_sval t)
  | _, _ => None
  end.

(** serde_derive: #[serde(skip)] or #[serde(skip_serializing)] *)
Definition serde_skips (l : attrs) : bool :=
  existsb (fun a => match attr_path a, attr_list a with
    | Some p, Some ns => String.eqb p "serde" &&
        existsb (fun n => match n with NMeta (Some i) => String.eqb i "skip" || String.eqb i "skip_serializing" | _ => false end) ns
    | _, _ => false end) l.
(** serde_derive: #[serde(skip_serializing_if = "..")] *)
Definition serde_skips_if (l : attrs) : bool :=
  existsb (fun a => match attr_path a, attr_list a with
    | Some p, Some ns => String.eqb p "serde" &&
        existsb (fun n => match n with NMeta (Some i) => String.eqb i "skip_serializing_if" | _ => false end) ns
    | _, _ => false end) l.

(** The serialize_field / serialize_element calls for the fields. [omit name v]: what the function
    named by skip_serializing_if answers for field [name]. None: not as many values as fields, or
    a value that is not one of the field's type. *)
Fixpoint ser_fields (omit : string -> rval -> bool)
    (fs : list (attrs * (string * (rval -> option sval)))) (vs : list rval) : option (list (string * sval)) :=
  match fs, vs with
  | [], [] => Some []
  | (a, (n, f)) :: fs', v :: vs' =>
    if serde_skips a || (serde_skips_if a && omit n v) then ser_fields omit fs' vs'
    else match f v, ser_fields omit fs' vs' with
         | Some s, Some l => Some ((n, s) :: l)
         | _, _ => None
         end
  | _, _ => None
  end.

(** derived Serialize of a struct. A one-element tuple struct is a newtype struct; with a skip
    attribute on its field the behaviour depends on the version of serde_derive: None. *)
Definition rser_struct (omit : string -> rval -> bool) (k : style)
    (fs : list (attrs * (string * (rval -> option sval)))) (vs : list rval) : option sval :=
  match k with
  | Named => option_map SStruct (ser_fields omit fs vs)
  | UnitLike => match fs, vs with [], [] => Some SUnitStruct | _, _ => None end
  | Unnamed =>
    match fs with
    | [(a, (_, f))] =>
      if serde_skips a || serde_skips_if a then None
      else match vs with [v] => option_map SNewtypeStruct (f v) | _ => None end
    | _ => option_map (fun l => STupleStruct (map snd l)) (ser_fields omit fs vs)
    end
  end.
(** derived Serialize of one variant, number [i]. A one-field tuple variant is a newtype variant,
    which ignores skip_serializing_if and becomes a unit variant when the field is skipped. *)
Definition rser_variant (omit : string -> rval -> bool) (i : N) (k : style)
    (fs : list (attrs * (string * (rval -> option sval)))) (vs : list rval) : option sval :=
  match k with
  | Named => option_map (SStructVariant i) (ser_fields omit fs vs)
  | UnitLike => match fs, vs with [], [] => Some (SUnitVariant i) | _, _ => None end
  | Unnamed =>
    match fs with
    | [(a, (_, f))] =>
      match vs with
      | [v] => if serde_skips a then Some (SUnitVariant i) else option_map (SNewtypeVariant i) (f v)
      | _ => None
      end
    | _ => option_map (fun l => STupleVariant i (map snd l)) (ser_fields omit fs vs)
    end
  end.

Definition map_some {A B} (f : A -> option B) (l : list A) : option (list B) := all_some (map f l).

(** The calls a value's Serialize impl makes; None: not a value of the type. For a value of a skipped
    variant the impl returns Error::custom("the enum variant .. cannot be serialized"). *)
Fixpoint rser (c : cfg) (omit : string -> rval -> bool) (t : rty) (v : rval) {struct t} : option sval :=
  match t, v with
  | RLeaf l, v => leaf_sval c l v
  | ROption t, VNone => Some SNone
  | ROption t, VSome v => option_map SSome (rser c omit t v)
  | RVec t, VSeq l => option_map (SSeq (Some (lenN l))) (map_some (rser c omit t) l)
  | RBTreeMap t, VMap m | RHashMap t, VMap m =>
      option_map (SMap (Some (lenN m)))
        (map_some (fun kv => option_map (pair (SStr (fst kv))) (rser c omit t (snd kv))) m)
  | RTuple ts, VSeq l =>
      option_map (fun l => STuple (map snd l))
        (ser_fields (fun _ _ => false) (map (fun t => ([], (EmptyString, rser c omit t))) ts) l)
  | RStruct k fs, VSeq l =>
      rser_struct omit k (map (fun f => (fst f, (fst (snd f), rser c omit (snd (snd f))))) fs) l
  | REnum vs, VVariant i l =>
      match pickN (map (fun v => (fst v, (fst (snd v),
                    map (fun f => (fst f, (fst (snd f), rser c omit (snd (snd f))))) (snd (snd v))))) vs) i with
      | Some (a, (k, fs)) => if serde_skips a then Some SError else rser_variant omit i k fs l
      | None => None
      end
  | _, _ => None
  end.
