(** * Reading derived types.

    What #[derive(Deserialize)] generates for the types of Derive.v, over the Deserializer of
    dlhn/src/de.rs. serde_derive is a dependency (not in /repo), transcribed from its documented
    behaviour; of its attributes only skip and skip_deserializing are modelled. serde(default) on a
    field that is read changes nothing here: dlhn presents every key of FIELDS. *)
From Coq Require Import String.
From Verif Require Import Base Varint Utf8 Serde Header Big Time Derive.
Local Open Scope list_scope.
Local Open Scope N_scope.

(** serde_derive: #[serde(skip)] or #[serde(skip_deserializing)] *)
Definition serde_skips_de (l : attrs) : bool :=
  existsb (fun a => match attr_path a, attr_list a with
    | Some p, Some ns => String.eqb p "serde" &&
        existsb (fun n => match n with NMeta (Some i) => String.eqb i "skip" || String.eqb i "skip_deserializing" | _ => false end) ns
    | _, _ => false end) l.

(** Types without parameters: de.rs:69-287 for the primitives, the Deserialize impls of the wrapper
    types (big_uint.rs, big_int.rs, big_decimal.rs, date.rs, date_time.rs), and the deserialize
    functions of dlhn::format for the types of num-bigint, bigdecimal and time. &str and &[u8] ask
    for deserialize_str and deserialize_bytes: todo!(), de.rs:203-208, 239-244. *)
Definition leaf_de (c : cfg) (l : leaf) : prog rval :=
  match l with
  | LUnit => Ret VUnit
  | LBool => pmap VBool de_bool
  | LU8 => pmap VU de_u8 | LU16 => pmap VU de_u16 | LU32 => pmap VU de_u32 | LU64 => pmap VU de_u64
  | LI8 => pmap VI de_i8 | LI16 => pmap VI de_i16 | LI32 => pmap VI de_i32 | LI64 => pmap VI de_i64
  | LF32 => pmap VF de_f32 | LF64 => pmap VF de_f64
  | LBigUint | LBigInt => pmap VB (de_big c)
  | LNumBigUint => pmap VU (fmt_de_biguint c)
  | LNumBigInt => pmap VI (fmt_de_bigint c)
  | LBigDecimal => pmap (fun p => VBDec (fst p) (snd p)) (de_big_decimal c)
  | LExtBigDecimal => pmap (fun p => VDec (fst p) (snd p)) (fmt_de_bigdecimal c)
  | LStr | LBytes => Crash PTodo
  | LString => pmap VB (de_string c)
  | LByteBuf => pmap VB (de_byte_buf c)
  | LDate => pmap (fun p => VDate (fst p) (snd p)) (de_date c)
  | LExtDate => pmap (fun p => VDate (fst p) (snd p)) (fmt_de_date c)
  | LDateTime => pmap (fun p => VDateTime (fst p) (snd p)) de_date_time
  | LExtDateTime => pmap VOdt fmt_de_datetime
  end.

(** A field: its attributes, its name, Default::default() of its type, what a missing field gives
    (None for an Option, otherwise an error) and the program that reads it. *)
Record dfield := DField { df_attrs : attrs; df_name : string; df_dflt : rval; df_miss : option rval; df_read : prog rval }.

(** visit_seq (tuples, tuple structs and variants; de.rs:319-336, 530-535): the fields in order,
    skipped ones take their default and read nothing. *)
Fixpoint seq_fields (fs : list dfield) : prog (list rval) :=
  match fs with
  | [] => Ret []
  | f :: t =>
    if serde_skips_de (df_attrs f) then l <- seq_fields t ;; Ret (df_dflt f :: l)
    else v <- df_read f ;; l <- seq_fields t ;; Ret (v :: l)
  end.
(** visit_map (named fields; de.rs:346-356, 537-546): FIELDS has the names of the fields that are
    not skipped; at the end every field takes its slot, its default or what a missing one gives. *)
Fixpoint fill_fields (fs : list dfield) (slots : list (option rval)) : prog (list rval) :=
  match fs with
  | [] => Ret []
  | f :: t =>
    if serde_skips_de (df_attrs f) then l <- fill_fields t slots ;; Ret (df_dflt f :: l)
    else match slots with
         | Some v :: s => l <- fill_fields t s ;; Ret (v :: l)
         | None :: s => match df_miss f with Some v => l <- fill_fields t s ;; Ret (v :: l) | None => Fail EMsg end
         | [] => Fail EMsg
         end
  end.
Definition kept (fs : list dfield) : list dfield := filter (fun f => negb (serde_skips_de (df_attrs f))) fs.
Definition map_fields (fs : list dfield) : prog (list rval) :=
  slots <- struct_loop (map df_name (kept fs)) (map (fun f => (df_name f, df_read f)) (kept fs)) (map (fun _ => None) (kept fs)) ;;
  fill_fields fs slots.

(** The members of a struct or of a variant. A one-element tuple struct is a newtype struct
    (de.rs:300-309) and a one-element tuple variant a newtype variant (523-528): its field is read.
    (A skipped field in a one-element tuple struct is not modelled: see rser_struct.) *)
Definition members_de (k : style) (fs : list dfield) : prog (list rval) :=
  match k with Named => map_fields fs | Unnamed => seq_fields fs | UnitLike => Ret [] end.

(** The variants that are not skipped, in order, each with its position among all of them. *)
Fixpoint enum_alts (i : N) (vs : list (attrs * prog (list rval))) : list (prog rval) :=
  match vs with
  | [] => []
  | (a, p) :: t =>
    if serde_skips_de a then enum_alts (i + 1) t else pmap (VVariant i) p :: enum_alts (i + 1) t
  end.

Definition is_option (t : rty) : option rval := match t with ROption _ => Some VNone | _ => None end.

(** T::deserialize. [dflt t]: Default::default() of the type [t]. A HashMap is modelled by its
    entries in order of keys. Unions and named items have no derived impl in this model: EMsg is
    a placeholder that no theorem rests on. *)
Fixpoint rde (c : cfg) (dflt : rty -> rval) (t : rty) {struct t} : prog rval :=
  match t with
  | RLeaf l => leaf_de c l
  | ROption t => pmap (fun o => match o with Some v => VSome v | None => VNone end) (de_option (rde c dflt t))
  | RVec t => pmap VSeq (de_vec c (rde c dflt t))
  | RBTreeMap t | RHashMap t => pmap VMap (de_map c (rde c dflt t))
  | RTuple ts => pmap VSeq (sequence (map (rde c dflt) ts))
  | RStruct k fs =>
      pmap VSeq (members_de k (map (fun f =>
        DField (fst f) (fst (snd f)) (dflt (snd (snd f))) (is_option (snd (snd f))) (rde c dflt (snd (snd f)))) fs))
  | REnum vs =>
      i <- de_u16 ;;
      match pickN (enum_alts 0 (map (fun v => (fst v, members_de (fst (snd v)) (map (fun f =>
        DField (fst f) (fst (snd f)) (dflt (snd (snd f))) (is_option (snd (snd f))) (rde c dflt (snd (snd f)))) (snd (snd v))))) vs)) i with
      | Some p => p
      | None => Fail EMsg
      end
  | RUnion | RItem _ => Fail EMsg
  end.
