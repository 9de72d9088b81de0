(** * Which byte strings are accepted for a type, and what they mean.

    Independent of the decoders: no reading effects, loops, buffers or limits. *)
From Coq Require Import String Sorted.
From Verif Require Import Base Serde Typing SpecVarint SpecUtf8 SpecMap Header Body SpecBody.
Local Open Scope list_scope.
Local Open Scope N_scope.

(** Types made of anything the data model has, supported or not: the fields of a struct have distinct
    names, and each variant has the contents its kind asks for. *)
Fixpoint shaped (d : dty) : bool :=
  match d with
  | DOption d | DNewtypeStruct d | DVec d | DMap d => shaped d
  | DTuple ds | DTupleStruct ds => forallb shaped ds
  | DStruct keys fields => nodupb (map fst fields) && forallb (fun nf => shaped (snd nf)) fields
  | DEnum vs => forallb (fun kd => payload_shape (fst kd) (snd kd) && shaped (snd kd)) vs
  | _ => true
  end.

(** [code m u n]: u is a varint of u(8m), not necessarily the shortest, of value n. *)
Definition code (m : nat) (u : list N) (n : N) : Prop :=
  exists p t, u = p :: t /\ length t = varint_extra m p /\ n = varint_value m p t.
(** [block u bs]: u is a length followed by that many bytes, bs. *)
Definition block (u bs : list N) : Prop :=
  exists l, u = l ++ bs /\ code 8 l (lenN bs).
(** Two's complement value of one byte. *)
Definition signed8 (b : N) : Z := if b <? 128 then Z.of_N b else (Z.of_N b - 256)%Z.
(** A build with overflow checks accepts only dates whose year and ordinal can be computed. *)
Definition date_range (c : cfg) (y : Z) (o : N) : Prop :=
  overflow_checks c = true -> (y + 2000 < 2 ^ 31)%Z /\ o + 1 < 2 ^ 16.

(** Structs: the field names an impl passes to the Deserializer (keys) are read in that order; a field
    not among them is None if it is an Option. Derived impls pass the names of the fields. *)
Definition field_type (fields : list (string * dty)) (k : string) (d : dty) : Prop := In (k, d) fields.
Definition field_value (read : list (string * sval)) (f : string * dty) (w : sval) : Prop :=
  In (fst f, w) read \/ (~ In (fst f) (map fst read) /\ w = SNone /\ exists d, snd f = DOption d).

(** [accepts c d u v]: the bytes u are a value v of type d. [accepts_all]: one after another.
    [accepts_entries]: string keys, each followed by a value. *)
Inductive accepts (c : cfg) : dty -> list N -> sval -> Prop :=
| ac_bool (b : bool) : accepts c DBool [if b then 1 else 0] (SBool b)
| ac_u8 b : accepts c DU8 [b] (SU8 b)
| ac_u16 u n : code 2 u n -> accepts c DU16 u (SU16 n)
| ac_u32 u n : code 4 u n -> accepts c DU32 u (SU32 n)
| ac_u64 u n : code 8 u n -> accepts c DU64 u (SU64 n)
| ac_usize u n : code 8 u n -> accepts c DUsize u (SU64 n)
| ac_i8 b : accepts c DI8 [b] (SI8 (signed8 b))
| ac_i16 u n : code 2 u n -> accepts c DI16 u (SI16 (unzigzag n))
| ac_i32 u n : code 4 u n -> accepts c DI32 u (SI32 (unzigzag n))
| ac_i64 u n : code 8 u n -> accepts c DI64 u (SI64 (unzigzag n))
| ac_isize u n : code 8 u n -> accepts c DIsize u (SI64 (unzigzag n))
| ac_f32 u : length u = 4%nat -> accepts c DF32 u (SF32 (le_value u))
| ac_f64 u : length u = 8%nat -> accepts c DF64 u (SF64 (le_value u))
| ac_char u ch t : scalar ch -> wellformed t -> block u (utf8 ch ++ t) -> accepts c DChar u (SChar ch)
| ac_string u bs : wellformed bs -> block u bs -> accepts c DString u (SStr bs)
| ac_buf u bs : block u bs -> accepts c DByteBuf u (SBytes bs)
| ac_none d : accepts c (DOption d) [0] SNone
| ac_some d u v : accepts c d u v -> accepts c (DOption d) (1 :: u) (SSome v)
| ac_unit : accepts c DUnit [] SUnit
| ac_unit_struct : accepts c DUnitStruct [] SUnitStruct
| ac_newtype d u v : accepts c d u v -> accepts c (DNewtypeStruct d) u (SNewtypeStruct v)
| ac_vec d l u vs : code 8 l (lenN vs) -> accepts_all c (map (fun _ => d) vs) u vs ->
    accepts c (DVec d) (l ++ u) (SSeq (Some (lenN vs)) vs)
| ac_tuple ds u vs : accepts_all c ds u vs -> accepts c (DTuple ds) u (STuple vs)
| ac_tuple_struct ds u vs : accepts_all c ds u vs -> accepts c (DTupleStruct ds) u (STupleStruct vs)
| ac_map d l u es m : code 8 l (lenN es) -> accepts_entries c d u es ->
    StronglySorted lex_lt (map fst m) -> (forall k, last_binding k m = last_binding k es) ->
    accepts c (DMap d) (l ++ u) (SMap (Some (lenN m)) (entries m))
| ac_struct keys fields ds u vs ws : NoDup keys -> Forall2 (field_type fields) keys ds -> accepts_all c ds u vs ->
    Forall2 (field_value (combine keys vs)) fields ws ->
    accepts c (DStruct keys fields) u (SStruct (combine (map fst fields) ws))
| ac_unit_variant vs l i : code 2 l i -> pickN vs i = Some (KUnit, DUnit) ->
    accepts c (DEnum vs) l (SUnitVariant i)
| ac_newtype_variant vs l i d u v : code 2 l i -> pickN vs i = Some (KNewtype, d) ->
    accepts c d u v -> accepts c (DEnum vs) (l ++ u) (SNewtypeVariant i v)
| ac_tuple_variant vs l i ds u xs : code 2 l i -> pickN vs i = Some (KTuple, DTuple ds) ->
    accepts_all c ds u xs -> accepts c (DEnum vs) (l ++ u) (STupleVariant i xs)
| ac_struct_variant vs l i keys fields u xs : code 2 l i -> pickN vs i = Some (KStruct, DStruct keys fields) ->
    accepts c (DStruct keys fields) u (SStruct xs) -> accepts c (DEnum vs) (l ++ u) (SStructVariant i xs)
| ac_biguint u bs : block u bs -> accepts c DBigUint u (SSeq None [SSeq (Some (lenN bs)) (map SU8 bs)])
| ac_bigint u bs : block u bs -> accepts c DBigInt u (SSeq None [SSeq (Some (lenN bs)) (map SU8 bs)])
| ac_decimal_zero l : code 8 l 0 -> accepts c DBigDecimal l (SSeq None [SU8 0])
| ac_decimal u bs l n : bs <> [] -> block u bs -> code 8 l n ->
    accepts c DBigDecimal (u ++ l) (SSeq None [SSeq (Some (lenN bs)) (map SU8 bs); SI64 (unzigzag n)])
| ac_date l k y o : code 4 l y -> code 2 k o -> date_range c (unzigzag y) o ->
    accepts c DDate (l ++ k) (STuple [SI32 (unzigzag y); SU16 o])
| ac_date_time l k t n : code 8 l t -> code 4 k n ->
    accepts c DDateTime (l ++ k)
      (SStruct [("unix_timestamp"%string, SI64 (unzigzag t)); ("nanosecond"%string, SU32 n)])
with accepts_all (c : cfg) : list dty -> list N -> list sval -> Prop :=
| aa_nil : accepts_all c [] [] []
| aa_cons d ds u w v vs : accepts c d u v -> accepts_all c ds w vs ->
    accepts_all c (d :: ds) (u ++ w) (v :: vs)
with accepts_entries (c : cfg) : dty -> list N -> list (list N * sval) -> Prop :=
| ae_nil d : accepts_entries c d [] []
| ae_cons d x k u v w es : wellformed k -> block x k -> accepts c d u v -> accepts_entries c d w es ->
    accepts_entries c d (x ++ u ++ w) ((k, v) :: es).

(** Year and day of a date: wrapping around at the end of i32 and u16. *)
Definition date_year (y : Z) : Z := if (y + 2000 <? 2 ^ 31)%Z then (y + 2000)%Z else (y + 2000 - 2 ^ 32)%Z.
Definition date_ordinal (o : N) : N := if o + 1 <? 2 ^ 16 then o + 1 else 0.

(** [body_accepts c h u b]: the bytes u are a body b of header h. The vectors of arrays and tuples
    must be allocated in one piece before their members are read. *)
Inductive body_accepts (c : cfg) : header -> list N -> body -> Prop :=
| ba_unit : body_accepts c HUnit [] BUnit
| ba_none h : body_accepts c (HOptional h) [0] (BOptional None)
| ba_some h u b : body_accepts c h u b -> body_accepts c (HOptional h) (1 :: u) (BOptional (Some b))
| ba_bool (b : bool) : body_accepts c HBoolean [if b then 1 else 0] (BBoolean b)
| ba_u8 n : body_accepts c HUInt8 [n] (BUInt8 n)
| ba_u16 u n : code 2 u n -> body_accepts c HUInt16 u (BUInt16 n)
| ba_u32 u n : code 4 u n -> body_accepts c HUInt32 u (BUInt32 n)
| ba_u64 u n : code 8 u n -> body_accepts c HUInt64 u (BUInt64 n)
| ba_i8 n : body_accepts c HInt8 [n] (BInt8 (signed8 n))
| ba_i16 u n : code 2 u n -> body_accepts c HInt16 u (BInt16 (unzigzag n))
| ba_i32 u n : code 4 u n -> body_accepts c HInt32 u (BInt32 (unzigzag n))
| ba_i64 u n : code 8 u n -> body_accepts c HInt64 u (BInt64 (unzigzag n))
| ba_f32 u : length u = 4%nat -> body_accepts c HFloat32 u (BFloat32 (le_value u))
| ba_f64 u : length u = 8%nat -> body_accepts c HFloat64 u (BFloat64 (le_value u))
| ba_biguint u bs : block u bs -> body_accepts c HBigUInt u (BBigUInt bs)
| ba_bigint u bs : block u bs -> body_accepts c HBigInt u (BBigInt bs)
| ba_decimal_zero l : code 8 l 0 -> body_accepts c HBigDecimal l (BBigDecimal [] 0)
| ba_decimal u bs l n : bs <> [] -> block u bs -> code 8 l n ->
    body_accepts c HBigDecimal (u ++ l) (BBigDecimal bs (unzigzag n))
| ba_string u bs : wellformed bs -> block u bs -> body_accepts c HString u (BString bs)
| ba_binary u bs : block u bs -> body_accepts c HBinary u (BBinary bs)
| ba_array h l u bs : code 8 l (lenN bs) -> vec_room c (lenN bs) = true ->
    bodies_accept c (map (fun _ => h) bs) u bs -> body_accepts c (HArray h) (l ++ u) (BArray bs)
| ba_tuple hs u bs : vec_room c (lenN hs) = true -> bodies_accept c hs u bs ->
    body_accepts c (HTuple hs) u (BTuple bs)
| ba_map h l u es m : code 8 l (lenN es) -> body_entries_accept c h u es ->
    StronglySorted lex_lt (map fst m) -> (forall k, last_binding k m = last_binding k es) ->
    body_accepts c (HMap h) (l ++ u) (BMap m)
| ba_enum hs l i h u b : code 4 l i -> pickN hs i = Some h -> body_accepts c h u b ->
    body_accepts c (HEnum hs) (l ++ u) (BEnum i b)
| ba_date l k y o : code 4 l y -> code 2 k o -> date_range c (unzigzag y) o ->
    body_accepts c HDate (l ++ k) (BDate (date_year (unzigzag y)) (date_ordinal o))
| ba_date_time l k t n : code 8 l t -> code 4 k n ->
    body_accepts c HDateTime (l ++ k) (BDateTime (unzigzag t) n)
with bodies_accept (c : cfg) : list header -> list N -> list body -> Prop :=
| bas_nil : bodies_accept c [] [] []
| bas_cons h hs u w b bs : body_accepts c h u b -> bodies_accept c hs w bs ->
    bodies_accept c (h :: hs) (u ++ w) (b :: bs)
with body_entries_accept (c : cfg) : header -> list N -> list (list N * body) -> Prop :=
| bae_nil h : body_entries_accept c h [] []
| bae_cons h x k u b w es : wellformed k -> block x k -> body_accepts c h u b -> body_entries_accept c h w es ->
    body_entries_accept c h (x ++ u ++ w) ((k, b) :: es).
