(** * What is written for a value, and how writing ends.

    Independent of the serializer: no write calls, shifts or masks. *)
From Coq Require Import String.
From Verif Require Import Base Serde SpecVarint SpecUtf8 Header Body.
Local Open Scope list_scope.
Local Open Scope N_scope.

(** The numbers, characters and lengths in a value fit the Rust types they stand for. *)
Fixpoint representable (v : sval) : Prop :=
  match v with
  | SI8 z => (- 2 ^ 7 <= z < 2 ^ 7)%Z
  | SI16 z => (- 2 ^ 15 <= z < 2 ^ 15)%Z
  | SI32 z => (- 2 ^ 31 <= z < 2 ^ 31)%Z
  | SI64 z => (- 2 ^ 63 <= z < 2 ^ 63)%Z
  | SU8 n => n < 2 ^ 8
  | SU16 n => n < 2 ^ 16
  | SU32 n | SF32 n | SUnitVariant n => n < 2 ^ 32
  | SU64 n | SF64 n => n < 2 ^ 64
  | SChar c => scalar c
  | SStr bs | SBytes bs => lenN bs < 2 ^ 64
  | SSome v | SNewtypeStruct v => representable v
  | SNewtypeVariant i v => i < 2 ^ 32 /\ representable v
  | SSeq len l => match len with Some n => n < 2 ^ 64 | None => True end /\ fold_right (fun x P => representable x /\ P) True l
  | STuple l | STupleStruct l => fold_right (fun x P => representable x /\ P) True l
  | STupleVariant i l => i < 2 ^ 32 /\ fold_right (fun x P => representable x /\ P) True l
  | SMap len l => match len with Some n => n < 2 ^ 64 | None => True end /\
      fold_right (fun kv P => (representable (fst kv) /\ representable (snd kv)) /\ P) True l
  | SStruct l => fold_right (fun kv P => representable (snd kv) /\ P) True l
  | SStructVariant i l => i < 2 ^ 32 /\ fold_right (fun kv P => representable (snd kv) /\ P) True l
  | _ => True
  end.

(** A length, then the bytes. *)
Definition text (bs : list N) : list N := varint_bytes 8 (lenN bs) ++ bs.
(** The announced length of a sequence or map; nothing when it is not announced. *)
Definition announced (len : option N) : list N := match len with Some n => varint_bytes 8 n | None => [] end.
(** One byte of two's complement. *)
Definition byte8 (z : Z) : N := Z.to_N (if (z <? 0)%Z then z + 256 else z).
(** Values that cannot be a map key, and how that is reported. *)
Inductive bad_key : sval -> wend -> Prop :=
| bk_i128 z : bad_key (SI128 z) (WeErr SEMsg)
| bk_u128 n : bad_key (SU128 n) (WeErr SEMsg)
| bk_panic p : bad_key (SPanic p) (WePanic p)
| bk_error : bad_key SError (WeErr SEMsg)
| bk_other k : (forall bs, k <> SStr bs) -> (forall z, k <> SI128 z) -> (forall n, k <> SU128 n) -> (forall p, k <> SPanic p) -> k <> SError ->
    bad_key k (WeErr SEKey).

(** [output v u r]: serializing v writes u in all and ends with r. [outputs]: one value after another, up to
    the first that fails. [output_entries]: a key and a value after another. *)
Inductive output : sval -> list N -> wend -> Prop :=
| o_bool (b : bool) : output (SBool b) [if b then 1 else 0] WeOk
| o_i8 z : output (SI8 z) [byte8 z] WeOk
| o_i16 z : output (SI16 z) (varint_bytes 2 (zigzag z)) WeOk
| o_i32 z : output (SI32 z) (varint_bytes 4 (zigzag z)) WeOk
| o_i64 z : output (SI64 z) (varint_bytes 8 (zigzag z)) WeOk
| o_i128 z : output (SI128 z) [] (WeErr SEMsg)
| o_u8 n : output (SU8 n) [n] WeOk
| o_u16 n : output (SU16 n) (varint_bytes 2 n) WeOk
| o_u32 n : output (SU32 n) (varint_bytes 4 n) WeOk
| o_u64 n : output (SU64 n) (varint_bytes 8 n) WeOk
| o_u128 n : output (SU128 n) [] (WeErr SEMsg)
| o_f32 n : output (SF32 n) (le_digits 4 n) WeOk
| o_f64 n : output (SF64 n) (le_digits 8 n) WeOk
| o_char c : output (SChar c) (text (utf8 c)) WeOk
| o_str bs : output (SStr bs) (text bs) WeOk
| o_bytes bs : output (SBytes bs) (text bs) WeOk
| o_none : output SNone [0] WeOk
| o_some v u r : output v u r -> output (SSome v) (1 :: u) r
| o_unit : output SUnit [] WeOk
| o_unit_struct : output SUnitStruct [] WeOk
| o_unit_variant i : output (SUnitVariant i) (varint_bytes 4 i) WeOk
| o_newtype v u r : output v u r -> output (SNewtypeStruct v) u r
| o_newtype_variant i v u r : output v u r -> output (SNewtypeVariant i v) (varint_bytes 4 i ++ u) r
| o_seq len l u r : outputs l u r -> output (SSeq len l) (announced len ++ u) r
| o_tuple l u r : outputs l u r -> output (STuple l) u r
| o_tuple_struct l u r : outputs l u r -> output (STupleStruct l) u r
| o_tuple_variant i l u r : outputs l u r -> output (STupleVariant i l) (varint_bytes 4 i ++ u) r
| o_map len l u r : output_entries l u r -> output (SMap len l) (announced len ++ u) r
| o_struct l u r : outputs (map snd l) u r -> output (SStruct l) u r
| o_struct_variant i l u r : outputs (map snd l) u r -> output (SStructVariant i l) (varint_bytes 4 i ++ u) r
| o_panic p : output (SPanic p) [] (WePanic p)
| o_error : output SError [] (WeErr SEMsg)
with outputs : list sval -> list N -> wend -> Prop :=
| os_nil : outputs [] [] WeOk
| os_cons v l u w r : output v u WeOk -> outputs l w r -> outputs (v :: l) (u ++ w) r
| os_stop v l u r : output v u r -> r <> WeOk -> outputs (v :: l) u r
with output_entries : list (sval * sval) -> list N -> wend -> Prop :=
| oe_nil : output_entries [] [] WeOk
| oe_cons k v l u w r : output v u WeOk -> output_entries l w r ->
    output_entries ((SStr k, v) :: l) (text k ++ u ++ w) r
| oe_stop k v l u r : output v u r -> r <> WeOk -> output_entries ((SStr k, v) :: l) (text k ++ u) r
| oe_key k v l r : bad_key k r -> output_entries ((k, v) :: l) [] r.

(** The two numbers of a date. Out of range they are a panic in a build with overflow checks and wrap
    around in one without. *)
Inductive year_output (c : cfg) (y : Z) : list N -> wend -> Prop :=
| yo_plain : (- 2 ^ 31 <= y - 2000)%Z -> year_output c y (varint_bytes 4 (zigzag (y - 2000))) WeOk
| yo_wraps : (y - 2000 < - 2 ^ 31)%Z -> overflow_checks c = false ->
    year_output c y (varint_bytes 4 (zigzag (y - 2000 + 2 ^ 32))) WeOk
| yo_panics : (y - 2000 < - 2 ^ 31)%Z -> overflow_checks c = true -> year_output c y [] (WePanic POverflow).
Inductive day_output (c : cfg) : N -> list N -> wend -> Prop :=
| do_plain o : day_output c (o + 1) (varint_bytes 2 o) WeOk
| do_wraps : overflow_checks c = false -> day_output c 0 (varint_bytes 2 65535) WeOk
| do_panics : overflow_checks c = true -> day_output c 0 [] (WePanic POverflow).

(** The same for bodies: only dates can fail. *)
Inductive body_output (c : cfg) : body -> list N -> wend -> Prop :=
| bo_unit : body_output c BUnit [] WeOk
| bo_none : body_output c (BOptional None) [0] WeOk
| bo_some b u r : body_output c b u r -> body_output c (BOptional (Some b)) (1 :: u) r
| bo_bool (b : bool) : body_output c (BBoolean b) [if b then 1 else 0] WeOk
| bo_u8 n : body_output c (BUInt8 n) [n] WeOk
| bo_u16 n : body_output c (BUInt16 n) (varint_bytes 2 n) WeOk
| bo_u32 n : body_output c (BUInt32 n) (varint_bytes 4 n) WeOk
| bo_u64 n : body_output c (BUInt64 n) (varint_bytes 8 n) WeOk
| bo_i8 z : body_output c (BInt8 z) [byte8 z] WeOk
| bo_i16 z : body_output c (BInt16 z) (varint_bytes 2 (zigzag z)) WeOk
| bo_i32 z : body_output c (BInt32 z) (varint_bytes 4 (zigzag z)) WeOk
| bo_i64 z : body_output c (BInt64 z) (varint_bytes 8 (zigzag z)) WeOk
| bo_f32 n : body_output c (BFloat32 n) (le_digits 4 n) WeOk
| bo_f64 n : body_output c (BFloat64 n) (le_digits 8 n) WeOk
| bo_biguint bs : body_output c (BBigUInt bs) (text bs) WeOk
| bo_bigint bs : body_output c (BBigInt bs) (text bs) WeOk
| bo_decimal_zero s : body_output c (BBigDecimal [] s) [0] WeOk
| bo_decimal bs s : bs <> [] -> body_output c (BBigDecimal bs s) (text bs ++ varint_bytes 8 (zigzag s)) WeOk
| bo_string bs : body_output c (BString bs) (text bs) WeOk
| bo_binary bs : body_output c (BBinary bs) (text bs) WeOk
| bo_array l u r : body_outputs c l u r -> body_output c (BArray l) (varint_bytes 8 (lenN l) ++ u) r
| bo_tuple l u r : body_outputs c l u r -> body_output c (BTuple l) u r
| bo_map m u r : body_entries_output c m u r -> body_output c (BMap m) (varint_bytes 8 (lenN m) ++ u) r
| bo_enum i b u r : body_output c b u r -> body_output c (BEnum i b) (varint_bytes 4 i ++ u) r
| bo_date y o u w r : year_output c y u WeOk -> day_output c o w r -> body_output c (BDate y o) (u ++ w) r
| bo_date_year y o u r : year_output c y u r -> r <> WeOk -> body_output c (BDate y o) u r
| bo_date_time t n : body_output c (BDateTime t n) (varint_bytes 8 (zigzag t) ++ varint_bytes 4 n) WeOk
with body_outputs (c : cfg) : list body -> list N -> wend -> Prop :=
| bos_nil : body_outputs c [] [] WeOk
| bos_cons b l u w r : body_output c b u WeOk -> body_outputs c l w r -> body_outputs c (b :: l) (u ++ w) r
| bos_stop b l u r : body_output c b u r -> r <> WeOk -> body_outputs c (b :: l) u r
with body_entries_output (c : cfg) : list (list N * body) -> list N -> wend -> Prop :=
| beo_nil : body_entries_output c [] [] WeOk
| beo_cons k b m u w r : body_output c b u WeOk -> body_entries_output c m w r ->
    body_entries_output c ((k, b) :: m) (text k ++ u ++ w) r
| beo_stop k b m u r : body_output c b u r -> r <> WeOk -> body_entries_output c ((k, b) :: m) (text k ++ u) r.
