(** * What a value of a derived type writes, and how writing ends (C80).

    Relations between a value, the bytes and the end of writing; the counterpart of SpecDerived. *)
From Coq Require Import String.
From Verif Require Import Base Serde SpecVarint Header Body Big Time Derive SpecDerive SpecBig SpecOutput.
Local Open Scope list_scope.
Local Open Scope N_scope.

(** ** Values of a type *)

(** Some byte string that fits a Vec holds the number. *)
Definition holds {A} (value : list N -> A) (x : A) : Prop := exists bs, bytes_ok bs /\ lenN bs < 2 ^ 64 /\ value bs = x.
Definition fits_i (w : Z) (z : Z) : Prop := (- 2 ^ (w - 1) <= z < 2 ^ (w - 1))%Z.
Inductive leaf_value : leaf -> rval -> Prop :=
| lv_unit : leaf_value LUnit VUnit
| lv_bool b : leaf_value LBool (VBool b)
| lv_u8 n : n < 2 ^ 8 -> leaf_value LU8 (VU n)
| lv_u16 n : n < 2 ^ 16 -> leaf_value LU16 (VU n)
| lv_u32 n : n < 2 ^ 32 -> leaf_value LU32 (VU n)
| lv_u64 n : n < 2 ^ 64 -> leaf_value LU64 (VU n)
| lv_i8 z : fits_i 8 z -> leaf_value LI8 (VI z)
| lv_i16 z : fits_i 16 z -> leaf_value LI16 (VI z)
| lv_i32 z : fits_i 32 z -> leaf_value LI32 (VI z)
| lv_i64 z : fits_i 64 z -> leaf_value LI64 (VI z)
| lv_f32 n : n < 2 ^ 32 -> leaf_value LF32 (VF n)
| lv_f64 n : n < 2 ^ 64 -> leaf_value LF64 (VF n)
| lv_biguint bs : lenN bs < 2 ^ 64 -> leaf_value LBigUint (VB bs)
| lv_bigint bs : lenN bs < 2 ^ 64 -> leaf_value LBigInt (VB bs)
| lv_num_biguint n : holds le_value n -> leaf_value LNumBigUint (VU n)
| lv_num_bigint z : holds signed_value z -> leaf_value LNumBigInt (VI z)
| lv_decimal bs s : lenN bs < 2 ^ 64 -> fits_i 64 s -> leaf_value LBigDecimal (VBDec bs s)
| lv_ext_decimal d s : holds signed_value d -> fits_i 64 s -> leaf_value LExtBigDecimal (VDec d s)
| lv_text l bs : In l [LStr; LString; LBytes; LByteBuf] -> lenN bs < 2 ^ 64 -> leaf_value l (VB bs)
| lv_date l y o : In l [LDate; LExtDate] -> fits_i 32 y -> o < 2 ^ 16 -> leaf_value l (VDate y o)
| lv_date_time t n : fits_i 64 t -> n < 2 ^ 32 -> leaf_value LDateTime (VDateTime t n)
| lv_ext_date_time t : fits_i 64 (odt_ts t) -> odt_ns t < 2 ^ 32 -> leaf_value LExtDateTime (VOdt t).

(** What is in a skipped field does not matter. *)
Inductive fields_value : list (attrs * (rval -> Prop)) -> list rval -> Prop :=
| fv_nil : fields_value [] []
| fv_skipped a P fs v l : skipped a -> fields_value fs l -> fields_value ((a, P) :: fs) (v :: l)
| fv_field a (P : rval -> Prop) fs v l : P v -> fields_value fs l -> fields_value ((a, P) :: fs) (v :: l).
Definition style_fits {A} (k : style) (fs : list A) : Prop := k = UnitLike -> fs = [].
(** A newtype struct whose field has a skip attribute is left out: see Derive.rser_struct. *)
Definition struct_fits {A} (k : style) (fs : list (attrs * A)) : Prop :=
  forall f, k = Unnamed -> fs = [f] -> ~ skipped (fst f) /\ ~ skipped_if (fst f).
Fixpoint value_of (t : rty) (v : rval) {struct t} : Prop :=
  match t, v with
  | RLeaf l, v => leaf_value l v
  | ROption t, VNone => True
  | ROption t, VSome v => value_of t v
  | RVec t, VSeq l => lenN l < 2 ^ 64 /\ Forall (value_of t) l
  | RBTreeMap t, VMap m | RHashMap t, VMap m =>
      lenN m < 2 ^ 64 /\ Forall (fun kv => lenN (fst kv) < 2 ^ 64 /\ value_of t (snd kv)) m
  | RTuple ts, VSeq l => fields_value (map (fun t => ([], value_of t)) ts) l
  | RStruct k fs, VSeq l => style_fits k fs /\ struct_fits k fs /\ fields_value (map (fun f => (fst f, value_of (snd (snd f)))) fs) l
  | REnum vs, VVariant i l => i < 2 ^ 32 /\
      exists a k fs, pickN (map (fun v => (fst v, (fst (snd v), map (fun f => (fst f, value_of (snd (snd f)))) (snd (snd v))))) vs) i =
        Some (a, (k, fs)) /\ (skipped a \/ (style_fits k fs /\ fields_value fs l))
  | _, _ => False
  end.

(** ** Writing *)

Definition writing : Type := list N -> wend -> Prop.
(** One after another, up to the first that fails. *)
Inductive one_by_one : list writing -> writing :=
| ob_nil : one_by_one [] [] WeOk
| ob_cons (W : writing) Ws u w r : W u WeOk -> one_by_one Ws w r -> one_by_one (W :: Ws) (u ++ w) r
| ob_stop (W : writing) Ws u r : W u r -> r <> WeOk -> one_by_one (W :: Ws) u r.
Inductive after (p : list N) (W : writing) : writing :=
| af u r : W u r -> after p W (p ++ u) r.

(** A decimal is written without trailing zeros in its digits. Its scale can then be too small for
    an i64. *)
Inductive scale_written (c : cfg) (bs : list N) (s : Z) : writing :=
| sw_fits : fits_i 64 s -> scale_written c bs s (text bs ++ varint_bytes 8 (zigzag s)) WeOk
| sw_wraps s' q : ~ fits_i 64 s -> overflow_checks c = false -> fits_i 64 s' -> (s' = s + q * 2 ^ 64)%Z ->
    scale_written c bs s (text bs ++ varint_bytes 8 (zigzag s')) WeOk
| sw_panics : ~ fits_i 64 s -> overflow_checks c = true -> scale_written c bs s [] (WePanic POverflow).
Inductive leaf_writes (c : cfg) : leaf -> rval -> writing :=
| lw_unit : leaf_writes c LUnit VUnit [] WeOk
| lw_bool (b : bool) : leaf_writes c LBool (VBool b) [if b then 1 else 0] WeOk
| lw_u8 n : leaf_writes c LU8 (VU n) [n] WeOk
| lw_u16 n : leaf_writes c LU16 (VU n) (varint_bytes 2 n) WeOk
| lw_u32 n : leaf_writes c LU32 (VU n) (varint_bytes 4 n) WeOk
| lw_u64 n : leaf_writes c LU64 (VU n) (varint_bytes 8 n) WeOk
| lw_i8 z : leaf_writes c LI8 (VI z) [byte8 z] WeOk
| lw_i16 z : leaf_writes c LI16 (VI z) (varint_bytes 2 (zigzag z)) WeOk
| lw_i32 z : leaf_writes c LI32 (VI z) (varint_bytes 4 (zigzag z)) WeOk
| lw_i64 z : leaf_writes c LI64 (VI z) (varint_bytes 8 (zigzag z)) WeOk
| lw_f32 n : leaf_writes c LF32 (VF n) (le_digits 4 n) WeOk
| lw_f64 n : leaf_writes c LF64 (VF n) (le_digits 8 n) WeOk
| lw_text l bs : In l [LStr; LString; LBytes; LByteBuf; LBigUint; LBigInt] -> leaf_writes c l (VB bs) (text bs) WeOk
| lw_num_biguint n bs : shortest le_value n bs -> leaf_writes c LNumBigUint (VU n) (text bs) WeOk
| lw_num_bigint z bs : shortest signed_value z bs -> leaf_writes c LNumBigInt (VI z) (text bs) WeOk
| lw_decimal_zero s : leaf_writes c LBigDecimal (VBDec [] s) [0] WeOk
| lw_decimal bs s : bs <> [] -> leaf_writes c LBigDecimal (VBDec bs s) (text bs ++ varint_bytes 8 (zigzag s)) WeOk
| lw_ext_decimal_zero s : leaf_writes c LExtBigDecimal (VDec 0 s) [0] WeOk
| lw_ext_decimal d k s bs u r : (d mod 10 <> 0)%Z -> (0 <= k)%Z -> shortest signed_value d bs -> scale_written c bs (s - k) u r ->
    leaf_writes c LExtBigDecimal (VDec (d * 10 ^ k) s) u r
| lw_date l y o u r : In l [LDate; LExtDate] -> one_by_one [year_output c y; day_output c o] u r -> leaf_writes c l (VDate y o) u r
| lw_date_time t n : leaf_writes c LDateTime (VDateTime t n) (varint_bytes 8 (zigzag t) ++ varint_bytes 4 n) WeOk
| lw_ext_date_time t : leaf_writes c LExtDateTime (VOdt t) (varint_bytes 8 (zigzag (odt_ts t)) ++ varint_bytes 4 (odt_ns t)) WeOk.

Inductive option_writes (W : rval -> writing) : rval -> writing :=
| ow_none : option_writes W VNone [0] WeOk
| ow_some v u r : W v u r -> option_writes W (VSome v) (1 :: u) r.
Inductive vec_writes (W : rval -> writing) : rval -> writing :=
| vw l u r : after (varint_bytes 8 (lenN l)) (one_by_one (map W l)) u r -> vec_writes W (VSeq l) u r.
(** Entries in the order in which the map iterates. *)
Inductive map_writes (W : rval -> writing) : rval -> writing :=
| mw m u r : after (varint_bytes 8 (lenN m)) (one_by_one (map (fun kv => after (text (fst kv)) (W (snd kv))) m)) u r ->
    map_writes W (VMap m) u r.

(** The fields that are written. [omit n v]: the answer of the function in skip_serializing_if. *)
Inductive written_fields (omit : string -> rval -> bool) : list (attrs * (string * (rval -> writing))) -> list rval -> list writing -> Prop :=
| wf_nil : written_fields omit [] [] []
| wf_skipped a n W fs v l Ws : skipped a -> written_fields omit fs l Ws -> written_fields omit ((a, (n, W)) :: fs) (v :: l) Ws
| wf_omitted a n W fs v l Ws : skipped_if a -> omit n v = true -> written_fields omit fs l Ws ->
    written_fields omit ((a, (n, W)) :: fs) (v :: l) Ws
| wf_written a n (W : rval -> writing) fs v l Ws : ~ skipped a -> ~ (skipped_if a /\ omit n v = true) -> written_fields omit fs l Ws ->
    written_fields omit ((a, (n, W)) :: fs) (v :: l) (W v :: Ws).
Inductive struct_writes (omit : string -> rval -> bool) (fs : list (attrs * (string * (rval -> writing)))) : rval -> writing :=
| stw l Ws u r : written_fields omit fs l Ws -> one_by_one Ws u r -> struct_writes omit fs (VSeq l) u r.
Definition never (n : string) (v : rval) : bool := false.
(** The number of the variant among all variants, then its fields. The only field of a tuple variant
    is written whatever its skip_serializing_if says. *)
Inductive enum_writes (omit : string -> rval -> bool) (vs : list (attrs * (style * list (attrs * (string * (rval -> writing)))))) : rval -> writing :=
| ew_refused i l a k fs : pickN vs i = Some (a, (k, fs)) -> skipped a -> enum_writes omit vs (VVariant i l) [] (WeErr SEMsg)
| ew_newtype i v a f Ws u r : pickN vs i = Some (a, (Unnamed, [f])) -> ~ skipped a ->
    written_fields never [f] [v] Ws -> after (varint_bytes 4 i) (one_by_one Ws) u r -> enum_writes omit vs (VVariant i [v]) u r
| ew_variant i l a k fs Ws u r : pickN vs i = Some (a, (k, fs)) -> ~ skipped a -> (k = Unnamed -> length fs <> 1%nat) ->
    written_fields omit fs l Ws -> after (varint_bytes 4 i) (one_by_one Ws) u r -> enum_writes omit vs (VVariant i l) u r.

(** [derived_writes c omit t v u r]: writing v as a t writes u in all and ends with r. *)
Fixpoint derived_writes (c : cfg) (omit : string -> rval -> bool) (t : rty) {struct t} : rval -> writing :=
  match t with
  | RLeaf l => leaf_writes c l
  | ROption t => option_writes (derived_writes c omit t)
  | RVec t => vec_writes (derived_writes c omit t)
  | RBTreeMap t | RHashMap t => map_writes (derived_writes c omit t)
  | RTuple ts => struct_writes never (map (fun t => ([], (EmptyString, derived_writes c omit t))) ts)
  | RStruct _ fs => struct_writes omit (map (fun f => (fst f, (fst (snd f), derived_writes c omit (snd (snd f))))) fs)
  | REnum vs => enum_writes omit (map (fun v => (fst v, (fst (snd v),
      map (fun f => (fst f, (fst (snd f), derived_writes c omit (snd (snd f))))) (snd (snd v))))) vs)
  | RUnion | RItem _ => fun _ _ _ => False
  end.
