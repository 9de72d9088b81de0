(** * What reading does to every input, on targets of any pointer width.

    A length is a u64 in the input and a usize in memory. Where the two differ the code behaves
    differently for each kind of value, and in one case looks at how much input is left. *)
From Coq Require Import String Sorted.
From Verif Require Import Base Serde SpecVarint SpecUtf8 SpecMap Header Body SpecBody SpecAccept SpecReject.
Local Open Scope list_scope.
Local Open Scope N_scope.

(** What remains of n in a usize. *)
Definition kept (c : cfg) (n : N) : N := n mod 2 ^ usize_bits c.
Definition omap {A B} (f : A -> B) (o : outcome A) : outcome B :=
  match o with OOk a r => OOk (f a) r | OErr e => OErr e | OPanic p => OPanic p end.

(** Strings: up to n bytes are taken, fewer only at the end of the input, and their number is compared
    with the usize. *)
Definition window (n : N) (b r : list N) : Prop := lenN b = n \/ (lenN b < n /\ r = []).
Inductive text_read (c : cfg) : list N -> outcome (list N) -> Prop :=
| tr_short s : short 8 s -> text_read c s (OErr ERead)
| tr_text l n b r : code 8 l n -> window n b r -> lenN b = kept c n -> wellformed b -> text_read c (l ++ b ++ r) (OOk b r)
| tr_other l n b r : code 8 l n -> window n b r -> ~ (lenN b = kept c n /\ wellformed b) ->
    text_read c (l ++ b ++ r) (OErr ERead).
(** Byte buffers: if the usize is smaller, whole blocks of 4096 bytes are read until there are enough. *)
Definition buffer_size (c : cfg) (n : N) : N :=
  if n <? 2 ^ usize_bits c then n else 4096 * ((kept c n + 4095) / 4096).
(** A length, then size(length) bytes. *)
Inductive bytes_read (size : N -> N) : list N -> outcome (list N) -> Prop :=
| by_short s : short 8 s -> bytes_read size s (OErr ERead)
| by_few l n r : code 8 l n -> lenN r < size n -> bytes_read size (l ++ r) (OErr ERead)
| by_bytes l n b r : code 8 l n -> lenN b = size n -> bytes_read size (l ++ b ++ r) (OOk b r).
(** Digits and scale of a decimal. *)
Inductive decimal_read (c : cfg) : list N -> outcome (list N * Z) -> Prop :=
| dr_stop s x : bytes_read (kept c) s (stop x) -> decimal_read c s (stop x)
| dr_zero s r : bytes_read (kept c) s (OOk [] r) -> decimal_read c s (OOk ([], 0%Z) r)
| dr_short s b r : bytes_read (kept c) s (OOk b r) -> b <> [] -> short 8 r -> decimal_read c s (OErr ERead)
| dr_scale s b l n r : bytes_read (kept c) s (OOk b (l ++ r)) -> b <> [] -> code 8 l n ->
    decimal_read c s (OOk (b, unzigzag n) r).

(** Types without lengths: the same on every target, by [accepts] and [rejects]. *)
Definition plain (d : dty) : bool :=
  match d with
  | DBool | DI8 | DI16 | DI32 | DI64 | DI128 | DU8 | DU16 | DU32 | DU64 | DU128 | DF32 | DF64
  | DStr | DBytes | DUnit | DUnitStruct | DAny | DIgnored | DDate | DDateTime => true
  | _ => false
  end.
Definition sval_bytes (bs : list N) : sval := SSeq (Some (lenN bs)) (map SU8 bs).

(** [reads c d s o]: reading type d from s has the outcome o. *)
Inductive reads (c : cfg) : dty -> list N -> outcome sval -> Prop :=
| rd_plain d u v r : plain d = true -> accepts c d u v -> reads c d (u ++ r) (OOk v r)
| rd_plain_stop d s x : plain d = true -> rejects c d s x -> reads c d s (stop x)
| rd_usize_short s : short 8 s -> reads c DUsize s (OErr ERead)
| rd_usize l n r : code 8 l n -> n < 2 ^ usize_bits c -> reads c DUsize (l ++ r) (OOk (SU64 n) r)
| rd_usize_big l n r : code 8 l n -> 2 ^ usize_bits c <= n -> reads c DUsize (l ++ r) (OErr EMsg)
| rd_isize_short s : short 8 s -> reads c DIsize s (OErr ERead)
| rd_isize l n r : code 8 l n -> n < 2 ^ usize_bits c -> reads c DIsize (l ++ r) (OOk (SI64 (unzigzag n)) r)
| rd_isize_big l n r : code 8 l n -> 2 ^ usize_bits c <= n -> reads c DIsize (l ++ r) (OErr EMsg)
| rd_char_stop s x : text_read c s (stop x) -> reads c DChar s (stop x)
| rd_char_empty s r : text_read c s (OOk [] r) -> reads c DChar s (OErr ECharSize)
| rd_char s ch t r : scalar ch -> text_read c s (OOk (utf8 ch ++ t) r) -> reads c DChar s (OOk (SChar ch) r)
| rd_string s o : text_read c s o -> reads c DString s (omap SStr o)
| rd_buf s o : bytes_read (buffer_size c) s o -> reads c DByteBuf s (omap SBytes o)
| rd_biguint s o : bytes_read (kept c) s o -> reads c DBigUint s (omap (fun bs => SSeq None [sval_bytes bs]) o)
| rd_bigint s o : bytes_read (kept c) s o -> reads c DBigInt s (omap (fun bs => SSeq None [sval_bytes bs]) o)
| rd_decimal_stop s x : decimal_read c s (stop x) -> reads c DBigDecimal s (stop x)
| rd_decimal_zero s n r : decimal_read c s (OOk ([], n) r) -> reads c DBigDecimal s (OOk (SSeq None [SU8 0]) r)
| rd_decimal s bs n r : bs <> [] -> decimal_read c s (OOk (bs, n) r) ->
    reads c DBigDecimal s (OOk (SSeq None [sval_bytes bs; SI64 n]) r)
| rd_option d s : no_bool s -> reads c (DOption d) s (OErr ERead)
| rd_none d s : reads c (DOption d) (0 :: s) (OOk SNone s)
| rd_some d s o : reads c d s o -> reads c (DOption d) (1 :: s) (omap SSome o)
| rd_newtype d s o : reads c d s o -> reads c (DNewtypeStruct d) s (omap SNewtypeStruct o)
| rd_vec_count d s : short 8 s -> reads c (DVec d) s (OErr ERead)
| rd_vec d l n s o : code 8 l n -> reads_all c (repeat d (N.to_nat (kept c n))) s o ->
    reads c (DVec d) (l ++ s) (omap (fun vs => SSeq (Some (lenN vs)) vs) o)
| rd_tuple ds s o : reads_all c ds s o -> reads c (DTuple ds) s (omap STuple o)
| rd_tuple_struct ds s o : reads_all c ds s o -> reads c (DTupleStruct ds) s (omap STupleStruct o)
| rd_map_count d s : short 8 s -> reads c (DMap d) s (OErr ERead)
| rd_map_stop d l n s x : code 8 l n -> reads_entries c d (N.to_nat (kept c n)) s (stop x) -> reads c (DMap d) (l ++ s) (stop x)
| rd_map d l n s es m r : code 8 l n -> reads_entries c d (N.to_nat (kept c n)) s (OOk es r) ->
    StronglySorted lex_lt (map fst m) -> (forall k, last_binding k m = last_binding k es) ->
    reads c (DMap d) (l ++ s) (OOk (SMap (Some (lenN m)) (entries m)) r)
| rd_struct_stop keys fields s x : reads_fields c fields [] keys s (stop x) -> reads c (DStruct keys fields) s (stop x)
| rd_struct_missing keys fields s read r k d : reads_fields c fields [] keys s (OOk read r) ->
    field_type fields k d -> ~ In k keys -> (forall d', d <> DOption d') -> reads c (DStruct keys fields) s (OErr EMsg)
| rd_struct keys fields s read r ws : reads_fields c fields [] keys s (OOk read r) ->
    Forall2 (field_value read) fields ws ->
    reads c (DStruct keys fields) s (OOk (SStruct (combine (map fst fields) ws)) r)
| rd_enum_index vs s : short 2 s -> reads c (DEnum vs) s (OErr ERead)
| rd_enum_unknown vs l i s : code 2 l i -> lenN vs <= i -> reads c (DEnum vs) (l ++ s) (OErr EMsg)
| rd_unit_variant vs l i r : code 2 l i -> pickN vs i = Some (KUnit, DUnit) -> reads c (DEnum vs) (l ++ r) (OOk (SUnitVariant i) r)
| rd_newtype_variant vs l i d s o : code 2 l i -> pickN vs i = Some (KNewtype, d) ->
    reads c d s o -> reads c (DEnum vs) (l ++ s) (omap (SNewtypeVariant i) o)
| rd_tuple_variant vs l i ds s o : code 2 l i -> pickN vs i = Some (KTuple, DTuple ds) ->
    reads_all c ds s o -> reads c (DEnum vs) (l ++ s) (omap (STupleVariant i) o)
| rd_struct_variant_stop vs l i keys fields s x : code 2 l i -> pickN vs i = Some (KStruct, DStruct keys fields) ->
    reads c (DStruct keys fields) s (stop x) -> reads c (DEnum vs) (l ++ s) (stop x)
| rd_struct_variant vs l i keys fields s xs r : code 2 l i -> pickN vs i = Some (KStruct, DStruct keys fields) ->
    reads c (DStruct keys fields) s (OOk (SStruct xs) r) -> reads c (DEnum vs) (l ++ s) (OOk (SStructVariant i xs) r)
(** One type after another. *)
with reads_all (c : cfg) : list dty -> list N -> outcome (list sval) -> Prop :=
| ra_nil s : reads_all c [] s (OOk [] s)
| ra_stop d ds s x : reads c d s (stop x) -> reads_all c (d :: ds) s (stop x)
| ra_cons d ds s v r o : reads c d s (OOk v r) -> reads_all c ds r o -> reads_all c (d :: ds) s (omap (cons v) o)
(** n string keys, each followed by a value. *)
with reads_entries (c : cfg) : dty -> nat -> list N -> outcome (list (list N * sval)) -> Prop :=
| re_nil d s : reads_entries c d 0 s (OOk [] s)
| re_key d n s x : text_read c s (stop x) -> reads_entries c d (S n) s (stop x)
| re_value d n s k t x : text_read c s (OOk k t) -> reads c d t (stop x) -> reads_entries c d (S n) s (stop x)
| re_cons d n s k t v r o : text_read c s (OOk k t) -> reads c d t (OOk v r) -> reads_entries c d n r o ->
    reads_entries c d (S n) s (omap (cons (k, v)) o)
(** The named fields one after another; [seen] have been read. *)
with reads_fields (c : cfg) : list (string * dty) -> list string -> list string -> list N -> outcome (list (string * sval)) -> Prop :=
| rf_nil fields seen s : reads_fields c fields seen [] s (OOk [] s)
| rf_unknown fields seen k keys s : ~ In k (map fst fields) -> reads_fields c fields seen (k :: keys) s (OPanic PTodo)
| rf_repeated fields seen k keys s : In k (map fst fields) -> In k seen -> reads_fields c fields seen (k :: keys) s (OErr EMsg)
| rf_stop fields seen k d keys s x : field_type fields k d -> ~ In k seen -> reads c d s (stop x) ->
    reads_fields c fields seen (k :: keys) s (stop x)
| rf_cons fields seen k d keys s v r o : field_type fields k d -> ~ In k seen -> reads c d s (OOk v r) ->
    reads_fields c fields (k :: seen) keys r o -> reads_fields c fields seen (k :: keys) s (omap (cons (k, v)) o).

(** Bodies. Arrays and maps count to the u64; the memory for an array is asked for with the usize. *)
Definition body_plain (h : header) : bool :=
  match h with
  | HUnit | HBoolean | HUInt8 | HUInt16 | HUInt32 | HUInt64 | HInt8 | HInt16 | HInt32 | HInt64
  | HFloat32 | HFloat64 | HDate | HDateTime => true
  | _ => false
  end.
Inductive body_reads (c : cfg) : header -> list N -> outcome body -> Prop :=
| bd_plain h u b r : body_plain h = true -> body_accepts c h u b -> body_reads c h (u ++ r) (OOk b r)
| bd_plain_stop h s x : body_plain h = true -> body_rejects c h s x -> body_reads c h s (stop x)
| bd_option h s : no_bool s -> body_reads c (HOptional h) s (OErr ERead)
| bd_none h s : body_reads c (HOptional h) (0 :: s) (OOk (BOptional None) s)
| bd_some h s o : body_reads c h s o -> body_reads c (HOptional h) (1 :: s) (omap (fun b => BOptional (Some b)) o)
| bd_biguint s o : bytes_read (kept c) s o -> body_reads c HBigUInt s (omap BBigUInt o)
| bd_bigint s o : bytes_read (kept c) s o -> body_reads c HBigInt s (omap BBigInt o)
| bd_decimal s o : decimal_read c s o -> body_reads c HBigDecimal s (omap (fun p => BBigDecimal (fst p) (snd p)) o)
| bd_string s o : text_read c s o -> body_reads c HString s (omap BString o)
| bd_binary s o : bytes_read (buffer_size c) s o -> body_reads c HBinary s (omap BBinary o)
| bd_array_count h s : short 8 s -> body_reads c (HArray h) s (OErr ERead)
| bd_array_room h l n s q : code 8 l n -> no_room c (kept c n) q -> body_reads c (HArray h) (l ++ s) (OPanic q)
| bd_array h l n s o : code 8 l n -> (forall q, ~ no_room c (kept c n) q) -> bodies_read c (repeat h (N.to_nat n)) s o ->
    body_reads c (HArray h) (l ++ s) (omap BArray o)
| bd_tuple_room hs s q : no_room c (lenN hs) q -> body_reads c (HTuple hs) s (OPanic q)
| bd_tuple hs s o : (forall q, ~ no_room c (lenN hs) q) -> bodies_read c hs s o -> body_reads c (HTuple hs) s (omap BTuple o)
| bd_map_count h s : short 8 s -> body_reads c (HMap h) s (OErr ERead)
| bd_map_stop h l n s x : code 8 l n -> body_entries_read c h (N.to_nat n) s (stop x) -> body_reads c (HMap h) (l ++ s) (stop x)
| bd_map h l n s es m r : code 8 l n -> body_entries_read c h (N.to_nat n) s (OOk es r) ->
    StronglySorted lex_lt (map fst m) -> (forall k, last_binding k m = last_binding k es) ->
    body_reads c (HMap h) (l ++ s) (OOk (BMap m) r)
| bd_enum_index hs s : short 4 s -> body_reads c (HEnum hs) s (OErr ERead)
| bd_enum_unknown hs l i s : code 4 l i -> lenN hs <= i -> body_reads c (HEnum hs) (l ++ s) (OErr ERead)
| bd_enum hs l i h s o : code 4 l i -> pickN hs i = Some h -> body_reads c h s o ->
    body_reads c (HEnum hs) (l ++ s) (omap (BEnum i) o)
with bodies_read (c : cfg) : list header -> list N -> outcome (list body) -> Prop :=
| bsr_nil s : bodies_read c [] s (OOk [] s)
| bsr_stop h hs s x : body_reads c h s (stop x) -> bodies_read c (h :: hs) s (stop x)
| bsr_cons h hs s b r o : body_reads c h s (OOk b r) -> bodies_read c hs r o -> bodies_read c (h :: hs) s (omap (cons b) o)
with body_entries_read (c : cfg) : header -> nat -> list N -> outcome (list (list N * body)) -> Prop :=
| ber_nil h s : body_entries_read c h 0 s (OOk [] s)
| ber_key h n s x : text_read c s (stop x) -> body_entries_read c h (S n) s (stop x)
| ber_value h n s k t x : text_read c s (OOk k t) -> body_reads c h t (stop x) -> body_entries_read c h (S n) s (stop x)
| ber_cons h n s k t b r o : text_read c s (OOk k t) -> body_reads c h t (OOk b r) -> body_entries_read c h n r o ->
    body_entries_read c h (S n) s (omap (cons (k, b)) o).
