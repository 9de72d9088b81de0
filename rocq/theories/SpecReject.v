(** * Which inputs are rejected for a type, and how.

    Written beside [accepts]: an input is rejected at the first part that is not a code of its type. *)
From Coq Require Import String.
From Verif Require Import Base Serde SpecVarint SpecUtf8 Header SpecHeader Body SpecBody SpecAccept.
Local Open Scope list_scope.
Local Open Scope N_scope.

(** An error or a crash. *)
Definition fault : Type := (derr + panic)%type.
Definition stop {A} (x : fault) : outcome A := match x with inl e => OErr e | inr p => OPanic p end.
Definition read_error : fault := inl ERead.

(** s ends inside a varint of u(8m). *)
Definition short (m : nat) (s : list N) : Prop :=
  s = [] \/ exists p t, s = p :: t /\ (length t < varint_extra m p)%nat.
(** s ends inside a length or inside the bytes it announces. *)
Definition no_block (s : list N) : Prop :=
  short 8 s \/ exists l n r, s = l ++ r /\ code 8 l n /\ lenN r < n.
(** The bytes may also be other than UTF-8. *)
Definition no_text (s : list N) : Prop :=
  no_block s \/ exists u bs r, s = u ++ r /\ block u bs /\ ~ wellformed bs.
(** A date with overflow checks: the year is added before the day is read. *)
Definition no_date (c : cfg) (s : list N) (x : fault) : Prop :=
  (short 4 s /\ x = read_error) \/
  exists l y r, s = l ++ r /\ code 4 l y /\
    let over := overflow_checks c = true /\ (2 ^ 31 <= unzigzag y + 2000)%Z in
    (over /\ x = inr POverflow) \/
    (~ over /\ short 2 r /\ x = read_error) \/
    (~ over /\ exists k o r', r = k ++ r' /\ code 2 k o /\ overflow_checks c = true /\ o + 1 = 2 ^ 16 /\ x = inr POverflow).
Definition no_date_time (s : list N) : Prop :=
  short 8 s \/ exists l t r, s = l ++ r /\ code 8 l t /\ short 4 r.
Definition no_decimal (s : list N) : Prop :=
  no_block s \/ exists u bs r, s = u ++ r /\ block u bs /\ bs <> [] /\ short 8 r.
Definition no_bool (s : list N) : Prop := s = [] \/ exists b t, s = b :: t /\ 1 < b.

(** [rejects c d s x]: reading type d from s stops with x. [rejects_one]: so does reading the types
    one after another. *)
Inductive rejects (c : cfg) : dty -> list N -> fault -> Prop :=
| rj_bool s : no_bool s -> rejects c DBool s read_error
| rj_u8 : rejects c DU8 [] read_error
| rj_u16 s : short 2 s -> rejects c DU16 s read_error
| rj_u32 s : short 4 s -> rejects c DU32 s read_error
| rj_u64 s : short 8 s -> rejects c DU64 s read_error
| rj_usize s : short 8 s -> rejects c DUsize s read_error
| rj_i8 : rejects c DI8 [] read_error
| rj_i16 s : short 2 s -> rejects c DI16 s read_error
| rj_i32 s : short 4 s -> rejects c DI32 s read_error
| rj_i64 s : short 8 s -> rejects c DI64 s read_error
| rj_isize s : short 8 s -> rejects c DIsize s read_error
| rj_f32 s : (length s < 4)%nat -> rejects c DF32 s read_error
| rj_f64 s : (length s < 8)%nat -> rejects c DF64 s read_error
| rj_char s : no_text s -> rejects c DChar s read_error
| rj_char_empty l r : code 8 l 0 -> rejects c DChar (l ++ r) (inl ECharSize)
| rj_string s : no_text s -> rejects c DString s read_error
| rj_buf s : no_block s -> rejects c DByteBuf s read_error
| rj_option d s : no_bool s -> rejects c (DOption d) s read_error
| rj_some d s x : rejects c d s x -> rejects c (DOption d) (1 :: s) x
| rj_newtype d s x : rejects c d s x -> rejects c (DNewtypeStruct d) s x
| rj_vec_count d s : short 8 s -> rejects c (DVec d) s read_error
| rj_vec d l n u vs s x : code 8 l n -> accepts_all c (map (fun _ => d) vs) u vs -> lenN vs < n ->
    rejects c d s x -> rejects c (DVec d) (l ++ u ++ s) x
| rj_tuple ds s x : rejects_one c ds s x -> rejects c (DTuple ds) s x
| rj_tuple_struct ds s x : rejects_one c ds s x -> rejects c (DTupleStruct ds) s x
| rj_map_count d s : short 8 s -> rejects c (DMap d) s read_error
| rj_map_key d l n u es s : code 8 l n -> accepts_entries c d u es -> lenN es < n ->
    no_text s -> rejects c (DMap d) (l ++ u ++ s) read_error
| rj_map_value d l n u es k bs s x : code 8 l n -> accepts_entries c d u es -> lenN es < n ->
    wellformed bs -> block k bs -> rejects c d s x -> rejects c (DMap d) (l ++ u ++ k ++ s) x
| rj_struct_unknown ks k rest fields ds u vs s : NoDup ks -> Forall2 (field_type fields) ks ds -> accepts_all c ds u vs ->
    ~ In k (map fst fields) -> rejects c (DStruct (ks ++ k :: rest) fields) (u ++ s) (inr PTodo)
| rj_struct_repeated ks k rest fields ds u vs s : NoDup ks -> Forall2 (field_type fields) ks ds -> accepts_all c ds u vs ->
    In k ks -> rejects c (DStruct (ks ++ k :: rest) fields) (u ++ s) (inl EMsg)
| rj_struct_field ks k rest fields ds d u vs s x : NoDup ks -> Forall2 (field_type fields) ks ds -> accepts_all c ds u vs ->
    ~ In k ks -> field_type fields k d -> rejects c d s x -> rejects c (DStruct (ks ++ k :: rest) fields) (u ++ s) x
| rj_struct_missing keys fields ds u vs s k d : NoDup keys -> Forall2 (field_type fields) keys ds -> accepts_all c ds u vs ->
    field_type fields k d -> ~ In k keys -> (forall d', d <> DOption d') ->
    rejects c (DStruct keys fields) (u ++ s) (inl EMsg)
| rj_enum_index vs s : short 2 s -> rejects c (DEnum vs) s read_error
| rj_enum_unknown vs l i s : code 2 l i -> lenN vs <= i -> rejects c (DEnum vs) (l ++ s) (inl EMsg)
| rj_enum vs l i k d s x : code 2 l i -> pickN vs i = Some (k, d) -> rejects c d s x -> rejects c (DEnum vs) (l ++ s) x
| rj_biguint s : no_block s -> rejects c DBigUint s read_error
| rj_bigint s : no_block s -> rejects c DBigInt s read_error
| rj_decimal s : no_decimal s -> rejects c DBigDecimal s read_error
| rj_date s x : no_date c s x -> rejects c DDate s x
| rj_date_time s : no_date_time s -> rejects c DDateTime s read_error
| rj_i128 s : rejects c DI128 s (inl EMsg)
| rj_u128 s : rejects c DU128 s (inl EMsg)
| rj_str s : rejects c DStr s (inr PTodo)
| rj_bytes s : rejects c DBytes s (inr PTodo)
| rj_any s : rejects c DAny s (inr PTodo)
| rj_ignored s : rejects c DIgnored s (inr PTodo)
with rejects_one (c : cfg) : list dty -> list N -> fault -> Prop :=
| ro_here d ds s x : rejects c d s x -> rejects_one c (d :: ds) s x
| ro_later d ds u v s x : accepts c d u v -> rejects_one c ds s x -> rejects_one c (d :: ds) (u ++ s) x.

(** Why a vector of n bodies cannot be allocated. *)
Definition no_room (c : cfg) (n : N) (q : panic) : Prop :=
  let size := n * size_of_body c in
  (2 ^ (usize_bits c - 1) <= size /\ q = PCapacity) \/
  (size < 2 ^ (usize_bits c - 1) /\ heap_limit c < size /\ q = PAlloc).

Inductive body_rejects (c : cfg) : header -> list N -> fault -> Prop :=
| br_none h s : no_bool s -> body_rejects c (HOptional h) s read_error
| br_some h s x : body_rejects c h s x -> body_rejects c (HOptional h) (1 :: s) x
| br_bool s : no_bool s -> body_rejects c HBoolean s read_error
| br_u8 : body_rejects c HUInt8 [] read_error
| br_u16 s : short 2 s -> body_rejects c HUInt16 s read_error
| br_u32 s : short 4 s -> body_rejects c HUInt32 s read_error
| br_u64 s : short 8 s -> body_rejects c HUInt64 s read_error
| br_i8 : body_rejects c HInt8 [] read_error
| br_i16 s : short 2 s -> body_rejects c HInt16 s read_error
| br_i32 s : short 4 s -> body_rejects c HInt32 s read_error
| br_i64 s : short 8 s -> body_rejects c HInt64 s read_error
| br_f32 s : (length s < 4)%nat -> body_rejects c HFloat32 s read_error
| br_f64 s : (length s < 8)%nat -> body_rejects c HFloat64 s read_error
| br_biguint s : no_block s -> body_rejects c HBigUInt s read_error
| br_bigint s : no_block s -> body_rejects c HBigInt s read_error
| br_decimal s : no_decimal s -> body_rejects c HBigDecimal s read_error
| br_string s : no_text s -> body_rejects c HString s read_error
| br_binary s : no_block s -> body_rejects c HBinary s read_error
| br_array_count h s : short 8 s -> body_rejects c (HArray h) s read_error
| br_array_room h l n s q : code 8 l n -> no_room c n q -> body_rejects c (HArray h) (l ++ s) (inr q)
| br_array h l n u bs s x : code 8 l n -> (forall q, ~ no_room c n q) ->
    bodies_accept c (map (fun _ => h) bs) u bs -> lenN bs < n -> body_rejects c h s x ->
    body_rejects c (HArray h) (l ++ u ++ s) x
| br_tuple_room hs s q : no_room c (lenN hs) q -> body_rejects c (HTuple hs) s (inr q)
| br_tuple hs s x : (forall q, ~ no_room c (lenN hs) q) -> bodies_reject c hs s x -> body_rejects c (HTuple hs) s x
| br_map_count h s : short 8 s -> body_rejects c (HMap h) s read_error
| br_map_key h l n u es s : code 8 l n -> body_entries_accept c h u es -> lenN es < n ->
    no_text s -> body_rejects c (HMap h) (l ++ u ++ s) read_error
| br_map_value h l n u es k bs s x : code 8 l n -> body_entries_accept c h u es -> lenN es < n ->
    wellformed bs -> block k bs -> body_rejects c h s x -> body_rejects c (HMap h) (l ++ u ++ k ++ s) x
| br_enum_index hs s : short 4 s -> body_rejects c (HEnum hs) s read_error
| br_enum_unknown hs l i s : code 4 l i -> lenN hs <= i -> body_rejects c (HEnum hs) (l ++ s) read_error
| br_enum hs l i h s x : code 4 l i -> pickN hs i = Some h -> body_rejects c h s x -> body_rejects c (HEnum hs) (l ++ s) x
| br_date s x : no_date c s x -> body_rejects c HDate s x
| br_date_time s : no_date_time s -> body_rejects c HDateTime s read_error
with bodies_reject (c : cfg) : list header -> list N -> fault -> Prop :=
| brs_here h hs s x : body_rejects c h s x -> bodies_reject c (h :: hs) s x
| brs_later h hs u b s x : body_accepts c h u b -> bodies_reject c hs s x -> bodies_reject c (h :: hs) (u ++ s) x.

(** Headers: an unassigned code, or an input that ends too early. *)
Inductive header_rejects : list N -> derr -> Prop :=
| hr_end : header_rejects [] EIo
| hr_unknown b s : (forall k, ~ In (b, k) code_table) -> header_rejects (b :: s) EInvalid
| hr_box b f s e : In (b, Box f) code_table -> header_rejects s e -> header_rejects (b :: s) e
| hr_count b f s : In (b, Members f) code_table -> short 2 s -> header_rejects (b :: s) EIo
| hr_member b f l n u hs s e : In (b, Members f) code_table -> code 2 l n -> headers_wire false u hs -> lenN hs < n ->
    header_rejects s e -> header_rejects (b :: l ++ u ++ s) e.
