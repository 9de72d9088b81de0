(** * Inputs that end too early (C79).

    Written beside [accepts] and [rejects]: of the inputs that do not decode, those that something
    appended makes decode. The others have a part that is not the start of any code. *)
From Coq Require Import String.
From Verif Require Import Base Serde SpecVarint SpecUtf8 Header Body SpecBody SpecAccept SpecReject.
Local Open Scope list_scope.
Local Open Scope N_scope.

(** s ends inside a varint that may still become a number with P. *)
Definition number_cut (m : nat) (P : N -> Prop) (s : list N) : Prop :=
  short m s /\ exists t n, bytes_ok t /\ code m (s ++ t) n /\ P n.
(** r is the start of n bytes of text: whole characters, and perhaps a part of one that fits. *)
Definition text_start (n : N) (r : list N) : Prop :=
  lenN r < n /\ exists w p, r = w ++ p /\ wellformed w /\
    (p = [] \/ exists ch t, scalar ch /\ utf8 ch = p ++ t /\ lenN w + lenN (utf8 ch) <= n).
Definition text_cut (s : list N) : Prop :=
  short 8 s \/ exists l n r, s = l ++ r /\ code 8 l n /\ text_start n r.

(** Some value of the type has a code. *)
Definition possible (c : cfg) (d : dty) : Prop := exists u v, bytes_ok u /\ accepts c d u v.
Definition possible_all (c : cfg) (ds : list dty) : Prop := exists u vs, bytes_ok u /\ accepts_all c ds u vs.

(** [cut c d s]: s ends inside a code of type d. [cut_all]: inside codes of the types one after another. *)
Inductive cut (c : cfg) : dty -> list N -> Prop :=
| cu_bool : cut c DBool []
| cu_u8 : cut c DU8 []
| cu_u16 s : short 2 s -> cut c DU16 s
| cu_u32 s : short 4 s -> cut c DU32 s
| cu_u64 s : short 8 s -> cut c DU64 s
| cu_usize s : short 8 s -> cut c DUsize s
| cu_i8 : cut c DI8 []
| cu_i16 s : short 2 s -> cut c DI16 s
| cu_i32 s : short 4 s -> cut c DI32 s
| cu_i64 s : short 8 s -> cut c DI64 s
| cu_isize s : short 8 s -> cut c DIsize s
| cu_f32 s : (length s < 4)%nat -> cut c DF32 s
| cu_f64 s : (length s < 8)%nat -> cut c DF64 s
| cu_char s : text_cut s -> cut c DChar s
| cu_string s : text_cut s -> cut c DString s
| cu_buf s : no_block s -> cut c DByteBuf s
| cu_option d : cut c (DOption d) []
| cu_some d s : cut c d s -> cut c (DOption d) (1 :: s)
| cu_newtype d s : cut c d s -> cut c (DNewtypeStruct d) s
| cu_vec_count d s : number_cut 8 (fun n => n = 0 \/ possible c d) s -> cut c (DVec d) s
| cu_vec d l n u vs s : code 8 l n -> accepts_all c (map (fun _ => d) vs) u vs -> lenN vs < n -> cut c d s ->
    cut c (DVec d) (l ++ u ++ s)
| cu_tuple ds s : cut_all c ds s -> cut c (DTuple ds) s
| cu_tuple_struct ds s : cut_all c ds s -> cut c (DTupleStruct ds) s
| cu_map_count d s : number_cut 8 (fun n => n = 0 \/ possible c d) s -> cut c (DMap d) s
| cu_map_key d l n u es s : code 8 l n -> accepts_entries c d u es -> lenN es < n -> text_cut s -> possible c d ->
    cut c (DMap d) (l ++ u ++ s)
| cu_map_value d l n u es k bs s : code 8 l n -> accepts_entries c d u es -> lenN es < n ->
    wellformed bs -> block k bs -> cut c d s -> cut c (DMap d) (l ++ u ++ k ++ s)
| cu_struct keys fields ds s : NoDup keys -> Forall2 (field_type fields) keys ds ->
    (forall f, In f fields -> In (fst f) keys \/ exists d, snd f = DOption d) -> cut_all c ds s -> cut c (DStruct keys fields) s
| cu_index vs s : number_cut 2 (fun i => exists k d, pickN vs i = Some (k, d) /\ possible c d) s -> cut c (DEnum vs) s
| cu_enum vs l i k d s : code 2 l i -> pickN vs i = Some (k, d) -> cut c d s -> cut c (DEnum vs) (l ++ s)
| cu_biguint s : no_block s -> cut c DBigUint s
| cu_bigint s : no_block s -> cut c DBigInt s
| cu_decimal s : no_decimal s -> cut c DBigDecimal s
| cu_date s : no_date c s read_error -> cut c DDate s
| cu_date_time s : no_date_time s -> cut c DDateTime s
with cut_all (c : cfg) : list dty -> list N -> Prop :=
| ca_here d ds s : cut c d s -> possible_all c ds -> cut_all c (d :: ds) s
| ca_later d ds u v s : accepts c d u v -> cut_all c ds s -> cut_all c (d :: ds) (u ++ s).

Definition body_possible (c : cfg) (h : header) : Prop := exists u b, bytes_ok u /\ body_accepts c h u b.
Definition bodies_possible (c : cfg) (hs : list header) : Prop := exists u bs, bytes_ok u /\ bodies_accept c hs u bs.

Inductive body_cut (c : cfg) : header -> list N -> Prop :=
| bc_none h : body_cut c (HOptional h) []
| bc_some h s : body_cut c h s -> body_cut c (HOptional h) (1 :: s)
| bc_bool : body_cut c HBoolean []
| bc_u8 : body_cut c HUInt8 []
| bc_u16 s : short 2 s -> body_cut c HUInt16 s
| bc_u32 s : short 4 s -> body_cut c HUInt32 s
| bc_u64 s : short 8 s -> body_cut c HUInt64 s
| bc_i8 : body_cut c HInt8 []
| bc_i16 s : short 2 s -> body_cut c HInt16 s
| bc_i32 s : short 4 s -> body_cut c HInt32 s
| bc_i64 s : short 8 s -> body_cut c HInt64 s
| bc_f32 s : (length s < 4)%nat -> body_cut c HFloat32 s
| bc_f64 s : (length s < 8)%nat -> body_cut c HFloat64 s
| bc_biguint s : no_block s -> body_cut c HBigUInt s
| bc_bigint s : no_block s -> body_cut c HBigInt s
| bc_decimal s : no_decimal s -> body_cut c HBigDecimal s
| bc_string s : text_cut s -> body_cut c HString s
| bc_binary s : no_block s -> body_cut c HBinary s
| bc_array_count h s : number_cut 8 (fun n => vec_room c n = true /\ (n = 0 \/ body_possible c h)) s -> body_cut c (HArray h) s
| bc_array h l n u bs s : code 8 l n -> vec_room c n = true -> bodies_accept c (map (fun _ => h) bs) u bs -> lenN bs < n ->
    body_cut c h s -> body_cut c (HArray h) (l ++ u ++ s)
| bc_tuple hs s : vec_room c (lenN hs) = true -> bodies_cut c hs s -> body_cut c (HTuple hs) s
| bc_map_count h s : number_cut 8 (fun n => n = 0 \/ body_possible c h) s -> body_cut c (HMap h) s
| bc_map_key h l n u es s : code 8 l n -> body_entries_accept c h u es -> lenN es < n -> text_cut s -> body_possible c h ->
    body_cut c (HMap h) (l ++ u ++ s)
| bc_map_value h l n u es k bs s : code 8 l n -> body_entries_accept c h u es -> lenN es < n ->
    wellformed bs -> block k bs -> body_cut c h s -> body_cut c (HMap h) (l ++ u ++ k ++ s)
| bc_index hs s : number_cut 4 (fun i => exists h, pickN hs i = Some h /\ body_possible c h) s -> body_cut c (HEnum hs) s
| bc_enum hs l i h s : code 4 l i -> pickN hs i = Some h -> body_cut c h s -> body_cut c (HEnum hs) (l ++ s)
| bc_date s : no_date c s read_error -> body_cut c HDate s
| bc_date_time s : no_date_time s -> body_cut c HDateTime s
with bodies_cut (c : cfg) : list header -> list N -> Prop :=
| bcs_here h hs s : body_cut c h s -> bodies_possible c hs -> bodies_cut c (h :: hs) s
| bcs_later h hs u b s : body_accepts c h u b -> bodies_cut c hs s -> bodies_cut c (h :: hs) (u ++ s).
