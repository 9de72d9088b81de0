(** * Changes of a type under which data written before stays readable.

    [upgrade d d' f]: data written as [d] can be read as [d'], and a value [v] then becomes [f v]. *)
From Coq Require Import String.
From Verif Require Import Base Serde SpecUtf8 Typing.
Local Open Scope list_scope.
Local Open Scope N_scope.

(** Number and content of an enum value; the variant of a given shape. *)
Definition content (v : sval) : option (N * sval) :=
  match v with
  | SUnitVariant i => Some (i, SUnit)
  | SNewtypeVariant i v => Some (i, v)
  | STupleVariant i l => Some (i, STuple l)
  | SStructVariant i l => Some (i, SStruct l)
  | _ => None
  end.
Definition variant (k : vkind) (i : N) (v : sval) : sval :=
  match k, v with
  | KUnit, _ => SUnitVariant i
  | KTuple, STuple l => STupleVariant i l
  | KStruct, SStruct l => SStructVariant i l
  | _, v => SNewtypeVariant i v
  end.

(** How values change. Values of other types are left alone. *)
Definition bool_to_u8 (v : sval) : sval := match v with SBool b => SU8 (if b then 1 else 0) | v => v end.
Definition bool_to_option (v : sval) : sval :=
  match v with SBool true => SSome SUnit | SBool false => SNone | v => v end.
Definition char_to_string (v : sval) : sval := match v with SChar ch => SStr (utf8 ch) | v => v end.
Definition string_to_bytes (v : sval) : sval := match v with SStr bs => SBytes bs | v => v end.
Definition bytes_to_vec (v : sval) : sval :=
  match v with SBytes bs => SSeq (Some (lenN bs)) (map SU8 bs) | v => v end.
Definition vec_to_bytes (v : sval) : sval :=
  match v with SSeq (Some _) l => SBytes (map (fun x => match x with SU8 n => n | _ => 0 end) l) | v => v end.
Definition bytes_to_big (v : sval) : sval :=
  match v with SBytes bs => SSeq None [SSeq (Some (lenN bs)) (map SU8 bs)] | v => v end.
Definition big_to_vec (v : sval) : sval := match v with SSeq None [w] => w | v => v end.
Definition to_unit (v : sval) : sval := SUnit.
Definition to_unit_struct (v : sval) : sval := SUnitStruct.
Definition unwrap (v : sval) : sval := match v with SNewtypeStruct v => v | v => v end.
Definition to_tuple (v : sval) : sval :=
  match v with
  | STuple l | STupleStruct l => STuple l
  | SStruct l => STuple (map snd l)
  | SUnit => STuple []
  | v => v
  end.
Definition to_tuple_struct (v : sval) : sval := match v with STuple l => STupleStruct l | v => v end.
Definition to_struct (names : list string) (v : sval) : sval :=
  match v with STuple l => SStruct (combine names l) | v => v end.
Definition single (v : sval) : sval := match v with STuple [v] => v | v => v end.
(** Members of the tuple at position [n] become members of the outer one, and the converse for [k]
    members from position [n]. *)
Definition flatten (n : nat) (v : sval) : sval :=
  match v with
  | STuple l => match skipn n l with STuple m :: t => STuple (firstn n l ++ m ++ t) | _ => v end
  | v => v
  end.
Definition group (n k : nat) (v : sval) : sval :=
  match v with
  | STuple l => STuple (firstn n l ++ STuple (firstn k (skipn n l)) :: skipn k (skipn n l))
  | v => v
  end.
Definition in_option (f : sval -> sval) (v : sval) : sval := match v with SSome v => SSome (f v) | v => v end.
Definition option_to_enum (v : sval) : sval :=
  match v with SNone => SUnitVariant 0 | SSome v => SNewtypeVariant 1 v | v => v end.
Definition in_vec (f : sval -> sval) (v : sval) : sval := match v with SSeq n l => SSeq n (map f l) | v => v end.
Definition in_map (f : sval -> sval) (v : sval) : sval :=
  match v with SMap n l => SMap n (map (fun kv => (fst kv, f (snd kv))) l) | v => v end.
Definition map_to_vec (v : sval) : sval :=
  match v with SMap n l => SSeq n (map (fun kv => STuple [fst kv; snd kv]) l) | v => v end.
Fixpoint each (fs : list (sval -> sval)) (l : list sval) : list sval :=
  match fs, l with f :: fs, v :: l => f v :: each fs l | _, l => l end.
Definition in_tuple (fs : list (sval -> sval)) (v : sval) : sval := match v with STuple l => STuple (each fs l) | v => v end.
Definition in_enum (kinds : list vkind) (fs : list (sval -> sval)) (v : sval) : sval :=
  match content v with
  | Some (i, w) => match pickN (combine kinds fs) i with Some (k, f) => variant k i (f w) | None => v end
  | None => v
  end.

Inductive upgrade : dty -> dty -> (sval -> sval) -> Prop :=
| up_same d : upgrade d d (fun v => v)
| up_then d1 d2 d3 f g : wf_dty d2 = true -> upgrade d1 d2 f -> upgrade d2 d3 g -> upgrade d1 d3 (fun v => g (f v))
(* leaves *)
| up_bool_u8 : upgrade DBool DU8 bool_to_u8
| up_bool_option : upgrade DBool (DOption DUnit) bool_to_option
| up_char_string : upgrade DChar DString char_to_string
| up_string_bytes : upgrade DString DByteBuf string_to_bytes
| up_bytes_vec : upgrade DByteBuf (DVec DU8) bytes_to_vec
| up_vec_bytes : upgrade (DVec DU8) DByteBuf vec_to_bytes
| up_bytes_uint : upgrade DByteBuf DBigUint bytes_to_big
| up_bytes_int : upgrade DByteBuf DBigInt bytes_to_big
| up_uint_vec : upgrade DBigUint (DVec DU8) big_to_vec
| up_int_vec : upgrade DBigInt (DVec DU8) big_to_vec
| up_usize : upgrade DUsize DU64 (fun v => v)
| up_isize : upgrade DIsize DI64 (fun v => v)
| up_date : upgrade DDate (DTuple [DI32; DU16]) to_tuple
| up_date_time : upgrade DDateTime (DTuple [DI64; DU32]) to_tuple
| up_unit_struct : upgrade DUnitStruct DUnit to_unit
| up_to_unit_struct : upgrade DUnit DUnitStruct to_unit_struct
| up_empty_unit : upgrade (DTuple []) DUnit to_unit
| up_unit_empty : upgrade DUnit (DTuple []) to_tuple
(* names, and what is nested in what, are not written *)
| up_unwrap d : upgrade (DNewtypeStruct d) d unwrap
| up_wrap d : upgrade d (DNewtypeStruct d) SNewtypeStruct
| up_tuple_struct ds : upgrade (DTupleStruct ds) (DTuple ds) to_tuple
| up_to_tuple_struct ds : upgrade (DTuple ds) (DTupleStruct ds) to_tuple_struct
| up_struct keys fs : upgrade (DStruct keys fs) (DTuple (map snd fs)) to_tuple
| up_to_struct keys fs : upgrade (DTuple (map snd fs)) (DStruct keys fs) (to_struct (map fst fs))
| up_single d : upgrade (DTuple [d]) d single
| up_to_single d : upgrade d (DTuple [d]) (fun v => STuple [v])
| up_flatten ds1 ds2 ds3 : upgrade (DTuple (ds1 ++ DTuple ds2 :: ds3)) (DTuple (ds1 ++ ds2 ++ ds3)) (flatten (length ds1))
| up_group ds1 ds2 ds3 :
    upgrade (DTuple (ds1 ++ ds2 ++ ds3)) (DTuple (ds1 ++ DTuple ds2 :: ds3)) (group (length ds1) (length ds2))
| up_option_enum d : upgrade (DOption d) (DEnum [(KUnit, DUnit); (KNewtype, d)]) option_to_enum
| up_map_vec d : upgrade (DMap d) (DVec (DTuple [DString; d])) map_to_vec
(* inside a larger type *)
| up_option d d' f : upgrade d d' f -> upgrade (DOption d) (DOption d') (in_option f)
| up_vec d d' f : upgrade d d' f -> upgrade (DVec d) (DVec d') (in_vec f)
| up_map d d' f : upgrade d d' f -> upgrade (DMap d) (DMap d') (in_map f)
| up_tuple ds ds' fs : upgrades ds ds' fs -> upgrade (DTuple ds) (DTuple ds') (in_tuple fs)
(* variants change their content or shape, and more variants follow *)
| up_enum vs vs' ws fs : upgrades (map snd vs) (map snd vs') fs ->
    upgrade (DEnum vs) (DEnum (vs' ++ ws)) (in_enum (map fst vs') fs)
with upgrades : list dty -> list dty -> list (sval -> sval) -> Prop :=
| up_nil : upgrades [] [] []
| up_cons d d' f ds ds' fs : upgrade d d' f -> upgrades ds ds' fs -> upgrades (d :: ds) (d' :: ds') (f :: fs).
