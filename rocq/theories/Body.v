(** * Model of dlhn/src/body/mod.rs. *)
From Coq Require Import String.
From Verif Require Import Base Varint Utf8 Serde Header.
Local Open Scope list_scope.
Local Open Scope N_scope.

(** body/mod.rs:6-35. Floats are bit patterns; strings, binaries and wrapped big numbers are
    byte lists; a BTreeMap is the list of its entries. *)
Inductive body : Type :=
| BUnit | BOptional (o : option body) | BBoolean (b : bool)
| BUInt8 (n : N) | BUInt16 (n : N) | BUInt32 (n : N) | BUInt64 (n : N)
| BInt8 (z : Z) | BInt16 (z : Z) | BInt32 (z : Z) | BInt64 (z : Z)
| BFloat32 (bits : N) | BFloat64 (bits : N)
| BBigUInt (bs : list N) | BBigInt (bs : list N) | BBigDecimal (bs : list N) (scale : Z)
| BString (bs : list N) | BBinary (bs : list N)
| BArray (l : list body)
| BTuple (l : list body)
| BMap (m : list (list N * body))
| BEnum (i : N) (b : body)
| BDate (year : Z) (ordinal : N)
| BDateTime (ts : Z) (ns : N).

(** body/mod.rs:37-77 impl Serialize for Body *)
Fixpoint body_sval (c : cfg) (b : body) {struct b} : sval :=
  match b with
  | BUnit => SUnit
  | BOptional None => SNone
  | BOptional (Some b) => SSome (body_sval c b)
  | BBoolean b => SBool b
  | BUInt8 n => SU8 n | BUInt16 n => SU16 n | BUInt32 n => SU32 n | BUInt64 n => SU64 n
  | BInt8 z => SI8 z | BInt16 z => SI16 z | BInt32 z => SI32 z | BInt64 z => SI64 z
  | BFloat32 n => SF32 n | BFloat64 n => SF64 n
  | BBigUInt bs => big_sval bs
  | BBigInt bs => big_sval bs
  | BBigDecimal bs s => big_decimal_sval bs s
  | BString bs => SStr bs
  | BBinary bs => SBytes bs
  | BArray l => SSeq (Some (lenN l)) (map (body_sval c) l)
  | BTuple l => STuple (map (body_sval c) l)
  | BMap m => SMap (Some (lenN m)) (map (fun kv => (SStr (fst kv), body_sval c (snd kv))) m)
  | BEnum i b => SNewtypeVariant i (body_sval c b)
  | BDate y o => date_sval c y o
  | BDateTime t n => date_time_sval t n
  end.

Definition bser (c : cfg) (b : body) : wprog := ser (body_sval c b).

(** body/mod.rs:79-158 Body::deserialize *)
Fixpoint bde (c : cfg) (h : header) {struct h} : prog body :=
  match h with
  | HUnit => Ret BUnit
  | HOptional h => pmap BOptional (de_option (bde c h))                    (* 86-95 *)
  | HBoolean => pmap BBoolean de_bool
  | HUInt8 => pmap BUInt8 de_u8 | HUInt16 => pmap BUInt16 de_u16
  | HUInt32 => pmap BUInt32 de_u32 | HUInt64 => pmap BUInt64 de_u64
  | HInt8 => pmap BInt8 de_i8 | HInt16 => pmap BInt16 de_i16
  | HInt32 => pmap BInt32 de_i32 | HInt64 => pmap BInt64 de_i64
  | HFloat32 => pmap BFloat32 de_f32 | HFloat64 => pmap BFloat64 de_f64
  | HBigUInt => pmap BBigUInt (de_big c)
  | HBigInt => pmap BBigInt (de_big c)
  | HBigDecimal => pmap (fun p => BBigDecimal (fst p) (snd p)) (de_big_decimal c)
  | HString => pmap BString (de_string c)
  | HBinary => pmap BBinary (de_byte_buf c)
  | HArray h =>                                                            (* 114-121 *)
      len <- de_u64 ;;
      Alloc (as_usize c len * size_of_body c) (pmap BArray (repeatN len (bde c h)))
  | HTuple hs =>                                                           (* 122-128 *)
      Alloc (lenN hs * size_of_body c) (pmap BTuple (sequence (map (bde c) hs)))
  | HMap h =>                                                              (* 136-146 *)
      len <- de_u64 ;; pmap BMap (de_map_n c len (bde c h))
  | HEnum hs =>                                                            (* 147-154 *)
      i <- de_u32 ;;
      match pickN (map (bde c) hs) (as_usize c i) with
      | Some p => pmap (BEnum i) p
      | None => Fail ERead
      end
  | HDate => pmap (fun p => BDate (fst p) (snd p)) (de_date c)
  | HDateTime => pmap (fun p => BDateTime (fst p) (snd p)) de_date_time
  end.

(** body/mod.rs:160-217 Body::validate *)
Fixpoint all2 {A B} (f : A -> B -> bool) (l : list A) (m : list B) : bool :=
  match l, m with
  | a :: l', b :: m' => f a b && all2 f l' m'
  | _, _ => true       (* zip stops at the shorter list *)
  end.
Fixpoint validate (h : header) (b : body) {struct h} : bool :=
  match h, b with
  | HUnit, BUnit => true
  | HOptional h, BOptional o => match o with Some v => validate h v | None => true end
  | HBoolean, BBoolean _ => true
  | HUInt8, BUInt8 _ | HUInt16, BUInt16 _ | HUInt32, BUInt32 _ | HUInt64, BUInt64 _ => true
  | HInt8, BInt8 _ | HInt16, BInt16 _ | HInt32, BInt32 _ | HInt64, BInt64 _ => true
  | HFloat32, BFloat32 _ | HFloat64, BFloat64 _ => true
  | HBigUInt, BBigUInt _ | HBigInt, BBigInt _ | HBigDecimal, BBigDecimal _ _ => true
  | HString, BString _ | HBinary, BBinary _ => true
  | HArray h, BArray l => forallb (validate h) l
  | HTuple hs, BTuple l =>
      (length hs =? length l)%nat && all2 (fun f b => f b) (map validate hs) l
  | HMap h, BMap m => forallb (fun kv => validate h (snd kv)) m
  | HEnum hs, BEnum i b =>
      match pickN (map validate hs) i with Some f => f b | None => false end
  | HDate, BDate _ _ | HDateTime, BDateTime _ _ => true
  | _, _ => false
  end.
