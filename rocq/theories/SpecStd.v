(** * What standard library types are on the wire, without the model's readers and writers. *)
From Coq Require Import List NArith ZArith String.
From Verif Require Import Base Serde Typing Std.
Import ListNotations.
Local Open Scope list_scope.
Local Open Scope N_scope.

(** An Ord impl: total preorder. *)
Definition lawful {A} (cmp : A -> A -> comparison) : Prop :=
  (forall x y, cmp y x = CompOpp (cmp x y)) /\
  (forall x y z, cmp x y = Lt -> cmp y z = Lt -> cmp x z = Lt) /\
  (forall x y z, cmp x y = Eq -> cmp x z = cmp y z).
Fixpoint increasing {A} (cmp : A -> A -> comparison) (l : list A) : Prop :=
  match l with [] => True | x :: t => Forall (fun y => cmp x y = Lt) t /\ increasing cmp t end.
(** [m]: the set of the members of [l], the first of those that are equal. *)
Definition set_of_members {A} (cmp : A -> A -> comparison) (l m : list A) : Prop :=
  increasing cmp m /\
  (forall x, In x l -> exists y, In y m /\ cmp x y = Eq) /\
  (forall y, In y m -> exists l1 l2, l = l1 ++ y :: l2 /\ Forall (fun x => cmp x y <> Eq) l1).

(** The type a standard library type is written as. *)
Definition duration_wire : dty := DTuple [DU64; DU32].
Definition ip4_wire : dty := DTuple (repeat DU8 4).
Definition ip6_wire : dty := DTuple (repeat DU8 16).
Fixpoint wire (t : stdty) : dty :=
  match t with
  | TPlain d | TNonZero d => d
  | TOption t => DOption (wire t)
  | TVec t | TSet _ t => DVec (wire t)
  | TArray n t => DTuple (repeat (wire t) n)
  | TTuple ts => DTuple (map wire ts)
  | TRange t | TRangeInclusive t => DTuple [wire t; wire t]
  | TBound t => DEnum [(KUnit, DUnit); (KNewtype, wire t); (KNewtype, wire t)]
  | TResult t e => DEnum [(KNewtype, wire t); (KNewtype, wire e)]
  | TDuration | TSystemTime => duration_wire
  | TCString => DByteBuf
  | TOsString => DEnum [(KNewtype, DVec DU8)]
  | TPathBuf => DString
  | TIp4 => ip4_wire
  | TIp6 => ip6_wire
  | TIpAddr => DEnum [(KNewtype, ip4_wire); (KNewtype, ip6_wire)]
  | TSock4 => DTuple [ip4_wire; DU16]
  | TSock6 => DTuple [ip6_wire; DU16]
  | TSockAddr => DEnum [(KNewtype, DTuple [ip4_wire; DU16]); (KNewtype, DTuple [ip6_wire; DU16])]
  | TMap t => DMap (wire t)
  | TStruct fs => DStruct (map fst fs) (map (fun nf => (fst nf, wire (snd nf))) fs)
  | TEnum vs => DEnum (map (fun v => (fst v, wire (snd v))) vs)
  end.

(** Sets in the type have lawful orders, fields of a struct different names, and variants the
    payload of their kind. *)
Definition payload (k : vkind) (t : stdty) : Prop :=
  match k with
  | KUnit => t = TPlain DUnit
  | KNewtype => True
  | KTuple => exists ts, t = TTuple ts
  | KStruct => exists fs, t = TStruct fs
  end.
Fixpoint proper (t : stdty) : Prop :=
  match t with
  | TMap t => proper t
  | TStruct fs => NoDup (map fst fs) /\ fold_right (fun nf P => proper (snd nf) /\ P) True fs
  | TEnum vs => fold_right (fun v P => (payload (fst v) (snd v) /\ proper (snd v)) /\ P) True vs
  | TSet cmp t => lawful cmp /\ proper t
  | TOption t | TVec t | TArray _ t | TRange t | TRangeInclusive t | TBound t => proper t
  | TTuple ts => fold_right (fun t P => proper t /\ P) True ts
  | TResult t e => proper t /\ proper e
  | _ => True
  end.

Definition zero (w : sval) : Prop :=
  In w [SU8 0; SU16 0; SU32 0; SU64 0; SI8 0; SI16 0; SI32 0; SI64 0].

(** [stands t w v]: the wire value [w] is read as [v]. A wire value that stands for nothing is
    refused. *)
Inductive stands : stdty -> sval -> stdval -> Prop :=
| st_plain d w : stands (TPlain d) w (XPlain w)
| st_nonzero d w : ~ zero w -> stands (TNonZero d) w (XPlain w)
| st_none t : stands (TOption t) SNone XNone
| st_some t w v : stands t w v -> stands (TOption t) (SSome w) (XSome v)
| st_vec t n ws vs : Forall2 (stands t) ws vs -> stands (TVec t) (SSeq n ws) (XSeq vs)
| st_set cmp t n ws vs m : Forall2 (stands t) ws vs -> set_of_members cmp vs m ->
    stands (TSet cmp t) (SSeq n ws) (XSeq m)
| st_array n t ws vs : Forall2 (stands t) ws vs -> stands (TArray n t) (STuple ws) (XTuple vs)
| st_tuple ts ws vs : all_stand ts ws vs -> stands (TTuple ts) (STuple ws) (XTuple vs)
| st_range t wa wb a b : stands t wa a -> stands t wb b -> stands (TRange t) (STuple [wa; wb]) (XRange a b)
| st_range_inclusive t wa wb a b : stands t wa a -> stands t wb b ->
    stands (TRangeInclusive t) (STuple [wa; wb]) (XRangeInclusive a b false)
| st_unbounded t : stands (TBound t) (SUnitVariant 0) XUnbounded
| st_included t w v : stands t w v -> stands (TBound t) (SNewtypeVariant 1 w) (XIncluded v)
| st_excluded t w v : stands t w v -> stands (TBound t) (SNewtypeVariant 2 w) (XExcluded v)
| st_ok t e w v : stands t w v -> stands (TResult t e) (SNewtypeVariant 0 w) (XOk v)
| st_err t e w v : stands e w v -> stands (TResult t e) (SNewtypeVariant 1 w) (XErr v)
(* nanoseconds of a second and more are carried, unless that overflows *)
| st_duration s n secs nanos : nanos < 10 ^ 9 -> secs < 2 ^ 64 ->
    s * 10 ^ 9 + n = secs * 10 ^ 9 + nanos -> stands TDuration (STuple [SU64 s; SU32 n]) (XDuration secs nanos)
| st_time s n secs nanos : nanos < 10 ^ 9 -> secs < 2 ^ 63 ->
    s * 10 ^ 9 + n = secs * 10 ^ 9 + nanos -> stands TSystemTime (STuple [SU64 s; SU32 n]) (XTime (Z.of_N secs) nanos)
| st_cstring bs : ~ In 0 bs -> stands TCString (SBytes bs) (XCString bs)
| st_osstring n bs : stands TOsString (SNewtypeVariant 0 (SSeq n (map SU8 bs))) (XOsString bs)
| st_path bs : stands TPathBuf (SStr bs) (XPath bs)
| st_ip4 l : stands TIp4 (STuple (map SU8 l)) (XIp4 l)
| st_ip6 l : stands TIp6 (STuple (map SU8 l)) (XIp6 l)
| st_ipaddr_4 w v : stands TIp4 w v -> stands TIpAddr (SNewtypeVariant 0 w) (XV4 v)
| st_ipaddr_6 w v : stands TIp6 w v -> stands TIpAddr (SNewtypeVariant 1 w) (XV6 v)
| st_sock4 l port : stands TSock4 (STuple [STuple (map SU8 l); SU16 port]) (XSock4 l port)
| st_sock6 l port : stands TSock6 (STuple [STuple (map SU8 l); SU16 port]) (XSock6 l port 0 0)
| st_sockaddr_4 w v : stands TSock4 w v -> stands TSockAddr (SNewtypeVariant 0 w) (XV4 v)
| st_sockaddr_6 w v : stands TSock6 w v -> stands TSockAddr (SNewtypeVariant 1 w) (XV6 v)
| st_map t n ws vs : map fst ws = map (fun kv => SStr (fst kv)) vs -> Forall2 (stands t) (map snd ws) (map snd vs) ->
    stands (TMap t) (SMap n ws) (XDict vs)
| st_struct fs ws vs : map fst ws = map fst fs -> map fst vs = map fst fs ->
    all_stand (map snd fs) (map snd ws) (map snd vs) -> stands (TStruct fs) (SStruct ws) (XRecord vs)
| st_variant_unit vs i t v : nth_error vs (N.to_nat i) = Some (KUnit, t) -> stands t SUnit v ->
    stands (TEnum vs) (SUnitVariant i) (XVariant KUnit i v)
| st_variant_newtype vs i t w v : nth_error vs (N.to_nat i) = Some (KNewtype, t) -> stands t w v ->
    stands (TEnum vs) (SNewtypeVariant i w) (XVariant KNewtype i v)
| st_variant_tuple vs i t ws v : nth_error vs (N.to_nat i) = Some (KTuple, t) -> stands t (STuple ws) v ->
    stands (TEnum vs) (STupleVariant i ws) (XVariant KTuple i v)
| st_variant_struct vs i t ws v : nth_error vs (N.to_nat i) = Some (KStruct, t) -> stands t (SStruct ws) v ->
    stands (TEnum vs) (SStructVariant i ws) (XVariant KStruct i v)
with all_stand : list stdty -> list sval -> list stdval -> Prop :=
| as_nil : all_stand [] [] []
| as_cons t w v ts ws vs : stands t w v -> all_stand ts ws vs -> all_stand (t :: ts) (w :: ws) (v :: vs).

(** Some wire values of the type stand for nothing. *)
Fixpoint refusing (t : stdty) : bool :=
  match t with
  | TNonZero _ | TDuration | TSystemTime | TCString => true
  | TOption t | TVec t | TSet _ t | TArray _ t | TRange t | TRangeInclusive t | TBound t => refusing t
  | TTuple ts => existsb refusing ts
  | TResult t e => refusing t || refusing e
  | TMap t => refusing t
  | TStruct fs => existsb (fun nf => refusing (snd nf)) fs
  | TEnum vs => existsb (fun v => refusing (snd v)) vs
  | _ => false
  end.
(** Some values of a map in it may be refused: also one that a later entry replaces. *)
Fixpoint shadowing (t : stdty) : bool :=
  match t with
  | TMap t => refusing t || shadowing t
  | TOption t | TVec t | TSet _ t | TArray _ t | TRange t | TRangeInclusive t | TBound t => shadowing t
  | TTuple ts => existsb shadowing ts
  | TResult t e => shadowing t || shadowing e
  | TStruct fs => existsb (fun nf => shadowing (snd nf)) fs
  | TEnum vs => existsb (fun v => shadowing (snd v)) vs
  | _ => false
  end.

(** [read_as b m R raw o]: how reading a type ends ([o]), given how reading its wire type ends ([raw]):
    the value stood for, or the same failure; with [b] also Message, if the wire value stands for
    nothing (with [m]: or perhaps because an entry of a map was refused that a later one replaces), or
    because a part was refused before the failure was reached. *)
Inductive read_as {W V} (b m : bool) (R : W -> V -> Prop) : outcome W -> outcome V -> Prop :=
| ra_ok w v r : R w v -> read_as b m R (OOk w r) (OOk v r)
| ra_err e : read_as b m R (OErr e) (OErr e)
| ra_panic p : read_as b m R (OPanic p) (OPanic p)
| ra_refused w r : b = true -> m = true \/ (forall v, ~ R w v) -> read_as b m R (OOk w r) (OErr EMsg)
| ra_err_early e : b = true -> read_as b m R (OErr e) (OErr EMsg)
| ra_panic_early p : b = true -> read_as b m R (OPanic p) (OErr EMsg).

(** [comes_back c t v v']: the value [v] of type [t] can be written, and is read back as [v']: itself,
    but for the flow information and scope of an IPv6 socket address and the mark on an inclusive
    range that iteration has used it up, which are lost (and with them members of a set that differ
    in nothing else). Times from 1970 on, paths that are UTF-8. *)
Inductive comes_back (c : cfg) : stdty -> stdval -> stdval -> Prop :=
| cb_plain d w : has_ty c d w = true -> comes_back c (TPlain d) (XPlain w) (XPlain w)
| cb_nonzero d w : has_ty c d w = true -> ~ zero w -> comes_back c (TNonZero d) (XPlain w) (XPlain w)
| cb_none t : comes_back c (TOption t) XNone XNone
| cb_some t v v' : comes_back c t v v' -> comes_back c (TOption t) (XSome v) (XSome v')
| cb_vec t l l' : lenN l < 2 ^ usize_bits c -> Forall2 (comes_back c t) l l' -> comes_back c (TVec t) (XSeq l) (XSeq l')
| cb_set cmp t l l' m : lenN l < 2 ^ usize_bits c -> Forall2 (comes_back c t) l l' -> set_of_members cmp l' m ->
    comes_back c (TSet cmp t) (XSeq l) (XSeq m)
| cb_array n t l l' : length l = n -> Forall2 (comes_back c t) l l' -> comes_back c (TArray n t) (XTuple l) (XTuple l')
| cb_tuple ts l l' : all_back c ts l l' -> comes_back c (TTuple ts) (XTuple l) (XTuple l')
| cb_range t a b a' b' : comes_back c t a a' -> comes_back c t b b' -> comes_back c (TRange t) (XRange a b) (XRange a' b')
| cb_range_inclusive t a b x a' b' : comes_back c t a a' -> comes_back c t b b' ->
    comes_back c (TRangeInclusive t) (XRangeInclusive a b x) (XRangeInclusive a' b' false)
| cb_unbounded t : comes_back c (TBound t) XUnbounded XUnbounded
| cb_included t v v' : comes_back c t v v' -> comes_back c (TBound t) (XIncluded v) (XIncluded v')
| cb_excluded t v v' : comes_back c t v v' -> comes_back c (TBound t) (XExcluded v) (XExcluded v')
| cb_ok t e v v' : comes_back c t v v' -> comes_back c (TResult t e) (XOk v) (XOk v')
| cb_err t e v v' : comes_back c e v v' -> comes_back c (TResult t e) (XErr v) (XErr v')
| cb_duration secs nanos : secs < 2 ^ 64 -> nanos < 10 ^ 9 -> comes_back c TDuration (XDuration secs nanos) (XDuration secs nanos)
| cb_time secs nanos : (0 <= secs < 2 ^ 63)%Z -> nanos < 10 ^ 9 -> comes_back c TSystemTime (XTime secs nanos) (XTime secs nanos)
| cb_cstring bs : bytes_ok bs -> ~ In 0 bs -> lenN bs < 2 ^ usize_bits c -> comes_back c TCString (XCString bs) (XCString bs)
| cb_osstring bs : bytes_ok bs -> lenN bs < 2 ^ usize_bits c -> comes_back c TOsString (XOsString bs) (XOsString bs)
| cb_path bs : str_ok c bs = true -> comes_back c TPathBuf (XPath bs) (XPath bs)
| cb_ip4 l : bytes_ok l -> length l = 4%nat -> comes_back c TIp4 (XIp4 l) (XIp4 l)
| cb_ip6 l : bytes_ok l -> length l = 16%nat -> comes_back c TIp6 (XIp6 l) (XIp6 l)
| cb_ipaddr_4 v v' : comes_back c TIp4 v v' -> comes_back c TIpAddr (XV4 v) (XV4 v')
| cb_ipaddr_6 v v' : comes_back c TIp6 v v' -> comes_back c TIpAddr (XV6 v) (XV6 v')
| cb_sock4 l port : bytes_ok l -> length l = 4%nat -> port < 2 ^ 16 -> comes_back c TSock4 (XSock4 l port) (XSock4 l port)
| cb_sock6 l port flowinfo scope : bytes_ok l -> length l = 16%nat -> port < 2 ^ 16 ->
    comes_back c TSock6 (XSock6 l port flowinfo scope) (XSock6 l port 0 0)
| cb_sockaddr_4 v v' : comes_back c TSock4 v v' -> comes_back c TSockAddr (XV4 v) (XV4 v')
| cb_sockaddr_6 v v' : comes_back c TSock6 v v' -> comes_back c TSockAddr (XV6 v) (XV6 v')
| cb_map t m m' : lenN m < 2 ^ usize_bits c -> sorted_keys m = true -> Forall (fun kv => str_ok c (fst kv) = true) m ->
    map fst m' = map fst m -> Forall2 (comes_back c t) (map snd m) (map snd m') -> comes_back c (TMap t) (XDict m) (XDict m')
| cb_struct fs l l' : map fst l = map fst fs -> map fst l' = map fst fs ->
    all_back c (map snd fs) (map snd l) (map snd l') -> comes_back c (TStruct fs) (XRecord l) (XRecord l')
| cb_variant vs k i t v v' : nth_error vs (N.to_nat i) = Some (k, t) -> comes_back c t v v' ->
    comes_back c (TEnum vs) (XVariant k i v) (XVariant k i v')
with all_back (c : cfg) : list stdty -> list stdval -> list stdval -> Prop :=
| ab_nil : all_back c [] [] []
| ab_cons t v v' ts vs vs' : comes_back c t v v' -> all_back c ts vs vs' -> all_back c (t :: ts) (v :: vs) (v' :: vs').
