(** * Types of the standard library.

    Their Serialize and Deserialize impls are serde's (a dependency, not in /repo), transcribed from
    serde 1.0's ser/impls.rs and de/impls.rs: the calls made on dlhn's Serializer and Deserializer,
    which answer as in ser.rs and de.rs. Both declare themselves binary (ser.rs:262-265,
    de.rs:384-387), so addresses are octets. OsString and SystemTime as on Unix. Also maps with such
    values, and structs and enums with such fields, as serde_derive reads and writes them. Not
    modelled: Rc and the like (transparent), and std's errors on borrowed or poisoned cells. *)
From Coq Require Import String.
From Verif Require Import Base Varint Utf8 Serde.
Local Open Scope list_scope.
Local Open Scope N_scope.

(** Values. [XPlain]: of a type of Serde.v, and the NonZero integers. A set is the list of its
    members in order, a map that of its entries in the order of keys. [XTime]: seconds since 1970
    (rounded down) and nanoseconds above them. *)
Inductive stdval : Type :=
| XPlain (v : sval)
| XNone | XSome (v : stdval)
| XSeq (l : list stdval)
| XTuple (l : list stdval)
| XRange (a b : stdval)
| XRangeInclusive (a b : stdval) (exhausted : bool)
| XUnbounded | XIncluded (v : stdval) | XExcluded (v : stdval)
| XOk (v : stdval) | XErr (v : stdval)
| XDuration (secs nanos : N)
| XTime (secs : Z) (nanos : N)
| XCString (bs : list N) | XOsString (bs : list N) | XPath (bs : list N)
| XIp4 (octets : list N) | XIp6 (octets : list N)
| XV4 (v : stdval) | XV6 (v : stdval)
| XSock4 (octets : list N) (port : N)
| XSock6 (octets : list N) (port flowinfo scope : N)
| XDict (m : list (list N * stdval))
| XRecord (fs : list (string * stdval))
| XVariant (k : vkind) (i : N) (v : stdval).

(** Types. [TVec]: Vec, VecDeque, LinkedList, boxed slices. [TSet cmp t]: BTreeSet<t>, [cmp] is the
    members' Ord. [TArray n t]: [t; n]. [TMap t]: BTreeMap<String, t>. [TStruct], [TEnum]: with derived
    impls and named fields, payloads as in Serde.v (a newtype struct is its field, a tuple struct a
    tuple). *)
Inductive stdty : Type :=
| TPlain (d : dty)
| TNonZero (d : dty)
| TOption (t : stdty)
| TVec (t : stdty)
| TSet (cmp : stdval -> stdval -> comparison) (t : stdty)
| TArray (n : nat) (t : stdty)
| TTuple (ts : list stdty)
| TRange (t : stdty) | TRangeInclusive (t : stdty)
| TBound (t : stdty)
| TResult (t e : stdty)
| TDuration | TSystemTime
| TCString | TOsString | TPathBuf
| TIp4 | TIp6 | TIpAddr
| TSock4 | TSock6 | TSockAddr
| TMap (t : stdty)
| TStruct (fs : list (string * stdty))
| TEnum (vs : list (vkind * stdty)).

Definition octet_tuple (l : list N) : sval := STuple (map SU8 l).

(** Serialize. SystemTime::serialize asks duration_since(UNIX_EPOCH) and refuses times before it;
    Path::serialize refuses text that is not UTF-8; SocketAddrV6 writes ip and port. *)
Fixpoint std_sval (v : stdval) : sval :=
  match v with
  | XPlain v => v
  | XNone => SNone
  | XSome v => SSome (std_sval v)
  | XSeq l => SSeq (Some (lenN l)) (map std_sval l)
  | XTuple l => STuple (map std_sval l)
  | XRange a b | XRangeInclusive a b _ => SStruct [("start"%string, std_sval a); ("end"%string, std_sval b)]
  | XUnbounded => SUnitVariant 0
  | XIncluded v => SNewtypeVariant 1 (std_sval v)
  | XExcluded v => SNewtypeVariant 2 (std_sval v)
  | XOk v => SNewtypeVariant 0 (std_sval v)
  | XErr v => SNewtypeVariant 1 (std_sval v)
  | XDuration secs nanos => SStruct [("secs"%string, SU64 secs); ("nanos"%string, SU32 nanos)]
  | XTime secs nanos =>
      if (secs <? 0)%Z then SError
      else SStruct [("secs_since_epoch"%string, SU64 (Z.to_N secs)); ("nanos_since_epoch"%string, SU32 nanos)]
  | XCString bs => SBytes bs
  | XOsString bs => SNewtypeVariant 0 (vec_u8 bs)
  | XPath bs => if utf8_valid bs then SStr bs else SError
  | XIp4 l | XIp6 l => octet_tuple l
  | XV4 v => SNewtypeVariant 0 (std_sval v)
  | XV6 v => SNewtypeVariant 1 (std_sval v)
  | XSock4 l port => STuple [octet_tuple l; SU16 port]
  | XSock6 l port _ _ => STuple [octet_tuple l; SU16 port]
  | XDict m => SMap (Some (lenN m)) (map (fun kv => (SStr (fst kv), std_sval (snd kv))) m)
  | XRecord fs => SStruct (map (fun kv => (fst kv, std_sval (snd kv))) fs)
  | XVariant k i v => variant_sval k i (std_sval v)
  end.

(** BTreeSet::insert, members in order; a member equal to the new one stays. *)
Fixpoint set_insert (cmp : stdval -> stdval -> comparison) (x : stdval) (m : list stdval) : list stdval :=
  match m with
  | [] => [x]
  | y :: t => match cmp x y with Lt => x :: m | Eq => m | Gt => y :: set_insert cmp x t end
  end.
Definition set_of (cmp : stdval -> stdval -> comparison) (l : list stdval) : list stdval :=
  fold_left (fun m x => set_insert cmp x m) l [].

(** serde's variant identifiers: deserialize_identifier (de.rs:369-374), then visit_u64. *)
Definition std_enum (alts : list (prog stdval)) : prog stdval :=
  i <- de_u16 ;; match pickN alts i with Some p => p | None => Fail EMsg end.

Definition NANOS_PER_SEC : N := 1000000000.
(** DurationVisitor::visit_map, check_overflow, Duration::new *)
Definition duration_de (first second : string) : prog (N * N) :=
  l <- de_struct [first; second] [(first, de_u64); (second, de_u32)] [None; None] ;;
  match l with
  | [secs; nanos] =>
    if secs + nanos / NANOS_PER_SEC <? 2 ^ 64
    then Ret (secs + nanos / NANOS_PER_SEC, nanos mod NANOS_PER_SEC) else Fail EMsg
  | _ => Fail EMsg
  end.
(** RangeVisitor::visit_map *)
Definition range_de (p : prog stdval) (miss : option stdval) (mk : stdval -> stdval -> stdval) : prog stdval :=
  l <- de_struct ["start"; "end"]%string [("start"%string, p); ("end"%string, p)] [miss; miss] ;;
  match l with [a; b] => Ret (mk a b) | _ => Fail EMsg end.

(** As [Serde.de_enum]. *)
Definition user_enum (alts : list (N -> prog stdval)) : prog stdval :=
  i <- de_u16 ;; match pickN alts i with Some alt => alt i | None => Fail EMsg end.

Definition std_missing (t : stdty) : option stdval :=
  match t with TPlain d => option_map XPlain (missing d) | TOption _ => Some XNone | _ => None end.

Definition is_zero (v : sval) : bool :=
  match v with
  | SU8 n | SU16 n | SU32 n | SU64 n => n =? 0
  | SI8 z | SI16 z | SI32 z | SI64 z => (z =? 0)%Z
  | _ => false
  end.

Definition octets_de (n : nat) : prog (list N) := sequence (repeat de_u8 n).

(** Deserialize. *)
Fixpoint std_de (c : cfg) (t : stdty) {struct t} : prog stdval :=
  match t with
  | TPlain d => pmap XPlain (de c d)
  | TNonZero d => v <- de c d ;; if is_zero v then Fail EMsg else Ret (XPlain v)
  | TOption t => pmap (fun o => match o with Some v => XSome v | None => XNone end) (de_option (std_de c t))
  | TVec t => pmap XSeq (de_vec c (std_de c t))
  | TSet cmp t => pmap (fun l => XSeq (set_of cmp l)) (de_vec c (std_de c t))
  | TArray n t => pmap XTuple (sequence (repeat (std_de c t) n))
  | TTuple ts => pmap XTuple (sequence (map (std_de c) ts))
  | TRange t => range_de (std_de c t) (std_missing t) XRange
  | TRangeInclusive t => range_de (std_de c t) (std_missing t) (fun a b => XRangeInclusive a b false)
  | TBound t => std_enum [Ret XUnbounded; pmap XIncluded (std_de c t); pmap XExcluded (std_de c t)]
  | TResult t e => std_enum [pmap XOk (std_de c t); pmap XErr (std_de c e)]
  | TDuration => pmap (fun p => XDuration (fst p) (snd p)) (duration_de "secs" "nanos")
  | TSystemTime =>   (* UNIX_EPOCH.checked_add: seconds are an i64 *)
      p <- duration_de "secs_since_epoch" "nanos_since_epoch" ;;
      if fst p <? 2 ^ 63 then Ret (XTime (Z.of_N (fst p)) (snd p)) else Fail EMsg
  | TCString =>      (* deserialize_byte_buf, CString::new *)
      bs <- de_byte_buf c ;; if existsb (N.eqb 0) bs then Fail EMsg else Ret (XCString bs)
  | TOsString => std_enum [pmap XOsString (de_vec c de_u8); Fail EMsg]
  | TPathBuf => pmap XPath (de_string c)
  | TIp4 => pmap XIp4 (octets_de 4)
  | TIp6 => pmap XIp6 (octets_de 16)
  | TIpAddr => std_enum [pmap XV4 (pmap XIp4 (octets_de 4)); pmap XV6 (pmap XIp6 (octets_de 16))]
  | TSock4 => l <- octets_de 4 ;; port <- de_u16 ;; Ret (XSock4 l port)
  | TSock6 => l <- octets_de 16 ;; port <- de_u16 ;; Ret (XSock6 l port 0 0)
  | TSockAddr =>
      std_enum [l <- octets_de 4 ;; port <- de_u16 ;; Ret (XV4 (XSock4 l port));
                l <- octets_de 16 ;; port <- de_u16 ;; Ret (XV6 (XSock6 l port 0 0))]
  | TMap t => pmap XDict (de_map c (std_de c t))
  | TStruct fs =>
      pmap (fun l => XRecord (combine (map fst fs) l))
           (de_struct (map fst fs) (map (fun nf => (fst nf, std_de c (snd nf))) fs)
                      (map (fun nf => std_missing (snd nf)) fs))
  | TEnum vs => user_enum (map (fun v i => pmap (XVariant (fst v) i) (std_de c (snd v))) vs)
  end.
