(** * Reading types of the standard library, with the memory they ask for.

    [std_de] (Std.v) with the requests of Grow.v. serde fills a BTreeSet by inserting the members as
    they are read; CString::new adds a zero to the bytes it is given and gives back what is left of
    their capacity. What these two ask for is std's affair and left open, as [slayout]. [TVec] is a Vec
    here: LinkedList, VecDeque and boxed slices ask for other amounts. *)
From Coq Require Import String.
From Verif Require Import Base Varint Serde Std Grow.
Local Open Scope list_scope.
Local Open Scope N_scope.

Record slayout := SLayout {
  s_mem : mem;
  s_size : stdty -> N;            (* size_of of a member *)
  s_set : N -> N -> list N;       (* what a BTreeSet of n members asks for to add one, by its size *)
  s_cstring : N -> list N;        (* what CString::new asks for, given n bytes *)
}.

(** de.rs:311-317, 390-418 and serde's visitor for BTreeSet; the set takes memory only for members it
    does not hold yet. *)
Definition set_step (ask : N -> list N) (cmp : stdval -> stdval -> comparison) (p : prog stdval) (m : list stdval) : prog (list stdval) :=
  v <- p ;; asks (if lenN (set_insert cmp v m) =? lenN m then [] else ask (lenN m)) (Ret (set_insert cmp v m)).
Definition g_set (c : cfg) (ask : N -> list N) (cmp : stdval -> stdval -> comparison) (p : prog stdval) : prog (list stdval) :=
  count <- dec_u64 ERead ;; foldN (as_usize c count) (set_step ask cmp p) [].

(** As [Std.std_de]. *)
Fixpoint gstd (c : cfg) (l : slayout) (t : stdty) {struct t} : prog stdval :=
  match t with
  | TPlain d => pmap XPlain (gde c (s_mem l) d)
  | TNonZero d => v <- gde c (s_mem l) d ;; if is_zero v then Fail EMsg else Ret (XPlain v)
  | TOption t => pmap (fun o => match o with Some v => XSome v | None => XNone end) (de_option (gstd c l t))
  | TVec t => pmap XSeq (g_vec c (s_size l t) (gstd c l t))
  | TSet cmp t => pmap XSeq (g_set c (s_set l (s_size l t)) cmp (gstd c l t))
  | TArray n t => pmap XTuple (sequence (repeat (gstd c l t) n))
  | TTuple ts => pmap XTuple (sequence (map (gstd c l) ts))
  | TRange t => range_de (gstd c l t) (std_missing t) XRange
  | TRangeInclusive t => range_de (gstd c l t) (std_missing t) (fun a b => XRangeInclusive a b false)
  | TBound t => std_enum [Ret XUnbounded; pmap XIncluded (gstd c l t); pmap XExcluded (gstd c l t)]
  | TResult t e => std_enum [pmap XOk (gstd c l t); pmap XErr (gstd c l e)]
  | TCString =>
      bs <- g_byte_buf c ;;
      if existsb (N.eqb 0) bs then Fail EMsg else asks (s_cstring l (lenN bs)) (Ret (XCString bs))
  | TOsString => std_enum [pmap XOsString (g_vec c 1 de_u8); Fail EMsg]
  | TPathBuf => pmap XPath (g_string c (s_mem l))
  | TMap t => pmap XDict (g_map c (s_mem l) (s_size l t) (gstd c l t))
  | TStruct fs =>
      pmap (fun l => XRecord (combine (map fst fs) l))
           (de_struct (map fst fs) (map (fun nf => (fst nf, gstd c l (snd nf))) fs)
                      (map (fun nf => std_missing (snd nf)) fs))
  | TEnum vs => user_enum (map (fun v i => pmap (XVariant (fst v) i) (gstd c l (snd v))) vs)
  | TDuration | TSystemTime | TIp4 | TIp6 | TIpAddr | TSock4 | TSock6 | TSockAddr => std_de c t
  end.
