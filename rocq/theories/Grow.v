(** * Reading, with the memory that containers ask for while they grow.

    [de] and [bde] (Serde.v, Body.v) show only what the crate asks for up front. Here the same
    functions also show what the containers of std ask for as they are filled: Vec::push and
    extend_from_slice (alloc::raw_vec: at least double the capacity), to_vec, the buffer behind
    read_to_string, and the nodes of a BTreeMap. std and serde are dependencies (not in /repo). What
    differs between their releases or depends on layout is left open, as [mem]. *)
From Coq Require Import String.
From Verif Require Import Base Varint Utf8 Serde Header Body.
Local Open Scope list_scope.
Local Open Scope N_scope.

Record mem := Mem {
  m_size : dty -> N;             (* size_of of the Rust type *)
  m_text : N -> list N;          (* what read_to_string asks for while it receives n bytes *)
  m_insert : N -> N -> list N;   (* what a BTreeMap of n entries asks for to add one, by the size of a value *)
}.

Fixpoint asks {A} (l : list N) (p : prog A) : prog A :=
  match l with [] => p | n :: t => Alloc n (asks t p) end.

(** RawVec::grow_amortized: the capacity after a vector of capacity [cap] was asked to hold [need]
    members. *)
Definition min_cap (size : N) : N := if size =? 1 then 8 else if size <=? 1024 then 4 else 1.
Definition grown (size cap need : N) : N := N.max (min_cap size) (N.max (2 * cap) need).
(** Vec::reserve(extra) with [len] members; [k] continues with the capacity. Members of size zero
    take no memory. *)
Definition reserve {A} (size len cap extra : N) (k : N -> prog A) : prog A :=
  if size =? 0 then k cap
  else if cap <? len + extra then Alloc (grown size cap (len + extra) * size) (k (grown size cap (len + extra)))
  else k cap.

(** Vec::push in a loop (serde's VecVisitor; body/mod.rs:114-121). State: members (last first),
    their number, the capacity. *)
Definition push_step {A} (size : N) (p : prog A) (st : list A * N * N) : prog (list A * N * N) :=
  match st with (acc, len, cap) =>
    a <- p ;; reserve size len cap 1 (fun cap' => Ret (a :: acc, len + 1, cap'))
  end.
Definition g_push {A} (size n cap : N) (p : prog A) : prog (list A) :=
  st <- foldN n (push_step size p) ([], 0, cap) ;; Ret (rev (fst (fst st))).
(** de.rs:311-317, 390-418; the vector starts empty *)
Definition g_vec {A} (c : cfg) (size : N) (p : prog A) : prog (list A) :=
  count <- dec_u64 ERead ;; g_push size (as_usize c count) 0 p.

(** de.rs:210-237: to_vec (222-224) takes as many bytes as there are; String::new() (226) grows with
    what is received. *)
Definition g_string (c : cfg) (m : mem) : prog (list N) :=
  len <- dec_u64 ERead ;;
  if len <? STR_MAX then
    ReadExact len ERead (fun b => Alloc (lenN b) (if utf8_valid b then Ret b else Fail ERead))
  else
    ReadLimit len ERead (fun b => asks (m_text m (lenN b)) (
      if utf8_valid b then
        if lenN b =? as_usize c len then Ret b else Fail ERead
      else Fail ERead)).
(** de.rs:190-201 *)
Definition g_char (c : cfg) (m : mem) : prog N :=
  s <- g_string c m ;;
  match next_char s with Some ch => Ret ch | None => Fail ECharSize end.

(** de.rs:246-269; [result] starts empty (252), extend_from_slice (260) reserves *)
Definition gbuf_state : Type := (list (list N) * N * N * N)%type.
Definition gbuf_step (c : cfg) (len : N) (st : gbuf_state + list N) : prog (gbuf_state + list N) :=
  match st with
  | inr r => Ret (inr r)
  | inl (acc, rlen, pos, cap) =>
    if rlen <? as_usize c len then
      let n := N.min BUF_MAX (len - pos) in
      ReadExact n ERead (fun b => reserve 1 rlen cap n (fun cap' => Ret (inl (b :: acc, rlen + n, pos + n, cap'))))
    else Ret (inr (concat (rev acc)))
  end.
Definition g_byte_buf (c : cfg) : prog (list N) :=
  len <- dec_u64 ERead ;;
  if BUF_MAX <? len then
    Alloc BUF_MAX
      (st <- foldN (len / BUF_MAX + 2) (gbuf_step c len) (inl ([], 0, 0, 0)) ;;
       match st with inr r => Ret r | inl _ => Crash PStack end)
  else
    Alloc len (ReadExact len ERead (fun b => Ret b)).

(** de.rs:338-344, 420-455 with BTreeMap::insert: only a new key takes memory of the map *)
Definition has_key {V} (k : list N) (l : list (list N * V)) : bool :=
  existsb (fun kv => match bytes_cmp k (fst kv) with Eq => true | _ => false end) l.
Definition g_map_n {A} (c : cfg) (m : mem) (size n : N) (p : prog A) : prog (list (list N * A)) :=
  foldN n (fun l => k <- g_string c m ;; v <- p ;;
    asks (if has_key k l then [] else m_insert m size (lenN l)) (Ret (map_insert k v l))) [].
Definition g_map {A} (c : cfg) (m : mem) (size : N) (p : prog A) : prog (list (list N * A)) :=
  count <- dec_u64 ERead ;; g_map_n c m size (as_usize c count) p.

(** big_int.rs:44-71, big_uint.rs:44-71, big_decimal.rs:71-101: Vec<u8> *)
Definition g_big (c : cfg) : prog (list N) := g_vec c 1 de_u8.
Definition g_big_decimal (c : cfg) : prog (list N * Z) :=
  bs <- g_vec c 1 de_u8 ;;
  match bs with
  | [] => Ret ([], 0%Z)
  | _ => s <- de_i64 ;; Ret (bs, s)
  end.

(** de.rs:62-382, as [de] *)
Fixpoint gde (c : cfg) (m : mem) (d : dty) {struct d} : prog sval :=
  match d with
  | DChar => pmap SChar (g_char c m)
  | DString => pmap SStr (g_string c m)
  | DByteBuf => pmap SBytes (g_byte_buf c)
  | DOption d => pmap (fun o => match o with Some v => SSome v | None => SNone end) (de_option (gde c m d))
  | DNewtypeStruct d => pmap SNewtypeStruct (gde c m d)
  | DVec d => pmap (fun l => SSeq (Some (lenN l)) l) (g_vec c (m_size m d) (gde c m d))
  | DTuple ds => pmap STuple (sequence (map (gde c m) ds))
  | DTupleStruct ds => pmap STupleStruct (sequence (map (gde c m) ds))
  | DMap d =>
      pmap (fun l => SMap (Some (lenN l)) (map (fun kv => (SStr (fst kv), snd kv)) l))
           (g_map c m (m_size m d) (gde c m d))
  | DStruct keys fields =>
      pmap (fun l => SStruct (combine (map fst fields) l))
           (de_struct keys (map (fun nf => (fst nf, gde c m (snd nf))) fields)
                      (map (fun nf => missing (snd nf)) fields))
  | DEnum vs =>
      de_enum (map (fun v i => pmap (variant_sval (fst v) i) (gde c m (snd v))) vs)
  | DBigUint | DBigInt => pmap big_sval (g_big c)
  | DBigDecimal => pmap (fun p => big_decimal_sval (fst p) (snd p)) (g_big_decimal c)
  | _ => de c d                      (* nothing on the heap *)
  end.

(** Box::new of a body that has been read (body/mod.rs:87-90, 150-153) *)
Definition boxed (c : cfg) (p : prog body) : prog body :=
  b <- p ;; Alloc (size_of_body c) (Ret b).
(** body/mod.rs:78-158, as [bde]. An array starts with the capacity it declares, cut to a usize;
    on 32 bit targets more members may be pushed than that (114-121). *)
Fixpoint gbde (c : cfg) (m : mem) (h : header) {struct h} : prog body :=
  match h with
  | HOptional h => pmap BOptional (de_option (boxed c (gbde c m h)))
  | HBigUInt => pmap BBigUInt (g_big c)
  | HBigInt => pmap BBigInt (g_big c)
  | HBigDecimal => pmap (fun p => BBigDecimal (fst p) (snd p)) (g_big_decimal c)
  | HString => pmap BString (g_string c m)
  | HBinary => pmap BBinary (g_byte_buf c)
  | HArray h =>
      len <- de_u64 ;;
      Alloc (as_usize c len * size_of_body c) (pmap BArray (g_push (size_of_body c) len (as_usize c len) (gbde c m h)))
  | HTuple hs =>
      Alloc (lenN hs * size_of_body c) (pmap BTuple (sequence (map (gbde c m) hs)))
  | HMap h =>
      len <- de_u64 ;; pmap BMap (g_map_n c m (size_of_body c) len (gbde c m h))
  | HEnum hs =>
      i <- de_u32 ;;
      match pickN (map (gbde c m) hs) (as_usize c i) with
      | Some p => pmap (BEnum i) (boxed c p)
      | None => Fail ERead
      end
  | _ => bde c h
  end.
