(** * Memory asked for by derived types.

    [grde] is [rde] with the requests of containers that grow and of numbers that are built. Memory
    asked for by Default::default() of skipped fields is left out: for the types of Derive.v with
    derived or std defaults it is none. *)
From Coq Require Import String.
From Verif Require Import Base Varint Utf8 Serde Header Big Time Derive DeriveDe Grow.
Local Open Scope list_scope.
Local Open Scope N_scope.

(** What the source does not determine. *)
Record rlayout := RLayout {
  r_tree : mem;                  (* texts and BTreeMap *)
  r_hash : mem;                  (* texts and HashMap *)
  r_size : rty -> N;             (* size_of of the Rust type *)
  r_num : N -> list N;           (* what building a number of num-bigint from n bytes asks for *)
}.

(** format/big_uint.rs:19-29, big_int.rs:19-28: the bytes as a Vec, then the number. *)
Definition g_number {A} (c : cfg) (l : rlayout) (f : list N -> A) : prog A :=
  bs <- g_vec c 1 de_u8 ;; asks (r_num l (lenN bs)) (Ret (f bs)).
(** format/big_decimal.rs:21-39 *)
Definition g_ext_decimal (c : cfg) (l : rlayout) : prog (Z * Z) :=
  bs <- g_vec c 1 de_u8 ;;
  asks (r_num l (lenN bs))
    (let digits := from_signed_bytes_le bs in
     if (digits =? 0)%Z then Ret (digits, 0%Z) else s <- de_i64 ;; Ret (digits, s)).
Definition gleaf (c : cfg) (l : rlayout) (k : leaf) : prog rval :=
  match k with
  | LBigUint | LBigInt => pmap VB (g_big c)
  | LNumBigUint => pmap VU (g_number c l from_bytes_le)
  | LNumBigInt => pmap VI (g_number c l from_signed_bytes_le)
  | LBigDecimal => pmap (fun p => VBDec (fst p) (snd p)) (g_big_decimal c)
  | LExtBigDecimal => pmap (fun p => VDec (fst p) (snd p)) (g_ext_decimal c l)
  | LString => pmap VB (g_string c (r_tree l))
  | LByteBuf => pmap VB (g_byte_buf c)
  | _ => leaf_de c k                 (* nothing on the heap *)
  end.

(** DeriveDe.v [rde], with memory. *)
Fixpoint grde (c : cfg) (l : rlayout) (dflt : rty -> rval) (t : rty) {struct t} : prog rval :=
  match t with
  | RLeaf k => gleaf c l k
  | ROption t => pmap (fun o => match o with Some v => VSome v | None => VNone end) (de_option (grde c l dflt t))
  | RVec t => pmap VSeq (g_vec c (r_size l t) (grde c l dflt t))
  | RBTreeMap t => pmap VMap (g_map c (r_tree l) (r_size l t) (grde c l dflt t))
  | RHashMap t => pmap VMap (g_map c (r_hash l) (r_size l t) (grde c l dflt t))
  | RTuple ts => pmap VSeq (sequence (map (grde c l dflt) ts))
  | RStruct k fs =>
      pmap VSeq (members_de k (map (fun f =>
        DField (fst f) (fst (snd f)) (dflt (snd (snd f))) (is_option (snd (snd f))) (grde c l dflt (snd (snd f)))) fs))
  | REnum vs =>
      i <- de_u16 ;;
      match pickN (enum_alts 0 (map (fun v => (fst v, members_de (fst (snd v)) (map (fun f =>
        DField (fst f) (fst (snd f)) (dflt (snd (snd f))) (is_option (snd (snd f))) (grde c l dflt (snd (snd f)))) (snd (snd v))))) vs)) i with
      | Some p => p
      | None => Fail EMsg
      end
  | RUnion | RItem _ => Fail EMsg
  end.
