(** * Which value comes back when a typed value is written and read again. *)
From Coq Require Import String Permutation QArith.
From Verif Require Import Base Serde Typing Big Time Derive SpecBig SpecTime SpecDerive.
Local Open Scope list_scope.
Local Open Scope N_scope.

Definition skipped_de (l : attrs) : Prop := serde_attr "skip" l \/ serde_attr "skip_deserializing" l.

(** [leaf_back c l v w]: [v] is a value of type [l], and [w] is equal to it as far as the type's
    own equality goes: decimals come back in lowest terms, points in time in UTC. *)
Definition leaf_back (c : cfg) (l : leaf) (v w : rval) : Prop :=
  match l, v with
  | LUnit, VUnit => w = v
  | LBool, VBool _ => w = v
  | LU8, VU n => n < 2 ^ 8 /\ w = v | LU16, VU n => n < 2 ^ 16 /\ w = v
  | LU32, VU n => n < 2 ^ 32 /\ w = v | LU64, VU n => n < 2 ^ 64 /\ w = v
  | LI8, VI z => in_s 8 z = true /\ w = v | LI16, VI z => in_s 16 z = true /\ w = v
  | LI32, VI z => in_s 32 z = true /\ w = v | LI64, VI z => in_s 64 z = true /\ w = v
  | LF32, VF n => n < 2 ^ 32 /\ w = v | LF64, VF n => n < 2 ^ 64 /\ w = v
  | LBigUint, VB bs | LBigInt, VB bs => lenN bs < 2 ^ usize_bits c /\ w = v
  | LNumBigUint, VU n => lenN (biguint_from n) < 2 ^ usize_bits c /\ w = v
  | LNumBigInt, VI z => lenN (bigint_from z) < 2 ^ usize_bits c /\ w = v
  | LBigDecimal, VBDec bs s => lenN bs < 2 ^ usize_bits c /\ in_s 64 s = true /\
      w = match bs with [] => VBDec [] 0 | _ => v end
  | LExtBigDecimal, VDec d s => scale_room (d, s) /\
      exists d' s', w = VDec d' s' /\ (dec_value (d', s') == dec_value (d, s))%Q /\
        lenN (bigint_from d') < 2 ^ usize_bits c /\
        ((d' = 0 /\ s' = 0) \/ d' mod 10 <> 0)%Z
  | LString, VB bs => str_ok c bs = true /\ w = v
  | LByteBuf, VB bs => lenN bs < 2 ^ usize_bits c /\ w = v
  | LDate, VDate y o => in_s 32 y = true /\ in_s 32 (y - 2000) = true /\ 1 <= o < 2 ^ 16 /\ w = v
  | LExtDate, VDate y o => real_date y o /\ w = v
  | LDateTime, VDateTime t n => in_s 64 t = true /\ n < 2 ^ 32 /\ w = v
  | LExtDateTime, VOdt t => odt_ok t /\ w = VOdt (Odt (odt_ts t) (odt_ns t) 0)
  | _, _ => False
  end.

Fixpoint pairwise (ps : list (rval -> rval -> Prop)) (vs ws : list rval) : Prop :=
  match ps, vs, ws with
  | [], [], [] => True
  | p :: ps, v :: vs, w :: ws => p v w /\ pairwise ps vs ws
  | _, _, _ => False
  end.

(** [comes_back c dflt t v w]: [v] is a value of type [t], and [w] is [v] with a default in every
    field that is never written. *)
Fixpoint comes_back (c : cfg) (dflt : rty -> rval) (t : rty) (v w : rval) {struct t} : Prop :=
  match t with
  | RLeaf l => leaf_back c l v w
  | ROption t => (v = VNone /\ w = VNone) \/
      exists v' w', v = VSome v' /\ w = VSome w' /\ comes_back c dflt t v' w'
  | RVec t => exists vs ws, v = VSeq vs /\ w = VSeq ws /\ lenN vs < 2 ^ usize_bits c /\
      Forall2 (comes_back c dflt t) vs ws
  | RBTreeMap t | RHashMap t => exists m ws m', v = VMap m /\ w = VMap m' /\ lenN m < 2 ^ usize_bits c /\
      Forall (fun kv => str_ok c (fst kv) = true) m /\ NoDup (map fst m) /\
      Forall2 (comes_back c dflt t) (map snd m) ws /\
      Permutation (combine (map fst m) ws) m' /\ sorted_keys m' = true
  | RTuple ts => exists vs ws, v = VSeq vs /\ w = VSeq ws /\ pairwise (map (comes_back c dflt) ts) vs ws
  | RStruct k fs => exists vs ws, v = VSeq vs /\ w = VSeq ws /\
      pairwise (map (fun f v w => (skipped (fst f) /\ w = dflt (snd (snd f))) \/
                                  (~ skipped (fst f) /\ comes_back c dflt (snd (snd f)) v w)) fs) vs ws
  | REnum vars => exists i vs ws R, v = VVariant i vs /\ w = VVariant i ws /\
      (forall var, pickN vars i = Some var -> ~ skipped (fst var)) /\
      pickN (map (fun var => pairwise (map (fun f v w =>
                                  (skipped (fst f) /\ w = dflt (snd (snd f))) \/
                                  (~ skipped (fst f) /\ comes_back c dflt (snd (snd f)) v w)) (snd (snd var)))) vars) i = Some R /\
      R vs ws
  | RUnion | RItem _ => False
  end.

(** Reader and writer agree on what is skipped; nothing is skipped depending on its value; the
    fields that are read have different names; skipped variants come after all others, of which
    there are at most 16384. *)
Inductive readable : rty -> Prop :=
| rd_leaf l : readable (RLeaf l)
| rd_option t : readable t -> readable (ROption t)
| rd_vec t : readable t -> readable (RVec t)
| rd_btree t : readable t -> readable (RBTreeMap t)
| rd_hash t : readable t -> readable (RHashMap t)
| rd_tuple ts : Forall readable ts -> readable (RTuple ts)
| rd_struct k fs : readable_fields fs -> readable (RStruct k fs)
| rd_enum kept tail : Forall (fun v => ~ skipped_de (fst v) /\ readable_fields (snd (snd v))) kept ->
    Forall (fun v => skipped (fst v)) tail -> lenN kept <= 16384 -> readable (REnum (kept ++ tail))
with readable_fields : list (attrs * (string * rty)) -> Prop :=
| rf_fields fs :
    Forall (fun f => (skipped (fst f) /\ skipped_de (fst f)) \/
                     (~ skipped (fst f) /\ ~ skipped_de (fst f) /\ ~ skipped_if (fst f) /\ readable (snd (snd f)))) fs ->
    (forall fs1 f fs2 g fs3, fs = fs1 ++ f :: fs2 ++ g :: fs3 -> ~ skipped_de (fst f) -> ~ skipped_de (fst g) ->
      fst (snd f) <> fst (snd g)) ->
    readable_fields fs.

(** A value of type [l] is read while a value of the type is read: it is not in a field or a
    variant that the reader skips. *)
Inductive reads_leaf (l : leaf) : rty -> Prop :=
| rl_leaf : reads_leaf l (RLeaf l)
| rl_option t : reads_leaf l t -> reads_leaf l (ROption t)
| rl_vec t : reads_leaf l t -> reads_leaf l (RVec t)
| rl_btree t : reads_leaf l t -> reads_leaf l (RBTreeMap t)
| rl_hash t : reads_leaf l t -> reads_leaf l (RHashMap t)
| rl_tuple ts t : In t ts -> reads_leaf l t -> reads_leaf l (RTuple ts)
| rl_struct k fs f : In f fs -> ~ skipped_de (fst f) -> reads_leaf l (snd (snd f)) -> reads_leaf l (RStruct k fs)
| rl_enum vs v f : In v vs -> ~ skipped_de (fst v) -> In f (snd (snd v)) -> ~ skipped_de (fst f) ->
    reads_leaf l (snd (snd f)) -> reads_leaf l (REnum vs).
(** Panics: borrowed strings and bytes are unimplemented; the year and day of a date are computed
    with overflow checks in debug builds; nanoseconds are added to a point in time. *)
Definition leaf_panics (c : cfg) (l : leaf) (q : panic) : Prop :=
  match l with
  | LStr | LBytes => q = PTodo
  | LDate | LExtDate => q = POverflow /\ overflow_checks c = true
  | LExtDateTime => q = PTime
  | _ => False
  end.

(** [read_variants vs n]: the reader knows n of the variants vs. *)
Inductive read_variants {A} : list (attrs * A) -> N -> Prop :=
| rv_nil : read_variants [] 0
| rv_skip v vs n : skipped_de (fst v) -> read_variants vs n -> read_variants (v :: vs) n
| rv_keep v vs n : ~ skipped_de (fst v) -> read_variants vs n -> read_variants (v :: vs) (n + 1).
