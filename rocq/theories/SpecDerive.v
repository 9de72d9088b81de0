(** * What a header of a Rust type should be, and which Body carries the data of a value. *)
From Coq Require Import String Permutation Relations.
From Verif Require Import Base Serde Typing Big Time Header Body Derive SpecHeader SpecBody.
Local Open Scope list_scope.
Local Open Scope N_scope.

(** The attribute list contains #[serde(.., name, ..)] (or [name = ..], [name(..)]). *)
Definition serde_attr (name : string) (l : attrs) : Prop :=
  exists a ns, In a l /\ attr_path a = Some "serde"%string /\ attr_list a = Some ns /\ In (NMeta (Some name)) ns.
Definition skipped (l : attrs) : Prop := serde_attr "skip" l \/ serde_attr "skip_serializing" l.
Definition skipped_if (l : attrs) : Prop := serde_attr "skip_serializing_if" l.

Definition leaf_header (l : leaf) : header :=
  match l with
  | LUnit => HUnit | LBool => HBoolean
  | LU8 => HUInt8 | LU16 => HUInt16 | LU32 => HUInt32 | LU64 => HUInt64
  | LI8 => HInt8 | LI16 => HInt16 | LI32 => HInt32 | LI64 => HInt64
  | LF32 => HFloat32 | LF64 => HFloat64
  | LBigUint | LNumBigUint => HBigUInt
  | LBigInt | LNumBigInt => HBigInt
  | LBigDecimal | LExtBigDecimal => HBigDecimal
  | LStr | LString => HString
  | LBytes | LByteBuf => HBinary
  | LDate | LExtDate => HDate
  | LDateTime | LExtDateTime => HDateTime
  end.

(** The header of a variant with the given member headers. *)
Definition variant_header (hs : list header) : header :=
  match hs with [] => HUnit | [h] => h | _ => HTuple hs end.

(** [describes t h]: [t] has a header, and it is [h]. Fields and variants that are not serialized
    do not appear, and their types need no header. *)
Inductive describes : rty -> header -> Prop :=
| ds_leaf l : describes (RLeaf l) (leaf_header l)
| ds_option t h : describes t h -> describes (ROption t) (HOptional h)
| ds_vec t h : describes t h -> describes (RVec t) (HArray h)
| ds_btree t h : describes t h -> describes (RBTreeMap t) (HMap h)
| ds_hash t h : describes t h -> describes (RHashMap t) (HMap h)
| ds_tuple ts hs : (1 <= length ts <= 16)%nat -> describes_all ts hs -> describes (RTuple ts) (HTuple hs)
| ds_struct k fs hs : describes_fields fs hs -> describes (RStruct k fs) (HTuple hs)
| ds_enum vs hs : describes_variants vs hs -> describes (REnum vs) (HEnum hs)
with describes_all : list rty -> list header -> Prop :=
| da_nil : describes_all [] []
| da_cons t h ts hs : describes t h -> describes_all ts hs -> describes_all (t :: ts) (h :: hs)
with describes_fields : list (attrs * (string * rty)) -> list header -> Prop :=
| df_nil : describes_fields [] []
| df_skip a n t fs hs : skipped a -> ~ skipped_if a -> describes_fields fs hs ->
    describes_fields ((a, (n, t)) :: fs) hs
| df_keep a n t h fs hs : ~ skipped a -> ~ skipped_if a -> describes t h -> describes_fields fs hs ->
    describes_fields ((a, (n, t)) :: fs) (h :: hs)
with describes_variants : list (attrs * (style * list (attrs * (string * rty)))) -> list header -> Prop :=
| dv_nil : describes_variants [] []
| dv_skip a k fs vs hs : skipped a -> ~ skipped_if a -> describes_variants vs hs ->
    describes_variants ((a, (k, fs)) :: vs) hs
| dv_keep a k fs fhs vs hs : ~ skipped a -> ~ skipped_if a ->
    describes_all (map (fun f => snd (snd f)) fs) fhs -> describes_variants vs hs ->
    describes_variants ((a, (k, fs)) :: vs) (variant_header fhs :: hs).

(** The header is right about the bytes: skipped variants come after all others, and no field
    inside a variant has a skip attribute. (Types of skipped fields do not matter.) *)
Inductive aligned : rty -> Prop :=
| al_leaf l : aligned (RLeaf l)
| al_option t : aligned t -> aligned (ROption t)
| al_vec t : aligned t -> aligned (RVec t)
| al_btree t : aligned t -> aligned (RBTreeMap t)
| al_hash t : aligned t -> aligned (RHashMap t)
| al_tuple ts : Forall aligned ts -> aligned (RTuple ts)
| al_struct k fs : Forall (fun f => skipped (fst f) \/ aligned (snd (snd f))) fs -> aligned (RStruct k fs)
| al_enum kept tail :
    Forall (fun v => ~ skipped (fst v) /\
      Forall (fun f => ~ skipped (fst f) /\ ~ skipped_if (fst f) /\ aligned (snd (snd f))) (snd (snd v))) kept ->
    Forall (fun v => skipped (fst v)) tail ->
    aligned (REnum (kept ++ tail)).

(** The Body with the data of a value of a parameterless type: the wrapper types hold the data of
    num-bigint, bigdecimal and time. *)
Definition leaf_body (c : cfg) (l : leaf) (v : rval) : option body :=
  match l, v with
  | LUnit, VUnit => Some BUnit
  | LBool, VBool b => Some (BBoolean b)
  | LU8, VU n => Some (BUInt8 n) | LU16, VU n => Some (BUInt16 n)
  | LU32, VU n => Some (BUInt32 n) | LU64, VU n => Some (BUInt64 n)
  | LI8, VI z => Some (BInt8 z) | LI16, VI z => Some (BInt16 z)
  | LI32, VI z => Some (BInt32 z) | LI64, VI z => Some (BInt64 z)
  | LF32, VF n => Some (BFloat32 n) | LF64, VF n => Some (BFloat64 n)
  | LBigUint, VB bs => Some (BBigUInt bs) | LBigInt, VB bs => Some (BBigInt bs)
  | LNumBigUint, VU n => Some (BBigUInt (biguint_from n))
  | LNumBigInt, VI z => Some (BBigInt (bigint_from z))
  | LBigDecimal, VBDec bs s => Some (BBigDecimal bs s)
  | LExtBigDecimal, VDec d s => option_map (fun w => BBigDecimal (fst w) (snd w)) (bigdecimal_from c (d, s))
  | LStr, VB bs | LString, VB bs => Some (BString bs)
  | LBytes, VB bs | LByteBuf, VB bs => Some (BBinary bs)
  | LDate, VDate y o => Some (BDate y o)
  | LExtDate, VDate y o => Some (BDate (fst (date_from (y, o))) (snd (date_from (y, o))))
  | LDateTime, VDateTime t n => Some (BDateTime t n)
  | LExtDateTime, VOdt t => Some (BDateTime (fst (datetime_from t)) (snd (datetime_from t)))
  | _, _ => None
  end.
Definition variant_body (l : list body) : body := match l with [] => BUnit | [b] => b | _ => BTuple l end.

(** [carries c t v b]: [b] is the Body with the data of [v], a value of type [t] (without what is
    never serialized). A map has its entries in order of their keys. *)
Inductive carries (c : cfg) : rty -> rval -> body -> Prop :=
| ca_leaf l v b : leaf_body c l v = Some b -> carries c (RLeaf l) v b
| ca_none t : carries c (ROption t) VNone (BOptional None)
| ca_some t v b : carries c t v b -> carries c (ROption t) (VSome v) (BOptional (Some b))
| ca_vec t vs bs : carries_all c (map (fun _ => t) vs) vs bs -> carries c (RVec t) (VSeq vs) (BArray bs)
| ca_tuple ts vs bs : carries_all c ts vs bs -> carries c (RTuple ts) (VSeq vs) (BTuple bs)
| ca_btree t vs m : carries_map c t vs m -> carries c (RBTreeMap t) (VMap vs) (BMap m)
| ca_hash t vs m : carries_map c t vs m -> carries c (RHashMap t) (VMap vs) (BMap m)
| ca_struct k fs vs bs : carries_fields c fs vs bs -> carries c (RStruct k fs) (VSeq vs) (BTuple bs)
| ca_enum vars i a k fs vs bs : pickN vars i = Some (a, (k, fs)) -> ~ skipped a ->
    carries_all c (map (fun f => snd (snd f)) fs) vs bs ->
    carries c (REnum vars) (VVariant i vs) (BEnum i (variant_body bs))
with carries_all (c : cfg) : list rty -> list rval -> list body -> Prop :=
| caa_nil : carries_all c [] [] []
| caa_cons t v b ts vs bs : carries c t v b -> carries_all c ts vs bs ->
    carries_all c (t :: ts) (v :: vs) (b :: bs)
with carries_fields (c : cfg) : list (attrs * (string * rty)) -> list rval -> list body -> Prop :=
| caf_nil : carries_fields c [] [] []
| caf_skip a n t v fs vs bs : skipped a -> carries_fields c fs vs bs ->
    carries_fields c ((a, (n, t)) :: fs) (v :: vs) bs
| caf_keep a n t v b fs vs bs : ~ skipped a -> carries c t v b -> carries_fields c fs vs bs ->
    carries_fields c ((a, (n, t)) :: fs) (v :: vs) (b :: bs)
with carries_map (c : cfg) : rty -> list (list N * rval) -> list (list N * body) -> Prop :=
| cam t vs bs m : NoDup (map fst vs) -> carries_all c (map (fun _ => t) vs) (map snd vs) bs ->
    Permutation (combine (map fst vs) bs) m -> sorted_keys m = true -> carries_map c t vs m.

(** Every map of the value is visited in order of its keys (always so for a BTreeMap). *)
Fixpoint in_order (v : rval) : bool :=
  match v with
  | VSome v => in_order v
  | VSeq l | VVariant _ l => forallb in_order l
  | VMap m => sorted_keys m && forallb (fun kv => in_order (snd kv)) m
  | _ => true
  end.

(** ** Items that refer to each other by name *)

(** Writing the header of [t] calls the impl of item [i]. *)
Inductive calls : rty -> nat -> Prop :=
| cl_item i : calls (RItem i) i
| cl_option t i : calls t i -> calls (ROption t) i
| cl_vec t i : calls t i -> calls (RVec t) i
| cl_btree t i : calls t i -> calls (RBTreeMap t) i
| cl_hash t i : calls t i -> calls (RHashMap t) i
| cl_tuple ts t i : In t ts -> calls t i -> calls (RTuple ts) i
| cl_struct k fs a n t i : In (a, (n, t)) fs -> ~ skipped a -> calls t i -> calls (RStruct k fs) i
| cl_enum vs a k fs b n t i : In (a, (k, fs)) vs -> ~ skipped a -> In (b, (n, t)) fs -> calls t i -> calls (REnum vs) i.
(** The definition of item [i] calls item [j]. *)
Definition uses (items : list rty) (i j : nat) : Prop := exists t, nth_error items i = Some t /\ calls t j.
(** Item [i] comes back to itself. *)
Definition recursive (items : list rty) (i : nat) : Prop := clos_trans nat (uses items) i i.
(** The program compiles: each item does, when all items named in it exist and implement
    SerializeHeader. *)
Definition compiled (items : list rty) : Prop :=
  Forall (fun t => exists w, ser_header_in (fun j => if (j <? length items)%nat then Some WDone else None) t = Some w) items.
(** The type with the definition of each item in place of its name, to the given depth. *)
Fixpoint subst_items (g : nat -> rty) (t : rty) : rty :=
  match t with
  | RLeaf l => RLeaf l
  | ROption t => ROption (subst_items g t)
  | RVec t => RVec (subst_items g t)
  | RBTreeMap t => RBTreeMap (subst_items g t)
  | RHashMap t => RHashMap (subst_items g t)
  | RTuple ts => RTuple (map (subst_items g) ts)
  | RStruct k fs => RStruct k (map (fun f => (fst f, (fst (snd f), subst_items g (snd (snd f))))) fs)
  | REnum vs => REnum (map (fun v => (fst v, (fst (snd v),
                    map (fun f => (fst f, (fst (snd f), subst_items g (snd (snd f))))) (snd (snd v))))) vs)
  | RUnion => RUnion
  | RItem i => g i
  end.
Fixpoint unroll (items : list rty) (depth : nat) (i : nat) : rty :=
  match depth with
  | O => RUnion
  | S d => subst_items (unroll items d) (nth i items RUnion)
  end.
