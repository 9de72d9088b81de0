(** * What derived types read from every input (C78).

    Relations between an input and the outcome of reading, put together from those of SpecReads and
    SpecFormat. *)
From Coq Require Import String Sorted.
From Verif Require Import Base Serde SpecVarint SpecMap Header Body Big Time Derive SpecDerive SpecDeriveDe SpecAccept SpecReject SpecReads SpecBig SpecTime SpecFormat.
Local Open Scope list_scope.
Local Open Scope N_scope.

Definition reading (A : Type) : Type := list N -> outcome A -> Prop.
Definition becomes {A B} (f : A -> B) (R : reading A) : reading B := fun s o => exists o', R s o' /\ o = omap f o'.

(** Types without parameters. *)
Definition plain_value (v : sval) : rval :=
  match v with
  | SBool b => VBool b
  | SU8 n | SU16 n | SU32 n | SU64 n => VU n
  | SI8 z | SI16 z | SI32 z | SI64 z => VI z
  | SF32 n | SF64 n => VF n
  | SStr bs | SBytes bs => VB bs
  | _ => VUnit
  end.
Definition body_value (b : body) : rval :=
  match b with BDate y o => VDate y o | BDateTime t n => VDateTime t n | _ => VUnit end.
Definition leaf_reads (c : cfg) (l : leaf) : reading rval :=
  let prim d := becomes plain_value (reads c d) in
  match l with
  | LUnit => prim DUnit | LBool => prim DBool
  | LU8 => prim DU8 | LU16 => prim DU16 | LU32 => prim DU32 | LU64 => prim DU64
  | LI8 => prim DI8 | LI16 => prim DI16 | LI32 => prim DI32 | LI64 => prim DI64
  | LF32 => prim DF32 | LF64 => prim DF64
  | LStr => prim DStr | LBytes => prim DBytes | LString => prim DString | LByteBuf => prim DByteBuf
  | LBigUint | LBigInt => becomes VB (bytes_read (SpecReads.kept c))
  | LNumBigUint => becomes (fun bs => VU (le_value bs)) (bytes_read (SpecReads.kept c))
  | LNumBigInt => becomes (fun bs => VI (signed_value bs)) (bytes_read (SpecReads.kept c))
  | LBigDecimal => becomes (fun p => VBDec (fst p) (snd p)) (decimal_read c)
  | LExtBigDecimal => becomes (fun p => VDec (fst p) (snd p)) (format_decimal c)
  | LDate => becomes body_value (body_reads c HDate)
  | LDateTime => becomes body_value (body_reads c HDateTime)
  | LExtDate => becomes (fun p => VDate (fst p) (snd p)) (format_date c)
  | LExtDateTime => becomes VOdt format_time
  end.

(** One after another. *)
Inductive in_turn {A} : list (reading A) -> reading (list A) :=
| it_nil s : in_turn [] s (OOk [] s)
| it_stop (R : reading A) Rs s x : R s (stop x) -> in_turn (R :: Rs) s (stop x)
| it_cons (R : reading A) Rs s a r o : R s (OOk a r) -> in_turn Rs r o -> in_turn (R :: Rs) s (omap (cons a) o).
Inductive option_read (R : reading rval) : reading rval :=
| or_stop s : no_bool s -> option_read R s (OErr ERead)
| or_none s : option_read R (0 :: s) (OOk VNone s)
| or_some s o : R s o -> option_read R (1 :: s) (omap VSome o).
Inductive counted {A} (c : cfg) (R : reading A) : reading (list A) :=
| ct_count s : short 8 s -> counted c R s (OErr ERead)
| ct_all l n s o : code 8 l n -> in_turn (repeat R (N.to_nat (SpecReads.kept c n))) s o -> counted c R (l ++ s) o.
(** A string key and a value. *)
Inductive entry (c : cfg) (R : reading rval) : reading (list N * rval) :=
| en_key s x : text_read c s (stop x) -> entry c R s (stop x)
| en_value s k t o : text_read c s (OOk k t) -> R t o -> entry c R s (omap (pair k) o).
(** In the end a key has the last of its values; the keys are sorted. *)
Inductive collected (R : reading (list (list N * rval))) : reading rval :=
| cl_stop s x : R s (stop x) -> collected R s (stop x)
| cl_map s es m r : R s (OOk es r) -> StronglySorted lex_lt (map fst m) -> (forall k, last_binding k m = last_binding k es) ->
    collected R s (OOk (VMap m) r).
(** A skipped field reads nothing and has the default of its type. *)
Definition field_read (skip : Prop) (default : rval) (R : reading rval) : reading rval :=
  fun s o => (skip /\ o = OOk default s) \/ (~ skip /\ R s o).
(** Variants are numbered without the skipped ones. *)
Inductive variant_read (vs : list (attrs * reading (list rval))) : reading rval :=
| vr_index s : short 2 s -> variant_read vs s (OErr ERead)
| vr_unknown l i n s : code 2 l i -> read_variants vs n -> n <= i -> variant_read vs (l ++ s) (OErr EMsg)
| vr_variant l i s o vs1 a R vs2 : code 2 l i -> vs = vs1 ++ (a, R) :: vs2 -> read_variants vs1 i -> ~ skipped_de a -> R s o ->
    variant_read vs (l ++ s) (omap (VVariant (lenN vs1)) o).

(** [derived_reads c dflt t s o]: reading type t from s has the outcome o. The style of a struct or
    variant and the names of its fields do not matter. *)
Fixpoint derived_reads (c : cfg) (dflt : rty -> rval) (t : rty) {struct t} : reading rval :=
  match t with
  | RLeaf l => leaf_reads c l
  | ROption t => option_read (derived_reads c dflt t)
  | RVec t => becomes VSeq (counted c (derived_reads c dflt t))
  | RBTreeMap t | RHashMap t => collected (counted c (entry c (derived_reads c dflt t)))
  | RTuple ts => becomes VSeq (in_turn (map (derived_reads c dflt) ts))
  | RStruct _ fs => becomes VSeq (in_turn (map (fun f =>
      field_read (skipped_de (fst f)) (dflt (snd (snd f))) (derived_reads c dflt (snd (snd f)))) fs))
  | REnum vs => variant_read (map (fun v => (fst v, in_turn (map (fun f =>
      field_read (skipped_de (fst f)) (dflt (snd (snd f))) (derived_reads c dflt (snd (snd f)))) (snd (snd v))))) vs)
  | RUnion | RItem _ => fun _ _ => False
  end.

(** Types as they can be declared: fields of one struct or variant have different names, and unit
    structs none. What skipped fields contain does not matter. *)
Inductive declared : rty -> Prop :=
| dc_leaf l : declared (RLeaf l)
| dc_option t : declared t -> declared (ROption t)
| dc_vec t : declared t -> declared (RVec t)
| dc_btree t : declared t -> declared (RBTreeMap t)
| dc_hash t : declared t -> declared (RHashMap t)
| dc_tuple ts : Forall declared ts -> declared (RTuple ts)
| dc_struct k fs : declared_fields k fs -> declared (RStruct k fs)
| dc_enum vs : Forall (fun v => skipped_de (fst v) \/ declared_fields (fst (snd v)) (snd (snd v))) vs -> declared (REnum vs)
with declared_fields : style -> list (attrs * (string * rty)) -> Prop :=
| dc_fields k fs : (k = UnitLike -> fs = []) -> NoDup (map (fun f => fst (snd f)) fs) \/ k = Unnamed ->
    Forall (fun f => skipped_de (fst f) \/ declared (snd (snd f))) fs -> declared_fields k fs.

(** Two types with the same layout: they differ in names, in the style of structs and variants, and in
    how a skipped field or variant is declared. *)
Inductive relabelled (dflt : rty -> rval) : rty -> rty -> Prop :=
| rl_leaf l : relabelled dflt (RLeaf l) (RLeaf l)
| rl_option t t' : relabelled dflt t t' -> relabelled dflt (ROption t) (ROption t')
| rl_vec t t' : relabelled dflt t t' -> relabelled dflt (RVec t) (RVec t')
| rl_btree t t' : relabelled dflt t t' -> relabelled dflt (RBTreeMap t) (RBTreeMap t')
| rl_hash t t' : relabelled dflt t t' -> relabelled dflt (RHashMap t) (RHashMap t')
| rl_tuple ts ts' : Forall2 (relabelled dflt) ts ts' -> relabelled dflt (RTuple ts) (RTuple ts')
| rl_struct k k' fs fs' : Forall2 (relabelled_field dflt) fs fs' -> relabelled dflt (RStruct k fs) (RStruct k' fs')
| rl_enum vs vs' : Forall2 (fun v v' => (skipped_de (fst v) /\ skipped_de (fst v')) \/
    (~ skipped_de (fst v) /\ ~ skipped_de (fst v') /\ Forall2 (relabelled_field dflt) (snd (snd v)) (snd (snd v')))) vs vs' ->
    relabelled dflt (REnum vs) (REnum vs')
with relabelled_field (dflt : rty -> rval) : attrs * (string * rty) -> attrs * (string * rty) -> Prop :=
| rl_skipped f f' : skipped_de (fst f) -> skipped_de (fst f') -> dflt (snd (snd f)) = dflt (snd (snd f')) -> relabelled_field dflt f f'
| rl_field f f' : ~ skipped_de (fst f) -> ~ skipped_de (fst f') -> relabelled dflt (snd (snd f)) (snd (snd f')) -> relabelled_field dflt f f'.
