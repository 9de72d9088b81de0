(** * What types with conversions are on the wire, without the model's readers and writers. *)
From Coq Require Import List NArith String.
From Verif Require Import Base Serde Typing Std SpecStd Conv.
Import ListNotations.
Local Open Scope list_scope.
Local Open Scope N_scope.

(** The type it is written as. *)
Fixpoint cwire {U} (t : cty U) : dty :=
  match t with
  | CStd t => wire t
  | CFrom _ _ t | CTry _ _ t => cwire t
  | COption t => DOption (cwire t)
  | CVec t => DVec (cwire t)
  | CTuple ts => DTuple (map cwire ts)
  | CMap t => DMap (cwire t)
  | CStruct fs => DStruct (map fst fs) (map (fun nf => (fst nf, cwire (snd nf))) fs)
  | CEnum vs => DEnum (map (fun v => (fst v, cwire (snd v))) vs)
  end.

(** As [proper]: field names differ, variants have the payload of their kind. *)
Definition cpayload {U} (k : vkind) (t : cty U) : Prop :=
  match k with
  | KUnit => t = CStd (TPlain DUnit)
  | KNewtype => True
  | KTuple => exists ts, t = CTuple ts
  | KStruct => exists fs, t = CStruct fs
  end.
Fixpoint cproper {U} (t : cty U) : Prop :=
  match t with
  | CStd t => proper t
  | CFrom _ _ t | CTry _ _ t | COption t | CVec t | CMap t => cproper t
  | CTuple ts => fold_right (fun t P => cproper t /\ P) True ts
  | CStruct fs => NoDup (map fst fs) /\ fold_right (fun nf P => cproper (snd nf) /\ P) True fs
  | CEnum vs => fold_right (fun v P => (cpayload (fst v) (snd v) /\ cproper (snd v)) /\ P) True vs
  end.

(** [turned t w v]: the wire value [w] is read as [v]: library types as they are, and every
    conversion applied, to the innermost first. *)
Inductive turned {U} : cty U -> sval -> cval U -> Prop :=
| tu_std t w v : stands t w v -> turned (CStd t) w (VStd v)
| tu_from into from t w x : turned t w x -> turned (CFrom into from t) w (from x)
| tu_try into from t w x v : turned t w x -> from x = Some v -> turned (CTry into from t) w v
| tu_none t : turned (COption t) SNone VNone
| tu_some t w v : turned t w v -> turned (COption t) (SSome w) (VSome v)
| tu_vec t n ws vs : Forall2 (turned t) ws vs -> turned (CVec t) (SSeq n ws) (VSeq vs)
| tu_tuple ts ws vs : all_turned ts ws vs -> turned (CTuple ts) (STuple ws) (VTuple vs)
| tu_map t n ws vs : map fst ws = map (fun kv => SStr (fst kv)) vs -> Forall2 (turned t) (map snd ws) (map snd vs) ->
    turned (CMap t) (SMap n ws) (VDict vs)
| tu_struct fs ws vs : map fst ws = map fst fs -> map fst vs = map fst fs ->
    all_turned (map snd fs) (map snd ws) (map snd vs) -> turned (CStruct fs) (SStruct ws) (VRecord vs)
| tu_variant_unit vs i t v : nth_error vs (N.to_nat i) = Some (KUnit, t) -> turned t SUnit v ->
    turned (CEnum vs) (SUnitVariant i) (VVariant KUnit i v)
| tu_variant_newtype vs i t w v : nth_error vs (N.to_nat i) = Some (KNewtype, t) -> turned t w v ->
    turned (CEnum vs) (SNewtypeVariant i w) (VVariant KNewtype i v)
| tu_variant_tuple vs i t ws v : nth_error vs (N.to_nat i) = Some (KTuple, t) -> turned t (STuple ws) v ->
    turned (CEnum vs) (STupleVariant i ws) (VVariant KTuple i v)
| tu_variant_struct vs i t ws v : nth_error vs (N.to_nat i) = Some (KStruct, t) -> turned t (SStruct ws) v ->
    turned (CEnum vs) (SStructVariant i ws) (VVariant KStruct i v)
with all_turned {U} : list (cty U) -> list sval -> list (cval U) -> Prop :=
| at_nil : all_turned [] [] []
| at_cons t w v ts ws vs : turned t w v -> all_turned ts ws vs -> all_turned (t :: ts) (w :: ws) (v :: vs).

(** Some wire values may be refused. *)
Fixpoint crefusing {U} (t : cty U) : bool :=
  match t with
  | CStd t => refusing t
  | CTry _ _ _ => true
  | CFrom _ _ t | COption t | CVec t | CMap t => crefusing t
  | CTuple ts => existsb crefusing ts
  | CStruct fs => existsb (fun nf => crefusing (snd nf)) fs
  | CEnum vs => existsb (fun v => crefusing (snd v)) vs
  end.
(** Also a value of a map that a later entry replaces. *)
Fixpoint cshadowing {U} (t : cty U) : bool :=
  match t with
  | CStd t => shadowing t
  | CMap t => crefusing t || cshadowing t
  | CTry _ _ t | CFrom _ _ t | COption t | CVec t => cshadowing t
  | CTuple ts => existsb cshadowing ts
  | CStruct fs => existsb (fun nf => cshadowing (snd nf)) fs
  | CEnum vs => existsb (fun v => cshadowing (snd v)) vs
  end.

(** [returns c t v v']: [v] can be written as [t], and [v'] is what the conversions make of it on the
    way back. *)
Inductive returns {U} (c : cfg) : cty U -> cval U -> cval U -> Prop :=
| re_std t v v' : comes_back c t v v' -> returns c (CStd t) (VStd v) (VStd v')
| re_from into from t v x' : returns c t (into v) x' -> returns c (CFrom into from t) v (from x')
| re_try into from t v x x' v' : into v = Some x -> returns c t x x' -> from x' = Some v' ->
    returns c (CTry into from t) v v'
| re_none t : returns c (COption t) VNone VNone
| re_some t v v' : returns c t v v' -> returns c (COption t) (VSome v) (VSome v')
| re_vec t l l' : lenN l < 2 ^ usize_bits c -> Forall2 (returns c t) l l' -> returns c (CVec t) (VSeq l) (VSeq l')
| re_tuple ts l l' : all_return c ts l l' -> returns c (CTuple ts) (VTuple l) (VTuple l')
| re_map t m m' : lenN m < 2 ^ usize_bits c -> sorted_keys m = true -> Forall (fun kv => str_ok c (fst kv) = true) m ->
    map fst m' = map fst m -> Forall2 (returns c t) (map snd m) (map snd m') -> returns c (CMap t) (VDict m) (VDict m')
| re_struct fs l l' : map fst l = map fst fs -> map fst l' = map fst fs ->
    all_return c (map snd fs) (map snd l) (map snd l') -> returns c (CStruct fs) (VRecord l) (VRecord l')
| re_variant vs k i t v v' : nth_error vs (N.to_nat i) = Some (k, t) -> returns c t v v' ->
    returns c (CEnum vs) (VVariant k i v) (VVariant k i v')
with all_return {U} (c : cfg) : list (cty U) -> list (cval U) -> list (cval U) -> Prop :=
| ar_nil : all_return c [] [] []
| ar_cons t v v' ts vs vs' : returns c t v v' -> all_return c ts vs vs' -> all_return c (t :: ts) (v :: vs) (v' :: vs').
