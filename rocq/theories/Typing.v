(** * Which data-model values belong to which type.

    Specification-level file: [has_ty c d v] says that [v] is what the Serialize impl
    of some value of Rust type [d] produces on a platform [c]; [wf_dty d] says that [d]
    is a type the crate supports (what serde_derive and the crate's own impls
    generate). Theorems quantify over all [d] and [v] related this way. *)
From Coq Require Import String.
From Verif Require Import Base Varint Utf8 Serde.
Local Open Scope list_scope.
Local Open Scope N_scope.

Fixpoint forall2b {A} (ps : list (A -> bool)) (l : list A) : bool :=
  match ps, l with
  | [], [] => true
  | p :: ps', a :: l' => p a && forall2b ps' l'
  | _, _ => false
  end.

Fixpoint sorted_keys {V} (m : list (list N * V)) : bool :=
  match m with
  | [] => true
  | (k, _) :: t =>
    match t with
    | [] => true
    | (k', _) :: _ => match bytes_cmp k k' with Lt => sorted_keys t | _ => false end
    end
  end.

(** A length fits in usize. (Real allocations are limited to isize::MAX; the larger bound only
    makes the theorems stronger.) *)
Definition usize_ok (c : cfg) (n : N) : bool := n <? 2 ^ usize_bits c.
(** A Rust String: valid UTF-8. *)
Definition str_ok (c : cfg) (bs : list N) : bool := utf8_valid bs && usize_ok c (lenN bs).
Definition buf_ok (c : cfg) (bs : list N) : bool := bytes_okb bs && usize_ok c (lenN bs).

Definition strkey (kv : sval * sval) : option (list N * sval) :=
  match kv with (SStr k, v) => Some (k, v) | _ => None end.
Fixpoint strkeys (l : list (sval * sval)) : option (list (list N * sval)) :=
  match l with
  | [] => Some []
  | kv :: t =>
    match strkey kv, strkeys t with Some p, Some m => Some (p :: m) | _, _ => None end
  end.

Definition vec_u8_of (v : sval) : option (list N) :=
  match v with
  | SSeq (Some n) l =>
    match fold_right (fun x acc => match x, acc with SU8 b, Some t => Some (b :: t) | _, _ => None end)
                     (Some []) l with
    | Some bs => if (n =? lenN bs) then Some bs else None
    | None => None
    end
  | _ => None
  end.
Definition vec_u8_ok (c : cfg) (v : sval) : bool :=
  match vec_u8_of v with Some bs => buf_ok c bs | None => false end.

(** [has_ty c d v]: [v] is what the Serialize impl of a value of type [d] produces. *)
Fixpoint has_ty (c : cfg) (d : dty) (v : sval) {struct d} : bool :=
  match d with
  | DBool => match v with SBool _ => true | _ => false end
  | DI8 => match v with SI8 z => in_s 8 z | _ => false end
  | DI16 => match v with SI16 z => in_s 16 z | _ => false end
  | DI32 => match v with SI32 z => in_s 32 z | _ => false end
  | DI64 => match v with SI64 z => in_s 64 z | _ => false end
  | DU8 => match v with SU8 n => n <? 2 ^ 8 | _ => false end
  | DU16 => match v with SU16 n => n <? 2 ^ 16 | _ => false end
  | DU32 => match v with SU32 n => n <? 2 ^ 32 | _ => false end
  | DU64 => match v with SU64 n => n <? 2 ^ 64 | _ => false end
  | DIsize => match v with SI64 z => in_s (usize_bits c) z | _ => false end
  | DUsize => match v with SU64 n => usize_ok c n | _ => false end
  | DF32 => match v with SF32 n => n <? 2 ^ 32 | _ => false end
  | DF64 => match v with SF64 n => n <? 2 ^ 64 | _ => false end
  | DChar => match v with SChar ch => is_scalar ch | _ => false end
  | DString => match v with SStr bs => str_ok c bs | _ => false end
  | DByteBuf => match v with SBytes bs => buf_ok c bs | _ => false end
  | DOption d => match v with SNone => true | SSome v => has_ty c d v | _ => false end
  | DUnit => match v with SUnit => true | _ => false end
  | DUnitStruct => match v with SUnitStruct => true | _ => false end
  | DNewtypeStruct d => match v with SNewtypeStruct v => has_ty c d v | _ => false end
  | DVec d =>
    match v with
    | SSeq (Some n) l => (n =? lenN l) && usize_ok c n && forallb (has_ty c d) l
    | _ => false
    end
  | DTuple ds => match v with STuple l => forall2b (map (has_ty c) ds) l | _ => false end
  | DTupleStruct ds => match v with STupleStruct l => forall2b (map (has_ty c) ds) l | _ => false end
  | DMap d =>
    match v with
    | SMap (Some n) l =>
      match strkeys l with
      | Some m => (n =? lenN l) && usize_ok c n && sorted_keys m
                  && forallb (fun kv => str_ok c (fst kv) && has_ty c d (snd kv)) m
      | None => false
      end
    | _ => false
    end
  | DStruct _ fields =>
    match v with
    | SStruct l =>
      forall2b (map (fun nf kv => String.eqb (fst nf) (fst kv) && has_ty c (snd nf) (snd kv)) fields) l
    | _ => false
    end
  | DEnum vs =>
    let alt i (w : vkind -> option sval) :=
      match pickN (map (fun kd => match w (fst kd) with Some x => has_ty c (snd kd) x | None => false end) vs) i
      with Some b => b | None => false end in
    match v with
    | SUnitVariant i => alt i (fun k => match k with KUnit => Some SUnit | _ => None end)
    | SNewtypeVariant i v => alt i (fun k => match k with KNewtype => Some v | _ => None end)
    | STupleVariant i l => alt i (fun k => match k with KTuple => Some (STuple l) | _ => None end)
    | SStructVariant i l => alt i (fun k => match k with KStruct => Some (SStruct l) | _ => None end)
    | _ => false
    end
  | DBigUint | DBigInt =>
    match v with SSeq None [v] => vec_u8_ok c v | _ => false end
  | DBigDecimal =>
    match v with
    | SSeq None [SU8 0] => true
    | SSeq None [v; SI64 s] => vec_u8_ok c v && in_s 64 s &&
        match v with SSeq (Some 0) _ => false | _ => true end
    | _ => false
    end
  | DDate =>
    match v with
    | STuple [SI32 y; SU16 o] =>
      in_s 32 y && (o <? 2 ^ 16)
      && (negb (overflow_checks c) || (in_s 32 (y + YEAR_OFFSET) && (o + ORDINAL_OFFSET <? 2 ^ 16)))
    | _ => false
    end
  | DDateTime =>
    match v with
    | SStruct [(a, SI64 t); (b, SU32 n)] =>
      String.eqb a "unix_timestamp" && String.eqb b "nanosecond" && in_s 64 t && (n <? 2 ^ 32)
    | _ => false
    end
  | DI128 | DU128 | DStr | DBytes | DAny | DIgnored => false
  end.

(** Well-formed derived types: FIELDS lists the field names once each, in order (serde_derive,
    no aliases); at most 16384 variants; payload types as serde_derive generates them. *)
Fixpoint nodupb (l : list string) : bool :=
  match l with [] => true | x :: t => negb (existsb (String.eqb x) t) && nodupb t end.
Definition payload_shape (k : vkind) (d : dty) : bool :=
  match k, d with
  | KUnit, DUnit => true
  | KNewtype, _ => true
  | KTuple, DTuple _ => true
  | KStruct, DStruct _ _ => true
  | _, _ => false
  end.
Fixpoint wf_dty (d : dty) : bool :=
  match d with
  | DI128 | DU128 | DStr | DBytes | DAny | DIgnored => false
  | DOption d | DNewtypeStruct d | DVec d | DMap d => wf_dty d
  | DTuple ds | DTupleStruct ds => forallb wf_dty ds
  | DStruct keys fields =>
    (if list_eq_dec string_dec keys (map fst fields) then true else false)
    && nodupb (map fst fields) && forallb (fun nf => wf_dty (snd nf)) fields
  | DEnum vs =>
    (lenN vs <=? 16384) && forallb (fun kd => payload_shape (fst kd) (snd kd) && wf_dty (snd kd)) vs
  | _ => true
  end.
