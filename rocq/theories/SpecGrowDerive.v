(** * Memory asked for by derived types: specification. *)
From Coq Require Import String.
From Verif Require Import Base Serde Typing Derive SpecDerive SpecDeriveDe SpecDty SpecRequest SpecHeap SpecGrow DeriveDe Grow GrowDerive.
Local Open Scope N_scope.

(** What is assumed of std and num-bigint: as for C89, for both kinds of map, and a number built from n
    bytes asks for at most 4 n + 64 bytes. *)
Definition sound_layout (l : rlayout) (e h : N -> N) : Prop :=
  (forall n, total (m_text (r_tree l) n) <= 4 * n + 64) /\ (forall n, total (m_text (r_hash l) n) <= 4 * n + 64) /\
  (forall size n, map_total (r_tree l) size n <= N.of_nat n * e size) /\
  (forall size n, map_total (r_hash l) size n <= N.of_nat n * h size) /\
  (forall n, total (r_num l n) <= 4 * n + 64).

(** Types whose values take at least one byte of input: skipped fields take none. *)
Definition leaf_occupies (k : leaf) : bool := match k with LUnit => false | _ => true end.
Fixpoint roccupies (t : rty) : bool :=
  match t with
  | RLeaf k => leaf_occupies k
  | RTuple ts => existsb roccupies ts
  | RStruct k fs =>
      existsb (fun f => negb (serde_skips_de (fst f)) && roccupies (snd (snd f))) fs &&
      match k with
      | UnitLike => false
      | Unnamed => true
      | Named => nodupb (map (fun f => fst (snd f)) (filter (fun f => negb (serde_skips_de (fst f))) fs))   (* rustc refuses others *)
      end
  | _ => true
  end.
(** No vector of members that take memory but no input, in the parts that are read. *)
Fixpoint dense (l : rlayout) (t : rty) : bool :=
  match t with
  | ROption t | RBTreeMap t | RHashMap t => dense l t
  | RVec t => (roccupies t || (r_size l t =? 0)) && dense l t
  | RTuple ts => forallb (dense l) ts
  | RStruct _ fs => forallb (fun f => serde_skips_de (fst f) || dense l (snd (snd f))) fs
  | REnum vs => forallb (fun v => serde_skips_de (fst v) || forallb (fun f => serde_skips_de (fst f) || dense l (snd (snd f))) (snd (snd v))) vs
  | _ => true
  end.

(** Bytes asked for, for each byte of input that is read. *)
Definition leaf_grow (c : cfg) (k : leaf) : N :=
  match k with
  | LString => 13
  | LByteBuf => per_buffer_byte c + 12
  | LBigUint | LBigInt | LBigDecimal => 12
  | LNumBigUint | LNumBigInt | LExtBigDecimal => 76
  | _ => 0
  end.
Fixpoint rgrow (c : cfg) (l : rlayout) (e h : N -> N) (t : rty) : N :=
  let field f := if serde_skips_de (fst f) then 0 else rgrow c l e h (snd (snd f)) in
  match t with
  | RLeaf k => leaf_grow c k
  | ROption t => rgrow c l e h t
  | RVec t => rgrow c l e h t + 12 * r_size l t
  | RBTreeMap t => e (r_size l t) + N.max 13 (rgrow c l e h t)
  | RHashMap t => h (r_size l t) + N.max 13 (rgrow c l e h t)
  | RTuple ts => fold_right (fun t n => N.max (rgrow c l e h t) n) 0 ts
  | RStruct _ fs => fold_right (fun f n => N.max (field f) n) 0 fs
  | REnum vs => fold_right (fun v n => N.max (if serde_skips_de (fst v) then 0 else fold_right (fun f n => N.max (field f) n) 0 (snd (snd v))) n) 0 vs
  | _ => 0
  end.

(** The least memory a value holds when it is complete: buffers as large as what they hold, slots of
    vectors, nodes of maps. Skipped fields and the digits of num-bigint are left out. *)
Fixpoint rheld (l : rlayout) (t : rty) (v : rval) {struct t} : N :=
  let field f := if serde_skips_de (fst f) then fun _ => 0 else rheld l (snd (snd f)) in
  match t, v with
  | RLeaf (LString | LByteBuf | LBigUint | LBigInt), VB bs | RLeaf LBigDecimal, VBDec bs _ => lenN bs
  | ROption t, VSome v => rheld l t v
  | RVec t, VSeq vs => lenN vs * r_size l t + total (map (rheld l t) vs)
  | RBTreeMap t, VMap m => map_total (r_tree l) (r_size l t) (length m) + total (map (fun kv => lenN (fst kv) + rheld l t (snd kv)) m)
  | RHashMap t, VMap m => map_total (r_hash l) (r_size l t) (length m) + total (map (fun kv => lenN (fst kv) + rheld l t (snd kv)) m)
  | RTuple ts, VSeq vs => all_of (map (rheld l) ts) vs
  | RStruct _ fs, VSeq vs => all_of (map field fs) vs
  | REnum alts, VVariant i vs => match pickN (map (fun a => all_of (map field (snd (snd a)))) alts) i with Some f => f vs | None => 0 end
  | _, _ => 0
  end.
