(** * Memory asked for while reading: specification. *)
From Coq Require Import String.
From Verif Require Import Base Serde Header Body SpecDty SpecRequest SpecHeap Grow.
Local Open Scope N_scope.

(** What a map of n entries has asked for, with values of a given size. *)
Fixpoint map_total (m : mem) (size : N) (n : nat) : N :=
  match n with O => 0 | S k => map_total m size k + total (m_insert m size (N.of_nat k)) end.
(** What is assumed of std and of the layout: a buffer that is filled from nothing asks for at most 4
    times its content and 64 bytes, a map on average for at most [e] bytes per entry, and members that
    take no bytes in the input are of size zero. *)
Definition sound_mem (m : mem) (e : N -> N) : Prop :=
  (forall n, total (m_text m n) <= 4 * n + 64) /\
  (forall size n, map_total m size n <= N.of_nat n * e size) /\
  (forall d, occupies d = false -> m_size m d = 0).

(** Bytes asked for, for each byte of input that is read. *)
Fixpoint grow_byte (c : cfg) (m : mem) (e : N -> N) (d : dty) : N :=
  match d with
  | DChar | DString => 13
  | DByteBuf => per_buffer_byte c + 12
  | DBigUint | DBigInt | DBigDecimal => 12
  | DOption d | DNewtypeStruct d => grow_byte c m e d
  | DVec d => 12 * m_size m d + grow_byte c m e d
  | DMap d => e (m_size m d) + N.max 13 (grow_byte c m e d)
  | DTuple ds | DTupleStruct ds => fold_right (fun d n => N.max (grow_byte c m e d) n) 0 ds
  | DStruct _ fs => fold_right (fun nf n => N.max (grow_byte c m e (snd nf)) n) 0 fs
  | DEnum vs => fold_right (fun v n => N.max (grow_byte c m e (snd v)) n) 0 vs
  | _ => 0
  end.
(** The same for bodies; their fixed part and what unfinished arrays hold are those of SpecHeap. *)
Fixpoint grow_byte_body (c : cfg) (e : N -> N) (h : header) : N :=
  match h with
  | HString => 13
  | HBinary => per_buffer_byte c + 12
  | HBigUInt | HBigInt | HBigDecimal => 12
  | HOptional h => N.max (size_of_body c) (grow_byte_body c e h)
  | HArray h => 13 * size_of_body c + fixed_part c h + grow_byte_body c e h
  | HMap h => e (size_of_body c) + fixed_part c h + N.max 13 (grow_byte_body c e h)
  | HTuple hs => fold_right (fun h n => N.max (grow_byte_body c e h) n) 0 hs
  | HEnum hs => fold_right (fun h n => N.max (grow_byte_body c e h) n) (size_of_body c) hs
  | _ => 0
  end.

(** ** Memory that a value occupies outside itself *)
Fixpoint all_of {A} (fs : list (A -> N)) (l : list A) : N :=
  match fs, l with f :: fs, v :: l => f v + all_of fs l | _, _ => 0 end.
(** What is inside a variant. *)
Definition inside (v : sval) : sval :=
  match v with
  | SNewtypeVariant _ v => v
  | STupleVariant _ l => STuple l
  | SStructVariant _ l => SStruct l
  | _ => SUnit
  end.
Definition text_size (k : sval) : N := match k with SStr s => lenN s | _ => 0 end.
Fixpoint held (m : mem) (d : dty) (v : sval) {struct d} : N :=
  match d, v with
  | DString, SStr s => lenN s
  | DByteBuf, SBytes s => lenN s
  | DBigUint, SSeq _ [SSeq _ bs] | DBigInt, SSeq _ [SSeq _ bs] => lenN bs
  | DBigDecimal, SSeq _ (SSeq _ bs :: _) => lenN bs
  | DOption d, SSome v => held m d v
  | DNewtypeStruct d, SNewtypeStruct v => held m d v
  | DVec d, SSeq _ l => lenN l * m_size m d + total (map (held m d) l)
  | DMap d, SMap _ l =>
      map_total m (m_size m d) (length l) + total (map (fun kv => text_size (fst kv) + held m d (snd kv)) l)
  | DTuple ds, STuple l | DTupleStruct ds, STupleStruct l => all_of (map (held m) ds) l
  | DStruct _ fs, SStruct l => all_of (map (fun nf => held m (snd nf)) fs) (map snd l)
  | DEnum vs, v =>
      match variant_index v with
      | Some i => match pickN (map (fun kd => held m (snd kd)) vs) i with Some f => f (inside v) | None => 0 end
      | None => 0
      end
  | _, _ => 0
  end.
Fixpoint held_body (c : cfg) (m : mem) (b : body) : N :=
  match b with
  | BOptional (Some b) => size_of_body c + held_body c m b
  | BBigUInt bs | BBigInt bs | BBigDecimal bs _ | BString bs | BBinary bs => lenN bs
  | BArray l | BTuple l => lenN l * size_of_body c + total (map (held_body c m) l)
  | BMap l =>
      map_total m (size_of_body c) (length l) + total (map (fun kv => lenN (fst kv) + held_body c m (snd kv)) l)
  | BEnum _ b => size_of_body c + held_body c m b
  | _ => 0
  end.
(** A buffer was asked to be as large as what it holds. *)
Definition holds_text (m : mem) : Prop := forall n, n <= total (m_text m n).
