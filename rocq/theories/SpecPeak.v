(** * Memory asked for per byte, however deep values nest. *)
From Coq Require Import String.
From Verif Require Import Base Serde SpecDty SpecRequest SpecHeap Rec Grow SpecGrow GrowRec.
Local Open Scope list_scope.
Local Open Scope N_scope.

Definition largest {A} (f : A -> N) (l : list A) : N := fold_right (fun x n => N.max (f x) n) 0 l.
Definition added {A} (f : A -> N) (l : list A) : N := fold_right (fun x n => f x + n) 0 l.

(** Bytes asked for, for each byte of input that is read: the largest of what the parts of the type
    take, where [grow_byte] adds up what nested containers take. *)
Fixpoint peak (c : cfg) (m : mem) (e : N -> N) (d : dty) : N :=
  match d with
  | DChar | DString => 16
  | DByteBuf => per_buffer_byte c + 12
  | DBigUint | DBigInt | DBigDecimal => 12
  | DOption d | DNewtypeStruct d => peak c m e d
  | DVec d => N.max (12 * m_size m d) (peak c m e d)
  | DMap d => N.max (e (m_size m d)) (N.max 16 (peak c m e d))
  | DTuple ds | DTupleStruct ds => largest (peak c m e) ds
  | DStruct _ fs => largest (fun nf => peak c m e (snd nf)) fs
  | DEnum vs => largest (fun v => peak c m e (snd v)) vs
  | _ => 0
  end.

(** As [occupies]; items do. *)
Fixpoint xoccupies (t : xty) : bool :=
  match t with
  | XPlain d => occupies d
  | XNewtypeStruct t => xoccupies t
  | XTuple ts | XTupleStruct ts => existsb xoccupies ts
  | XStruct _ fs => existsb (fun nf => xoccupies (snd nf)) fs
  | _ => true
  end.
(** Boxes that are always there, also those inside them: [lead i] for those of item i. *)
Fixpoint boxes (l : layout) (lead : nat -> N) (t : xty) : N :=
  match t with
  | XItem i => l_box l i + lead i
  | XNewtypeStruct t => boxes l lead t
  | XTuple ts | XTupleStruct ts => added (boxes l lead) ts
  | XStruct _ fs => added (fun nf => boxes l lead (snd nf)) fs
  | _ => 0
  end.
(** As [peak]. *)
Fixpoint xpeak (c : cfg) (l : layout) (e : N -> N) (lead : nat -> N) (t : xty) : N :=
  match t with
  | XPlain d => peak c (l_mem l) e d
  | XOption t => N.max (boxes l lead t) (xpeak c l e lead t)
  | XNewtypeStruct t => xpeak c l e lead t
  | XVec t => N.max (12 * l_size l t + boxes l lead t) (xpeak c l e lead t)
  | XMap t => N.max (e (l_size l t) + boxes l lead t) (N.max 16 (xpeak c l e lead t))
  | XTuple ts | XTupleStruct ts => largest (xpeak c l e lead) ts
  | XStruct _ fs => largest (fun nf => xpeak c l e lead (snd nf)) fs
  | XEnum vs => largest (fun v => N.max (boxes l lead (snd v)) (xpeak c l e lead (snd v))) vs
  | XItem _ => 0
  end.
(** The largest of all items'. *)
Definition items_peak (c : cfg) (l : layout) (e : N -> N) (lead : nat -> N) (items : list xty) : N :=
  largest (xpeak c l e lead) items.

(** As [sound_mem]: what takes no bytes in the input takes no memory in a vector; and no item is a
    box of itself without an Option, Vec, map or enum in between, which would have no values. *)
Definition sound_layout (l : layout) (e : N -> N) : Prop :=
  sound_mem (l_mem l) e /\ forall t, xoccupies t = false -> l_size l t = 0.
Definition leads (l : layout) (lead : nat -> N) (items : list xty) : Prop :=
  forall i t, nth_error items i = Some t -> xoccupies t = true /\ boxes l lead t <= lead i.
