(** * Memory asked for per byte by types of the standard library. *)
From Coq Require Import String.
From Verif Require Import Base Serde SpecDty SpecRequest SpecHeap Std SpecStd Grow SpecGrow GrowStd SpecPeak.
Local Open Scope list_scope.
Local Open Scope N_scope.

(** What a set asks for to reach n members. *)
Fixpoint set_total (ask : N -> list N) (n : nat) : N :=
  match n with O => 0 | S n => set_total ask n + total (ask (N.of_nat n)) end.

(** Two bytes for every CString that is always there. *)
Fixpoint owed (t : stdty) : N :=
  match t with
  | TCString => 2
  | TArray n t => N.of_nat n * owed t
  | TTuple ts => added owed ts
  | TRange t | TRangeInclusive t => 2 * owed t
  | TStruct fs => added (fun nf => owed (snd nf)) fs
  | _ => 0
  end.
(** As [peak]; [es]: what a set asks for each member, by its size. *)
Fixpoint speak (c : cfg) (l : slayout) (e es : N -> N) (t : stdty) : N :=
  match t with
  | TPlain d | TNonZero d => peak c (s_mem l) e d
  | TOption t | TBound t => N.max (owed t) (speak c l e es t)
  | TVec t => N.max (12 * s_size l t + owed t) (speak c l e es t)
  | TSet _ t => N.max (es (s_size l t) + owed t) (speak c l e es t)
  | TArray _ t | TRange t | TRangeInclusive t => speak c l e es t
  | TTuple ts => largest (speak c l e es) ts
  | TResult t u => N.max (N.max (owed t) (speak c l e es t)) (N.max (owed u) (speak c l e es u))
  | TCString => per_buffer_byte c + 14
  | TOsString => 12
  | TPathBuf => 16
  | TMap t => N.max (e (s_size l t) + owed t) (N.max 16 (speak c l e es t))
  | TStruct fs => largest (fun nf => speak c l e es (snd nf)) fs
  | TEnum vs => largest (fun v => N.max (owed (snd v)) (speak c l e es (snd v))) vs
  | _ => 0
  end.

(** As [sound_mem]; sets ask for no more than [es] for each member, whatever it takes in the input,
    and CString::new for the bytes and a zero, twice at most. Members of a set that take no bytes of
    the input take no memory. *)
Definition sound_slayout (l : slayout) (e es : N -> N) : Prop :=
  sound_mem (s_mem l) e /\
  (forall t, occupies (wire t) = false -> s_size l t = 0) /\
  (forall size n, set_total (s_set l size) n <= N.of_nat n * es size) /\
  (forall n, s_set l 0 n = []) /\
  (forall n, total (s_cstring l n) <= 2 * (n + 1)).
