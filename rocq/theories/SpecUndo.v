(** * Conversions that can be undone (C93). *)
From Coq Require Import List NArith String.
From Verif Require Import Base Serde Typing Std SpecStd SpecAgain Conv SpecConv.
Import ListNotations.
Local Open Scope list_scope.

(** [undone c t]: writing undoes what reading did, for whatever can be read. *)
Fixpoint undone {U} (c : cfg) (t : cty U) : Prop :=
  match t with
  | CStd _ => True
  | CFrom into from t => (forall w x, has_ty c (cwire t) w = true -> turned t w x -> into (from x) = x) /\ undone c t
  | CTry into from t => (forall w x v, has_ty c (cwire t) w = true -> turned t w x -> from x = Some v -> into v = Some x) /\ undone c t
  | COption t | CVec t | CMap t => undone c t
  | CTuple ts => fold_right (fun t P => undone c t /\ P) True ts
  | CStruct fs => fold_right (fun nf P => undone c (snd nf) /\ P) True fs
  | CEnum vs => fold_right (fun v P => undone c (snd v) /\ P) True vs
  end.
(** As [timed]. *)
Fixpoint ctimed {U} (t : cty U) : bool :=
  match t with
  | CStd t => timed t
  | CFrom _ _ t | CTry _ _ t | COption t | CVec t | CMap t => ctimed t
  | CTuple ts => existsb ctimed ts
  | CStruct fs => existsb (fun nf => ctimed (snd nf)) fs
  | CEnum vs => existsb (fun v => ctimed (snd v)) vs
  end.
