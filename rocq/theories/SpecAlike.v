(** * What it means for a reader to decide as early as it can. *)
From Verif Require Import Base.
Local Open Scope list_scope.

(** A value read is decided by the bytes consumed: whatever follows them is left alone, and any
    proper prefix of them is reported as a read error. *)
Definition decided_by_bytes {A} (c : cfg) (p : prog A) : Prop :=
  forall s v r, bytes_ok s -> run c p s = OOk v r ->
  exists u, s = u ++ r /\ (forall t, run c p (u ++ t) = OOk v t) /\
    (forall u1 x t1, u = u1 ++ x :: t1 -> run c p u1 = OErr ERead).
