(** * Specification vocabulary for maps and streams. *)
From Coq Require Import List NArith.
From Verif Require Import Base Serde.
Import ListNotations.
Local Open Scope N_scope.

(** Lexicographic order on byte strings: what [str]'s Ord is. *)
Definition lex_lt (a b : list N) : Prop :=
  exists p, (exists y t, a = p /\ b = p ++ y :: t) \/
            (exists x s y t, a = p ++ x :: s /\ b = p ++ y :: t /\ x < y).

(** Value bound to [k] in an association list; the last binding wins. *)
Fixpoint last_binding {V} (k : list N) (l : list (list N * V)) : option V :=
  match l with
  | [] => None
  | (k', v) :: t =>
    match last_binding k t with
    | Some w => Some w
    | None => if list_eq_dec N.eq_dec k k' then Some v else None
    end
  end.

(** Reading values of types [ds] one after another from [s]. *)
Inductive reads (c : cfg) : list dty -> list N -> list sval -> list N -> Prop :=
| reads_nil s : reads c [] s [] s
| reads_cons d ds s v s' vs r :
    run c (de c d) s = OOk v s' -> reads c ds s' vs r -> reads c (d :: ds) s (v :: vs) r.

(** A map entry list as serde sees it. *)
Definition entries (l : list (list N * sval)) : list (sval * sval) :=
  map (fun kv => (SStr (fst kv), snd kv)) l.
(** A map entry as a (String, V) tuple. *)
Definition entry_tuple (kv : list N * sval) : sval := STuple [SStr (fst kv); snd kv].
