(** * Reading recursive types, with the memory that containers and boxes ask for.

    [item_de] (Rec.v) with the requests of Grow.v. serde reads a Box<T> as a T and then boxes it
    (Box::new). Sizes depend on the layout the compiler chooses and are left open, as [layout]. *)
From Coq Require Import String.
From Verif Require Import Base Varint Serde Rec Grow.
Local Open Scope list_scope.
Local Open Scope N_scope.

Record layout := Layout {
  l_mem : mem;
  l_size : xty -> N;          (* size_of of a type that mentions items *)
  l_box : nat -> N;           (* size_of of item i, if it is mentioned as Box<T>; 0 if as T *)
}.

(** Box::new; nothing is asked for if the size is 0. *)
Definition g_box {A} (size : N) (p : prog A) : prog A :=
  if size =? 0 then p else v <- p ;; Alloc size (Ret v).

(** As [Rec.xde]. *)
Fixpoint gxde (c : cfg) (l : layout) (call : nat -> prog sval) (t : xty) {struct t} : prog sval :=
  match t with
  | XPlain d => gde c (l_mem l) d
  | XOption t => pmap (fun o => match o with Some v => SSome v | None => SNone end) (de_option (gxde c l call t))
  | XNewtypeStruct t => pmap SNewtypeStruct (gxde c l call t)
  | XVec t => pmap (fun vs => SSeq (Some (lenN vs)) vs) (g_vec c (l_size l t) (gxde c l call t))
  | XMap t =>
      pmap (fun m => SMap (Some (lenN m)) (map (fun kv => (SStr (fst kv), snd kv)) m))
           (g_map c (l_mem l) (l_size l t) (gxde c l call t))
  | XTuple ts => pmap STuple (sequence (map (gxde c l call) ts))
  | XTupleStruct ts => pmap STupleStruct (sequence (map (gxde c l call) ts))
  | XStruct keys fields =>
      pmap (fun vs => SStruct (combine (map fst fields) vs))
           (de_struct keys (map (fun nf => (fst nf, gxde c l call (snd nf))) fields)
                      (map (fun nf => xmissing (snd nf)) fields))
  | XEnum vs =>
      de_enum (map (fun v i => pmap (variant_sval (fst v) i) (gxde c l call (snd v))) vs)
  | XItem i => g_box (l_box l i) (call i)
  end.
(** As [Rec.item_de]. *)
Fixpoint gitem (c : cfg) (l : layout) (items : list xty) (depth : nat) (i : nat) {struct depth} : prog sval :=
  match depth with
  | O => Crash PStack
  | S n => match nth_error items i with Some t => gxde c l (gitem c l items n) t | None => Crash PStack end
  end.
