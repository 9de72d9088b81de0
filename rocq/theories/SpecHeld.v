(** * Memory that values of standard library types and of recursive types occupy outside themselves. *)
From Coq Require Import String.
From Verif Require Import Base Serde SpecDty SpecRequest Rec Std Grow SpecGrow GrowRec GrowStd SpecPeakStd.
Local Open Scope list_scope.
Local Open Scope N_scope.

(** As [held]. *)
Fixpoint std_held (l : slayout) (t : stdty) (v : stdval) {struct t} : N :=
  match t, v with
  | TPlain d, Std.XPlain w | TNonZero d, Std.XPlain w => held (s_mem l) d w
  | TOption t, XSome v => std_held l t v
  | TVec t, XSeq vs => lenN vs * s_size l t + total (map (std_held l t) vs)
  | TSet _ t, XSeq vs => set_total (s_set l (s_size l t)) (length vs) + total (map (std_held l t) vs)
  | TArray _ t, Std.XTuple vs => total (map (std_held l t) vs)
  | TTuple ts, Std.XTuple vs => all_of (map (std_held l) ts) vs
  | TRange t, XRange a b | TRangeInclusive t, XRangeInclusive a b _ => std_held l t a + std_held l t b
  | TBound t, XIncluded v | TBound t, XExcluded v => std_held l t v
  | TResult t _, XOk v | TResult _ t, XErr v => std_held l t v
  | TCString, XCString bs | TOsString, XOsString bs | TPathBuf, XPath bs => lenN bs
  | TMap t, XDict kvs =>
      map_total (s_mem l) (s_size l t) (length kvs) + total (map (fun kv => lenN (fst kv) + std_held l t (snd kv)) kvs)
  | TStruct fs, XRecord vs => all_of (map (fun nf => std_held l (snd nf)) fs) (map snd vs)
  | TEnum vs, XVariant _ i v => match pickN (map (fun v => std_held l (snd v)) vs) i with Some f => f v | None => 0 end
  | _, _ => 0
  end.

(** [call i v]: what an item holds; its box comes on top. *)
Fixpoint x_held (l : layout) (call : nat -> sval -> N) (t : xty) (v : sval) {struct t} : N :=
  match t, v with
  | Rec.XPlain d, v => held (l_mem l) d v
  | XOption t, SSome v => x_held l call t v
  | XNewtypeStruct t, SNewtypeStruct v => x_held l call t v
  | XVec t, SSeq _ vs => lenN vs * l_size l t + total (map (x_held l call t) vs)
  | XMap t, SMap _ kvs =>
      map_total (l_mem l) (l_size l t) (length kvs) + total (map (fun kv => text_size (fst kv) + x_held l call t (snd kv)) kvs)
  | Rec.XTuple ts, STuple vs | XTupleStruct ts, STupleStruct vs => all_of (map (x_held l call) ts) vs
  | XStruct _ fs, SStruct vs => all_of (map (fun nf => x_held l call (snd nf)) fs) (map snd vs)
  | XEnum _, SUnitVariant _ => 0
  | XEnum vs, v =>
      match variant_index v with
      | Some i => match pickN (map (fun kd => x_held l call (snd kd)) vs) i with Some f => f (inside v) | None => 0 end
      | None => 0
      end
  | XItem i, v => l_box l i + call i v
  | _, _ => 0
  end.
(** Down to [n] levels. *)
Fixpoint item_held (l : layout) (items : list xty) (n : nat) (i : nat) (v : sval) {struct n} : N :=
  match n with
  | O => 0
  | S n => match nth_error items i with Some t => x_held l (item_held l items n) t v | None => 0 end
  end.
