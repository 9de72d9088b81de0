(** * Memory requests made while decoding.

    [requests c p s]: sizes of all buffers the decoder asks for up front while running [p] on
    input [s], in order: the buffer of each read_exact and each explicit with_capacity/vec![0; n].
    [take(n).read_to_end] grows its buffer with the data actually received and requests nothing
    up front. *)
From Verif Require Import Base.

Fixpoint requests {A} (c : cfg) (p : prog A) (s : list N) : list N :=
  match p with
  | Ret _ | Fail _ | Crash _ => []
  | ReadExact n e k => n :: (if lenN s <? n then [] else requests c (k (takeN n s)) (dropN n s))
  | ReadLimit n e k => requests c (k (takeN n s)) (dropN n s)
  | Alloc n k => n :: match alloc_result c n with Some _ => [] | None => requests c k s end
  end.

(** The heap allocations among them: sizes passed to Vec::with_capacity / vec![0; n], granted or
    not. *)
Fixpoint allocs {A} (c : cfg) (p : prog A) (s : list N) : list N :=
  match p with
  | Ret _ | Fail _ | Crash _ => []
  | ReadExact n e k => if lenN s <? n then [] else allocs c (k (takeN n s)) (dropN n s)
  | ReadLimit n e k => allocs c (k (takeN n s)) (dropN n s)
  | Alloc n k => n :: match alloc_result c n with Some _ => [] | None => allocs c k s end
  end.
Fixpoint total (l : list N) : N := match l with [] => 0 | n :: t => n + total t end.
