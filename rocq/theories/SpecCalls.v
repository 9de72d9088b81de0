(** * Calls made on the reader and the writer. *)
From Verif Require Import Base.

(** How often [p] calls its reader on input [s]: each read_exact and each take(n).read_to_end is one
    call, whether or not it succeeds. *)
Fixpoint reader_calls {A} (c : cfg) (p : prog A) (s : list N) : N :=
  match p with
  | Ret _ | Fail _ | Crash _ => 0
  | ReadExact n e k => 1 + (if lenN s <? n then 0 else reader_calls c (k (takeN n s)) (dropN n s))
  | ReadLimit n e k => 1 + reader_calls c (k (takeN n s)) (dropN n s)
  | Alloc n k => match alloc_result c n with Some _ => 0 | None => reader_calls c k s end
  end.

(** At most two calls for each byte consumed; a read that does not deliver may make one more than two
    for each byte of the input. *)
Definition two_per_byte {A} (o : outcome A) (s : list N) (calls : N) : Prop :=
  match o with
  | OOk _ rest => calls <= 2 * (lenN s - lenN rest)
  | _ => calls <= 2 * lenN s + 1
  end.

(** The calls of write_all, each with its bytes. *)
Fixpoint writer_calls (w : wprog) : list (list N) :=
  match w with
  | WDone | WFail _ | WPanic _ => []
  | WWrite bs k => bs :: writer_calls k
  end.
