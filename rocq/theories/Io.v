(** * Readers that deliver bytes in arbitrary chunks, and writers that fail.

    Models the std functions through which the crate touches its reader and writer:
    Read::read_exact (default_read_exact), Read::take + read_to_end/read_to_string,
    Write::write_all. *)
From Verif Require Import Base.

(** ** Readers *)

(** What successive calls of [read] do: deliver (part of) a chunk, report
    ErrorKind::Interrupted, or report another error. After the last event: end of file.
    When the caller's buffer is smaller than the chunk, the rest stays for the next call. *)
Inductive ev := EvData (chunk : list N) | EvInterrupted | EvError.

(** Result of a read request on a stream. *)
Inductive rres := RGot (bs : list N) (rest : list ev) | REof | RErr.

(** std::io::default_read_exact: loop until n bytes; Interrupted is retried; Ok(0) is
    UnexpectedEof. An empty chunk is Ok(0). *)
Fixpoint ev_read_exact (n : N) (evs : list ev) : rres :=
  if n =? 0 then RGot [] evs
  else
    match evs with
    | [] => REof
    | EvInterrupted :: t => ev_read_exact n t
    | EvError :: _ => RErr
    | EvData [] :: _ => REof
    | EvData ch :: t =>
      if lenN ch <=? n then
        match ev_read_exact (n - lenN ch) t with
        | RGot bs rest => RGot (ch ++ bs) rest
        | r => r
        end
      else RGot (takeN n ch) (EvData (dropN n ch) :: t)
    end.

(** take(n).read_to_end: read until the limit or end of file; Interrupted is retried; a limit
    of zero does not touch the inner reader. *)
Fixpoint ev_read_limit (n : N) (evs : list ev) : rres :=
  if n =? 0 then RGot [] evs
  else
    match evs with
    | [] => RGot [] []
    | EvInterrupted :: t => ev_read_limit n t
    | EvError :: _ => RErr
    | EvData [] :: t => RGot [] t
    | EvData ch :: t =>
      if lenN ch <=? n then
        match ev_read_limit (n - lenN ch) t with
        | RGot bs rest => RGot (ch ++ bs) rest
        | r => r
        end
      else RGot (takeN n ch) (EvData (dropN n ch) :: t)
    end.

(** Outcome over an event stream. *)
Inductive eoutcome (A : Type) : Type :=
| EOk (a : A) (rest : list ev)
| EErr (e : derr)
| EPanic (p : panic).
Arguments EOk {A} a rest.  Arguments EErr {A} e.  Arguments EPanic {A} p.

Fixpoint exec {A} (c : cfg) (p : prog A) (evs : list ev) : eoutcome A :=
  match p with
  | Ret a => EOk a evs
  | Fail e => EErr e
  | Crash q => EPanic q
  | ReadExact n e k =>
    match ev_read_exact n evs with RGot bs rest => exec c (k bs) rest | _ => EErr e end
  | ReadLimit n e k =>
    match ev_read_limit n evs with RGot bs rest => exec c (k bs) rest | _ => EErr e end
  | Alloc n k => match alloc_result c n with Some q => EPanic q | None => exec c k evs end
  end.

(** ** Writers *)

(** What successive calls of [write] on a non-empty buffer do: accept up to n bytes (n >= 1),
    Interrupted, Ok(0), or an error. After the last event: accept everything. *)
Inductive wev := WvAccept (n : N) | WvInterrupted | WvZero | WvError.

(** std::io::Write::write_all. Result: (bytes that reached the writer, success, events left). *)
Fixpoint ev_write_all (bs : list N) (evs : list wev) : list N * bool * list wev :=
  match bs with
  | [] => ([], true, evs)
  | _ =>
    match evs with
    | [] => (bs, true, [])
    | WvInterrupted :: t => ev_write_all bs t
    | WvZero :: t | WvError :: t => ([], false, t)
    | WvAccept n :: t =>
      let m := N.max 1 n in
      if lenN bs <=? m then (bs, true, t)
      else
        let '(out, ok, t') := ev_write_all (dropN m bs) t in
        (takeN m bs ++ out, ok, t')
    end
  end.

(** Running a serializer: a failed write_all ends it with Error::Write (ser.rs, every
    [.or(Err(Error::Write))]). Result: bytes that reached the writer, and the outcome. *)
Fixpoint wexec (w : wprog) (evs : list wev) : list N * wend :=
  match w with
  | WDone => ([], WeOk)
  | WFail e => ([], WeErr e)
  | WPanic p => ([], WePanic p)
  | WWrite bs k =>
    let '(out, ok, t) := ev_write_all bs evs in
    if ok then let '(out', r) := wexec k t in (out ++ out', r)
    else (out, WeErr SEWrite)
  end.
