(** * Base: effects, outcomes, configuration.

    Vocabulary shared by all model files. This file models no function of dlhn
    itself: it models the environment the crate runs in (std::io::Read,
    std::io::Write, allocation, integer overflow, panics). *)
From Coq Require Export List NArith ZArith Lia Bool.
From Coq Require Export ZifyBool ZifyN ZifyNat.
Export ListNotations.
Global Open Scope N_scope.

(** A byte is an [N] below 256. *)
Definition byte_ok (b : N) : Prop := b < 256.
Definition bytes_ok (bs : list N) : Prop := Forall byte_ok bs.
Definition bytes_okb (bs : list N) : bool := forallb (fun b => b <? 256) bs.

(** Length of a list as an [N]. *)
Definition lenN {A} (l : list A) : N := N.of_nat (length l).

(** Decoding errors.
    [ERead], [ECharSize], [EKey], [EMsg]: dlhn/src/de.rs:12-17 (enum Error; the
    text inside Message is not modelled).
    [EIo]: an io::Error returned by the reader (or UnexpectedEof), and
    [EInvalid]: io::ErrorKind::InvalidData, for dlhn/src/header/de.rs:72-75. *)
Inductive derr := ERead | ECharSize | EKey | EMsg | EIo | EInvalid.

(** Serialization errors, dlhn/src/ser.rs:12-16 (enum Error). *)
Inductive serr := SEWrite | SEKey | SEMsg.

(** Ways a run can crash instead of returning.
    [PTodo]     todo!() (de.rs:66, 207, 243, 381)
    [POverflow] "attempt to add/subtract with overflow" in a build with overflow checks
    [PCapacity] "capacity overflow" of Vec::with_capacity
    [PAlloc]    the allocator refuses a request (process abort)
    [PSlice]    slice index out of range
    [PStack]    stack exhausted by recursion
    [PTime]     "resulting value is out of range" of the time crate's [+]. *)
Inductive panic := PTodo | POverflow | PCapacity | PAlloc | PSlice | PStack | PTime.

(** Build/platform configuration. Theorems quantify over it.
    [heap_limit]: the largest single allocation, in bytes, the allocator grants. *)
Record cfg := Cfg {
  overflow_checks : bool;
  usize_bits : N;
  size_of_body : N;
  size_of_header : N;
  heap_limit : N }.

Definition isize_max (c : cfg) : N := 2 ^ (usize_bits c - 1) - 1.

(** The platforms Rust's std supports that matter here: 32- and 64-bit usize. *)
Definition wf_cfg (c : cfg) : Prop :=
  (usize_bits c = 32 \/ usize_bits c = 64) /\ 1 <= size_of_body c /\ 1 <= size_of_header c.

(** [x as usize] for x : u64. *)
Definition as_usize (c : cfg) (n : N) : N := n mod 2 ^ usize_bits c.

(** ** Decoding programs: trees of the effects performed by a decoder.
    [ReadExact n e k]: reader.read_exact on an n-byte buffer, error mapped to [e].
    [ReadLimit n e k]: reader.take(n).read_to_end/-string, I/O error mapped to [e].
    [Alloc n k]: Vec::with_capacity requesting n bytes. *)
Inductive prog (A : Type) : Type :=
| Ret (a : A)
| Fail (e : derr)
| Crash (p : panic)
| ReadExact (n : N) (e : derr) (k : list N -> prog A)
| ReadLimit (n : N) (e : derr) (k : list N -> prog A)
| Alloc (n : N) (k : prog A).
Arguments Ret {A} a.
Arguments Fail {A} e.
Arguments Crash {A} p.
Arguments ReadExact {A} n e k.
Arguments ReadLimit {A} n e k.
Arguments Alloc {A} n k.

Fixpoint bind {A B} (p : prog A) (f : A -> prog B) : prog B :=
  match p with
  | Ret a => f a
  | Fail e => Fail e
  | Crash q => Crash q
  | ReadExact n e k => ReadExact n e (fun bs => bind (k bs) f)
  | ReadLimit n e k => ReadLimit n e (fun bs => bind (k bs) f)
  | Alloc n k => Alloc n (bind k f)
  end.
Notation "x <- p ;; q" := (bind p (fun x => q)) (at level 61, p at next level, right associativity).

Definition pmap {A B} (f : A -> B) (p : prog A) : prog B := bind p (fun a => Ret (f a)).

(** Result of running a decoder over a byte string. *)
Inductive outcome (A : Type) : Type :=
| OOk (a : A) (rest : list N)
| OErr (e : derr)
| OPanic (p : panic).
Arguments OOk {A} a rest.
Arguments OErr {A} e.
Arguments OPanic {A} p.

Definition takeN (n : N) (s : list N) : list N := if lenN s <=? n then s else firstn (N.to_nat n) s.
Definition dropN (n : N) (s : list N) : list N := if lenN s <=? n then [] else skipn (N.to_nat n) s.

(** Vec::with_capacity: capacity overflow panics, refusal by the allocator aborts. *)
Definition alloc_result (c : cfg) (n : N) : option panic :=
  if isize_max c <? n then Some PCapacity
  else if heap_limit c <? n then Some PAlloc
  else None.

(** In-memory semantics: the reader is a byte slice. The reader state after an
    error is not part of the outcome (std leaves it unspecified). *)
Fixpoint run {A} (c : cfg) (p : prog A) (s : list N) : outcome A :=
  match p with
  | Ret a => OOk a s
  | Fail e => OErr e
  | Crash q => OPanic q
  | ReadExact n e k => if lenN s <? n then OErr e else run c (k (takeN n s)) (dropN n s)
  | ReadLimit n e k => run c (k (takeN n s)) (dropN n s)
  | Alloc n k => match alloc_result c n with Some q => OPanic q | None => run c k s end
  end.

(** ** Loops. [foldN n step s]: n times [s <- step s]. Binary recursion on n, so that the
    model still computes when n is a huge declared length and step fails early. *)
Fixpoint fold_pos {S} (n : positive) (step : S -> prog S) (s : S) : prog S :=
  match n with
  | xH => step s
  | xO m => s1 <- fold_pos m step s ;; fold_pos m step s1
  | xI m => s0 <- step s ;; s1 <- fold_pos m step s0 ;; fold_pos m step s1
  end.
Definition foldN {S} (n : N) (step : S -> prog S) (s : S) : prog S :=
  match n with N0 => Ret s | Npos m => fold_pos m step s end.

(** [repeatN n p]: run p n times, collect results in order. *)
Definition repeatN {A} (n : N) (p : prog A) : prog (list A) :=
  acc <- foldN n (fun acc => a <- p ;; Ret (a :: acc)) [] ;; Ret (rev acc).

(** Run a list of programs in order, collect results. *)
Fixpoint sequence {A} (ps : list (prog A)) : prog (list A) :=
  match ps with
  | [] => Ret []
  | p :: t => a <- p ;; l <- sequence t ;; Ret (a :: l)
  end.

(** [pickN ps i d]: the i-th program, or d if there is none (Vec::get(i)). *)
Fixpoint pickN {A} (l : list A) (i : N) : option A :=
  match l with
  | [] => None
  | a :: t => if i =? 0 then Some a else pickN t (i - 1)
  end.

(** ** Integer arithmetic with overflow. *)
Definition wrap_s (w : N) (z : Z) : Z :=
  ((z + 2 ^ (Z.of_N w - 1)) mod 2 ^ Z.of_N w - 2 ^ (Z.of_N w - 1))%Z.
Definition in_s (w : N) (z : Z) : bool :=
  ((- 2 ^ (Z.of_N w - 1) <=? z) && (z <? 2 ^ (Z.of_N w - 1)))%Z.
(** [+]/[-] on iw: panic under overflow checks, wrap otherwise. None = panic. *)
Definition arith_s (c : cfg) (w : N) (z : Z) : option Z :=
  if in_s w z then Some z else if overflow_checks c then None else Some (wrap_s w z).
(** [+]/[-] on uw; the exact result is given as a Z. *)
Definition arith_u (c : cfg) (w : N) (z : Z) : option N :=
  if ((0 <=? z) && (z <? 2 ^ Z.of_N w))%Z then Some (Z.to_N z)
  else if overflow_checks c then None else Some (Z.to_N (z mod 2 ^ Z.of_N w)).
Definition or_overflow {A} (o : option A) : prog A :=
  match o with Some a => Ret a | None => Crash POverflow end.

(** ** Write traces: the [write_all] calls a serializer performs, and its end. *)
Inductive wprog : Type :=
| WDone
| WFail (e : serr)
| WPanic (p : panic)
| WWrite (bs : list N) (k : wprog).

Fixpoint wseq (a b : wprog) : wprog :=
  match a with
  | WDone => b
  | WFail e => WFail e
  | WPanic p => WPanic p
  | WWrite bs k => WWrite bs (wseq k b)
  end.
Definition wr (bs : list N) : wprog := WWrite bs WDone.
Definition wconcat (l : list wprog) : wprog := fold_right wseq WDone l.

(** Everything written when the writer accepts everything. *)
Fixpoint wbytes (w : wprog) : list N :=
  match w with WWrite bs k => bs ++ wbytes k | _ => [] end.
(** How the trace ends when the writer accepts everything. *)
Inductive wend := WeOk | WeErr (e : serr) | WePanic (p : panic).
Fixpoint wresult (w : wprog) : wend :=
  match w with
  | WDone => WeOk | WFail e => WeErr e | WPanic p => WePanic p
  | WWrite _ k => wresult k
  end.
