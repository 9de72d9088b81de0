(** * Standard library types and values used by the Examples. *)
From Coq Require Import String.
From Verif Require Import Base Serde Std SpecStd.
Local Open Scope list_scope.
Local Open Scope N_scope.

(** u16's Ord *)
Definition by_number (x y : stdval) : comparison :=
  let n v := match v with XPlain (SU16 n) => n | _ => 0 end in N.compare (n x) (n y).
Lemma by_number_lawful : lawful by_number.
Proof.
  unfold by_number. split; [|split]; intros x y.
  - apply N.compare_antisym.
  - intros z H1 H2. apply N.compare_lt_iff in H1. apply N.compare_lt_iff in H2. apply N.compare_lt_iff. exact (N.lt_trans _ _ _ H1 H2).
  - intros z H. apply N.compare_eq in H. rewrite H. reflexivity.
Qed.
(** (Result<Duration, PathBuf>, BTreeSet<u16>, Option<SocketAddr>, Range<NonZeroI8>) *)
Definition ex_std : stdty :=
  TTuple [TResult TDuration TPathBuf; TSet by_number (TPlain DU16); TOption TSockAddr; TRange (TNonZero DI8)].
Definition ex_std_val : stdval :=
  XTuple [XOk (XDuration 7 999999999); XSeq [XPlain (SU16 3); XPlain (SU16 500)];
          XSome (XV6 (XSock6 [32; 1; 0; 0; 0; 0; 0; 0; 0; 0; 0; 0; 0; 0; 0; 9] 8080 5 2)); XRange (XPlain (SI8 (-4))) (XPlain (SI8 3))].
Definition ex_std_back : stdval :=
  XTuple [XOk (XDuration 7 999999999); XSeq [XPlain (SU16 3); XPlain (SU16 500)];
          XSome (XV6 (XSock6 [32; 1; 0; 0; 0; 0; 0; 0; 0; 0; 0; 0; 0; 0; 0; 9] 8080 0 0)); XRange (XPlain (SI8 (-4))) (XPlain (SI8 3))].

(** struct { at: Option<SystemTime>, by: BTreeMap<String, NonZeroU8>, how: How };
    enum How { Never, Wait(Duration, Ipv4Addr), Move { to: PathBuf } } *)
Definition ex_how : stdty :=
  TEnum [(KUnit, TPlain DUnit); (KTuple, TTuple [TDuration; TIp4]); (KStruct, TStruct [("to"%string, TPathBuf)])].
Definition ex_job : stdty :=
  TStruct [("at"%string, TOption TSystemTime); ("by"%string, TMap (TNonZero DU8)); ("how"%string, ex_how)].
Definition ex_job_val : stdval :=
  XRecord [("at"%string, XSome (XTime 5 6)); ("by"%string, XDict [([97], XPlain (SU8 3)); ([98], XPlain (SU8 4))]);
           ("how"%string, XVariant KTuple 1 (XTuple [XDuration 1 2; XIp4 [127; 0; 0; 1]]))].
