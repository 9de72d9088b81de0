(** * Types with conversions used by the Examples. *)
From Coq Require Import String.
From Verif Require Import Base Serde Std SpecStd Conv SpecConv.
Local Open Scope list_scope.
Local Open Scope N_scope.

(** #[serde(try_from = "u8", into = "u8")] struct Level(u8), at most 5 *)
Definition level : cty N :=
  CTry (fun v => match v with VUser n => Some (VStd (XPlain (SU8 n))) | _ => None end)
       (fun v => match v with VStd (XPlain (SU8 n)) => if n <=? 5 then Some (VUser n) else None | _ => None end)
       (CStd (TPlain DU8)).
(** #[serde(transparent)] struct Wait(Duration) *)
Definition wait : cty N := CFrom (fun v => v) (fun v => v) (CStd TDuration).
(** #[serde(from = "u16", into = "u16")], in tens *)
Definition tens : cty N :=
  CFrom (fun v => match v with VUser n => VStd (XPlain (SU16 (n / 10))) | _ => v end)
        (fun v => match v with VStd (XPlain (SU16 n)) => VUser (n * 10) | _ => v end)
        (CStd (TPlain DU16)).
(** struct { by: BTreeMap<String, Level>, wait: Option<Wait>, how: How }, enum How { No, All(Vec<Level>), At { x: Tens } } *)
Definition ex_how2 : cty N :=
  CEnum [(KUnit, CStd (TPlain DUnit)); (KNewtype, CVec level); (KStruct, CStruct [("x"%string, tens)])].
Definition ex_conv : cty N :=
  CStruct [("by"%string, CMap level); ("wait"%string, COption wait); ("how"%string, ex_how2)].
Definition ex_conv_val : cval N :=
  VRecord [("by"%string, VDict [([97], VUser 3); ([98], VUser 5)]); ("wait"%string, VSome (VStd (XDuration 7 9)));
           ("how"%string, VVariant KStruct 2 (VRecord [("x"%string, VUser 37)]))].
(** The tens are kept, the rest of the number is not. *)
Definition ex_conv_back : cval N :=
  VRecord [("by"%string, VDict [([97], VUser 3); ([98], VUser 5)]); ("wait"%string, VSome (VStd (XDuration 7 9)));
           ("how"%string, VVariant KStruct 2 (VRecord [("x"%string, VUser 30)]))].
(** #[serde(from = "u8", into = "u8")], in halves *)
Definition halves : cty N :=
  CFrom (fun v => match v with VUser n => VStd (XPlain (SU8 n)) | _ => v end)
        (fun v => match v with VStd (XPlain (SU8 n)) => VUser (n / 2) | _ => v end)
        (CStd (TPlain DU8)).
(** serialize_with = a function that refuses 0 *)
Definition no_zero : cty N :=
  CTry (fun v => match v with VUser 0 => None | VUser n => Some (VStd (XPlain (SU8 n))) | _ => None end)
       (fun v => match v with VStd (XPlain (SU8 n)) => Some (VUser n) | _ => None end)
       (CStd (TPlain DU8)).
