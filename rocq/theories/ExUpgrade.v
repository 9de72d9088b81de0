(** * A type before and after changes, with a value (examples of C77). *)
From Coq Require Import String.
From Verif Require Import Base Serde.
Local Open Scope list_scope.
Local Open Scope N_scope.

Definition ex_old : dty :=
  DStruct ["on"; "initial"; "pos"; "kind"; "tags"]%string
    [("on"%string, DBool); ("initial"%string, DChar); ("pos"%string, DTuple [DI32; DI32]);
     ("kind"%string, DEnum [(KUnit, DUnit); (KTuple, DTuple [DU8])]); ("tags"%string, DMap DBool)].
Definition ex_new : dty :=
  DStruct ["state"; "name"; "x"; "y"; "sort"; "labels"]%string
    [("state"%string, DOption DUnit); ("name"%string, DString); ("x"%string, DI32); ("y"%string, DI32);
     ("sort"%string, DEnum [(KUnit, DUnit); (KNewtype, DU8); (KNewtype, DString)]);
     ("labels"%string, DVec (DTuple [DString; DBool]))].
Definition ex_v : sval :=
  SStruct [("on"%string, SBool true); ("initial"%string, SChar 233); ("pos"%string, STuple [SI32 (-1); SI32 70000]);
    ("kind"%string, STupleVariant 1 [SU8 200]); ("tags"%string, SMap (Some 1) [(SStr [97], SBool false)])].
Definition ex_v' : sval :=
  SStruct [("state"%string, SSome SUnit); ("name"%string, SStr [195; 169]); ("x"%string, SI32 (-1)); ("y"%string, SI32 70000);
    ("sort"%string, SNewtypeVariant 1 (SU8 200)); ("labels"%string, SSeq (Some 1) [STuple [SStr [97]; SBool false]])].
