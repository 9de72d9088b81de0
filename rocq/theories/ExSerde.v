(** * Concrete platform, types and values used by the Examples. *)
From Coq Require Import String.
From Verif Require Import Base Serde.
Local Open Scope list_scope.
Local Open Scope N_scope.

Definition c64 : cfg := Cfg true 64 1 1 4096.
Definition c32 : cfg := Cfg false 32 1 1 4096.

(** enum Shape { Dot, Named(String), Line(i32, i32), Box { w: u16, tags: Vec<u8> } } *)
Definition ex_enum : dty :=
  DEnum [(KUnit, DUnit); (KNewtype, DString); (KTuple, DTuple [DI32; DI32]);
         (KStruct, DStruct ["w"; "tags"]%string [("w"%string, DU16); ("tags"%string, DVec DU8)])].
(** struct Rec { id: u64, name: char, shapes: Vec<Shape>, extra: BTreeMap<String, Option<f64>>, when: Date } *)
Definition ex_dty : dty :=
  DStruct ["id"; "name"; "shapes"; "extra"; "when"]%string
    [("id"%string, DU64); ("name"%string, DChar); ("shapes"%string, DVec ex_enum);
     ("extra"%string, DMap (DOption DF64)); ("when"%string, DDate)].
Definition ex_val : sval :=
  SStruct
    [("id"%string, SU64 (2 ^ 63)); ("name"%string, SChar 233);
     ("shapes"%string, SSeq (Some 4)
        [SUnitVariant 0; SNewtypeVariant 1 (SStr [104; 105]); STupleVariant 2 [SI32 (-1); SI32 70000];
         SStructVariant 3 [("w"%string, SU16 300); ("tags"%string, SSeq (Some 2) [SU8 7; SU8 255])]]);
     ("extra"%string, SMap (Some 2) [(SStr [97], SSome (SF64 4607182418800017408)); (SStr [97; 98], SNone)]);
     ("when"%string, STuple [SI32 22; SU16 41])].
Definition ex_bytes : list N :=
  [255; 0; 0; 0; 0; 0; 0; 0; 128; 2; 195; 169; 4; 0; 1; 2; 104; 105; 2; 1; 192; 23; 17; 3; 172; 4; 2; 7; 255; 2; 1; 97; 1; 0;
   0; 0; 0; 0; 0; 240; 63; 2; 97; 98; 0; 44; 41].
(** A type with both ends bounded (C61). *)
Definition ex_sized : dty :=
  DTuple [DU32; DOption DU64; DF32; DEnum [(KUnit, DUnit); (KNewtype, DI16)]; DVec DUnit; DVec (DEnum [])].
