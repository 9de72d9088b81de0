(** * Changes of a header under which bodies written before stay readable.

    [hupgrade h h' f]: bodies of [h] can be read with header [h'], and a body [b] then becomes [f b]. *)
From Verif Require Import Base Serde Header Body.

Definition b_bool_u8 (b : body) : body := match b with BBoolean b => BUInt8 (if b then 1 else 0) | b => b end.
Definition b_bool_option (b : body) : body :=
  match b with BBoolean true => BOptional (Some BUnit) | BBoolean false => BOptional None | b => b end.
Definition b_binary (b : body) : body :=
  match b with
  | BString bs | BBigUInt bs | BBigInt bs => BBinary bs
  | BArray l => BBinary (map (fun x => match x with BUInt8 n => n | _ => 0 end) l)
  | b => b
  end.
Definition b_array (b : body) : body :=
  match b with
  | BBinary bs => BArray (map BUInt8 bs)
  | BMap m => BArray (map (fun kv => BTuple [BString (fst kv); snd kv]) m)
  | b => b
  end.
Definition b_big_uint (b : body) : body := match b with BBinary bs => BBigUInt bs | b => b end.
Definition b_big_int (b : body) : body := match b with BBinary bs => BBigInt bs | b => b end.
Definition b_tuple (b : body) : body :=
  match b with
  | BUnit => BTuple []
  | BDate y o => BTuple [BInt32 (y - 2000); BUInt16 (o - 1)]
  | BDateTime t n => BTuple [BInt64 t; BUInt32 n]
  | b => b
  end.
Definition b_single (b : body) : body := match b with BTuple [b] => b | b => b end.
Definition b_flatten (n : nat) (b : body) : body :=
  match b with
  | BTuple l => match skipn n l with BTuple m :: t => BTuple (firstn n l ++ m ++ t) | _ => b end
  | b => b
  end.
Definition b_group (n k : nat) (b : body) : body :=
  match b with
  | BTuple l => BTuple (firstn n l ++ BTuple (firstn k (skipn n l)) :: skipn k (skipn n l))
  | b => b
  end.
Definition b_enum (b : body) : body :=
  match b with BOptional None => BEnum 0 BUnit | BOptional (Some b) => BEnum 1 b | b => b end.
Definition b_in_option (f : body -> body) (b : body) : body :=
  match b with BOptional (Some b) => BOptional (Some (f b)) | b => b end.
Definition b_in_array (f : body -> body) (b : body) : body := match b with BArray l => BArray (map f l) | b => b end.
Definition b_in_map (f : body -> body) (b : body) : body :=
  match b with BMap m => BMap (map (fun kv => (fst kv, f (snd kv))) m) | b => b end.
Fixpoint b_each (fs : list (body -> body)) (l : list body) : list body :=
  match fs, l with f :: fs, b :: l => f b :: b_each fs l | _, l => l end.
Definition b_in_tuple (fs : list (body -> body)) (b : body) : body := match b with BTuple l => BTuple (b_each fs l) | b => b end.
Definition b_in_enum (fs : list (body -> body)) (b : body) : body :=
  match b with BEnum i b => match pickN fs i with Some f => BEnum i (f b) | None => BEnum i b end | b => b end.

Inductive hupgrade : header -> header -> (body -> body) -> Prop :=
| hu_same h : hupgrade h h (fun b => b)
| hu_then h1 h2 h3 f g : hupgrade h1 h2 f -> hupgrade h2 h3 g -> hupgrade h1 h3 (fun b => g (f b))
| hu_bool_u8 : hupgrade HBoolean HUInt8 b_bool_u8
| hu_bool_option : hupgrade HBoolean (HOptional HUnit) b_bool_option
| hu_string_binary : hupgrade HString HBinary b_binary
| hu_array_binary : hupgrade (HArray HUInt8) HBinary b_binary
| hu_uint_binary : hupgrade HBigUInt HBinary b_binary
| hu_int_binary : hupgrade HBigInt HBinary b_binary
| hu_binary_array : hupgrade HBinary (HArray HUInt8) b_array
| hu_binary_uint : hupgrade HBinary HBigUInt b_big_uint
| hu_binary_int : hupgrade HBinary HBigInt b_big_int
| hu_date : hupgrade HDate (HTuple [HInt32; HUInt16]) b_tuple
| hu_date_time : hupgrade HDateTime (HTuple [HInt64; HUInt32]) b_tuple
| hu_unit : hupgrade HUnit (HTuple []) b_tuple
| hu_empty : hupgrade (HTuple []) HUnit (fun _ => BUnit)
| hu_single h : hupgrade (HTuple [h]) h b_single
| hu_to_single h : hupgrade h (HTuple [h]) (fun b => BTuple [b])
| hu_flatten hs1 hs2 hs3 : hupgrade (HTuple (hs1 ++ HTuple hs2 :: hs3)) (HTuple (hs1 ++ hs2 ++ hs3)) (b_flatten (length hs1))
| hu_group hs1 hs2 hs3 :
    hupgrade (HTuple (hs1 ++ hs2 ++ hs3)) (HTuple (hs1 ++ HTuple hs2 :: hs3)) (b_group (length hs1) (length hs2))
| hu_option_enum h : hupgrade (HOptional h) (HEnum [HUnit; h]) b_enum
| hu_map_array h : hupgrade (HMap h) (HArray (HTuple [HString; h])) b_array
| hu_option h h' f : hupgrade h h' f -> hupgrade (HOptional h) (HOptional h') (b_in_option f)
| hu_array h h' f : hupgrade h h' f -> hupgrade (HArray h) (HArray h') (b_in_array f)
| hu_map h h' f : hupgrade h h' f -> hupgrade (HMap h) (HMap h') (b_in_map f)
| hu_tuple hs hs' fs : hupgrades hs hs' fs -> hupgrade (HTuple hs) (HTuple hs') (b_in_tuple fs)
| hu_enum hs hs' ws fs : hupgrades hs hs' fs -> hupgrade (HEnum hs) (HEnum (hs' ++ ws)) (b_in_enum fs)
with hupgrades : list header -> list header -> list (body -> body) -> Prop :=
| hu_nil : hupgrades [] [] []
| hu_cons h h' f hs hs' fs : hupgrade h h' f -> hupgrades hs hs' fs -> hupgrades (h :: hs) (h' :: hs') (f :: fs).
