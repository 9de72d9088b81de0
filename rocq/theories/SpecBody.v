(** * Vocabulary about bodies: which [body] terms are values of the Rust type, and their wire format. *)
From Verif Require Import Base Serde Typing Header Body SpecVarint.

(** [every f b]: [f] holds of [b] and of all bodies inside it. *)
Fixpoint every (f : body -> bool) (b : body) : bool :=
  f b &&
  match b with
  | BOptional (Some b) | BEnum _ b => every f b
  | BArray l | BTuple l => forallb (every f) l
  | BMap m => forallb (fun kv => every f (snd kv)) m
  | _ => true
  end.

(** Invariants of the Rust types: integer ranges, UTF-8, lengths, map order. A BigDecimal without
    digits has scale 0 (all constructors of the wrapper guarantee it). *)
Definition node_ok (c : cfg) (b : body) : bool :=
  match b with
  | BUInt8 n => n <? 2 ^ 8 | BUInt16 n => n <? 2 ^ 16 | BUInt32 n => n <? 2 ^ 32 | BUInt64 n => n <? 2 ^ 64
  | BInt8 z => in_s 8 z | BInt16 z => in_s 16 z | BInt32 z => in_s 32 z | BInt64 z => in_s 64 z
  | BFloat32 n => n <? 2 ^ 32 | BFloat64 n => n <? 2 ^ 64
  | BBigUInt bs | BBigInt bs | BBinary bs => buf_ok c bs
  | BBigDecimal bs s => buf_ok c bs && in_s 64 s && match bs with [] => (s =? 0)%Z | _ => true end
  | BString bs => str_ok c bs
  | BArray l => usize_ok c (lenN l)
  | BMap m => usize_ok c (lenN m) && sorted_keys m && forallb (fun kv => str_ok c (fst kv)) m
  | BEnum i _ => i <? 2 ^ 32
  | BDate y o => in_s 32 y && (o <? 2 ^ 16)
  | BDateTime t n => in_s 64 t && (n <? 2 ^ 32)
  | _ => true
  end.
Definition body_ok (c : cfg) : body -> bool := every (node_ok c).

(** [n] bodies can be allocated as one vector. *)
Definition vec_room (c : cfg) (n : N) : bool :=
  (n * size_of_body c <=? isize_max c) && (n * size_of_body c <=? heap_limit c).
(** In a build with overflow checks the date offsets do not overflow. *)
Definition date_room (c : cfg) (y : Z) (o : N) : bool :=
  negb (overflow_checks c) || (in_s 32 (y - 2000) && (1 <=? o)).
(** Every vector of the body can be allocated, every date can be written. *)
Definition body_fits (c : cfg) : body -> bool :=
  every (fun b => match b with
    | BArray l | BTuple l => vec_room c (lenN l)
    | BDate y o => date_room c y o
    | _ => true end).

(** Dates whose offsets are in range (all real calendar dates). *)
Definition dates_plain : body -> bool :=
  every (fun b => match b with BDate y o => in_s 32 (y - 2000) && (1 <=? o) | _ => true end).

(** The wire format, in plain arithmetic. *)
Fixpoint body_bytes (b : body) : list N :=
  let u16 := varint_bytes 2 in let u32 := varint_bytes 4 in let u64 := varint_bytes 8 in
  let block bs := u64 (lenN bs) ++ bs in
  match b with
  | BUnit => []
  | BOptional None => [0]
  | BOptional (Some b) => 1 :: body_bytes b
  | BBoolean b => [if b then 1 else 0]
  | BUInt8 n => [n] | BUInt16 n => u16 n | BUInt32 n => u32 n | BUInt64 n => u64 n
  | BInt8 z => [Z.to_N (z mod 256)]
  | BInt16 z => u16 (zigzag z) | BInt32 z => u32 (zigzag z) | BInt64 z => u64 (zigzag z)
  | BFloat32 n => le_digits 4 n | BFloat64 n => le_digits 8 n
  | BBigUInt bs | BBigInt bs => block bs
  | BBigDecimal bs s => match bs with [] => [0] | _ => block bs ++ u64 (zigzag s) end
  | BString bs => block bs
  | BBinary bs => block bs
  | BArray l => u64 (lenN l) ++ flat_map body_bytes l
  | BTuple l => flat_map body_bytes l
  | BMap m => u64 (lenN m) ++ flat_map (fun kv => block (fst kv) ++ body_bytes (snd kv)) m
  | BEnum i b => u32 i ++ body_bytes b
  | BDate y o => u32 (zigzag (y - 2000)) ++ u16 (o - 1)
  | BDateTime t n => u64 (zigzag t) ++ u32 n
  end.

(** [hoccurs f h]: a header satisfying [f] occurs in [h] (including [h] itself). *)
Fixpoint hoccurs (f : header -> bool) (h : header) : bool :=
  f h ||
  match h with
  | HOptional h | HArray h | HMap h => hoccurs f h
  | HTuple hs | HEnum hs => existsb (hoccurs f) hs
  | _ => false
  end.
Definition is_harray (h : header) : bool := match h with HArray _ => true | _ => false end.
Definition is_hdate (h : header) : bool := match h with HDate => true | _ => false end.
(** A tuple whose bodies cannot be allocated as one vector. *)
Definition is_bigtuple (c : cfg) (h : header) : bool :=
  match h with HTuple hs => negb (vec_room c (lenN hs)) | _ => false end.
(** A tuple whose bodies take more than [B] bytes of memory. *)
Definition is_tuple_over (B : N) (c : cfg) (h : header) : bool :=
  match h with HTuple hs => B <? lenN hs * size_of_body c | _ => false end.

(** Every body of the header occupies at least one byte. *)
Fixpoint hoccupies (h : header) : bool :=
  match h with HUnit => false | HTuple hs => existsb hoccupies hs | _ => true end.
(** An array whose elements may occupy no byte at all. *)
Definition is_free_array (h : header) : bool :=
  match h with HArray h => negb (hoccupies h) | _ => false end.
(** Number of nodes of a body. *)
Fixpoint nodes (b : body) : nat :=
  match b with
  | BOptional (Some b) | BEnum _ b => S (nodes b)
  | BArray l | BTuple l => S (list_sum (map nodes l))
  | BMap m => S (list_sum (map (fun kv => nodes (snd kv)) m))
  | _ => 1
  end.

(** Reading messages (a header, then a body of that header) from [s]; [depth]: stack available to
    the header decoder. *)
Inductive reads_messages (c : cfg) (depth : nat) : list N -> list (header * body) -> list N -> Prop :=
| rm_nil s : reads_messages c depth s [] s
| rm_cons s h s1 b s2 ms r :
    run c (hde c depth) s = OOk h s1 -> run c (bde c h) s1 = OOk b s2 ->
    reads_messages c depth s2 ms r -> reads_messages c depth s ((h, b) :: ms) r.
Definition message_bytes (c : cfg) (m : header * body) : list N :=
  wbytes (hser (fst m)) ++ wbytes (bser c (snd m)).
