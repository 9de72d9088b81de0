(** * encode_prefix_varint as it is written: stores into the caller's fixed-size buffer.

    Varint.v models the result [buf[..size]] only. Here the buffer is explicit: [None] is the panic
    of an index out of range or of [copy_from_slice] with different lengths. *)
From Verif Require Import Base Varint.
Local Open Scope N_scope.

(** [buf[i] = b] *)
Fixpoint set (buf : list N) (i : nat) (b : N) : option (list N) :=
  match buf, i with
  | [], _ => None
  | _ :: t, O => Some (b :: t)
  | x :: t, S i => option_map (cons x) (set t i b)
  end.
(** [buf[1..].copy_from_slice(bs)] *)
Definition copy_tail (buf bs : list N) : option (list N) :=
  match buf with
  | [] => None
  | x :: t => if (length t =? length bs)%nat then Some (x :: bs) else None
  end.
(** The stores of one match arm, in order, starting at index [i]; then the size is returned. *)
Fixpoint stores (buf : list N) (i : nat) (bs : list N) : option (list N) :=
  match bs with
  | [] => Some buf
  | b :: bs => match set buf i b with Some buf => stores buf (S i) bs | None => None end
  end.
Definition arm (buf : list N) (bs : list N) (size : nat) : option (list N * nat) :=
  option_map (fun buf => (buf, size)) (stores buf 0 bs).
Definition arm_le (buf : list N) (b : N) (bs : list N) (size : nat) : option (list N * nat) :=
  match set buf 0 b with
  | Some buf => option_map (fun buf => (buf, size)) (copy_tail buf bs)
  | None => None
  end.

(** prefix_varint.rs:27-36 *)
Definition put_u8 (v : N) (buf : list N) : option (list N * nat) :=
  if v <? 128 then arm buf [v] 1 else arm buf [128; v] 2.

(** prefix_varint.rs:54-74 *)
Definition put_u16 (v : N) (buf : list N) : option (list N * nat) :=
  let lz := lead0 16 v in
  if lz <=? 1 then arm_le buf 192 (le_bytes 2 v) 3
  else if lz <=? 8 then
    let x := shl 16 v 2 in arm buf [N.lor (shr (as_u8 x) 2) 128; as_u8 (shr x 8)] 2
  else arm buf [as_u8 v] 1.

(** prefix_varint.rs:98-133 *)
Definition put_u32 (v : N) (buf : list N) : option (list N * nat) :=
  let lz := lead0 32 v in
  if lz <=? 3 then arm_le buf 240 (le_bytes 4 v) 5
  else if lz <=? 10 then
    let x := shl 32 v 4 in
    arm buf [N.lor (shr (as_u8 x) 4) 224; as_u8 (shr x 8); as_u8 (shr x 16); as_u8 (shr x 24)] 4
  else if lz <=? 17 then
    let x := shl 32 v 3 in arm buf [N.lor (shr (as_u8 x) 3) 192; as_u8 (shr x 8); as_u8 (shr x 16)] 3
  else if lz <=? 24 then
    let x := shl 32 v 2 in arm buf [N.lor (shr (as_u8 x) 2) 128; as_u8 (shr x 8)] 2
  else arm buf [as_u8 v] 1.

(** prefix_varint.rs:169-245 *)
Definition put_u64 (v : N) (buf : list N) : option (list N * nat) :=
  let lz := lead0 64 v in
  if lz <=? 7 then arm_le buf 255 (le_bytes 8 v) 9
  else if lz <=? 14 then
    arm buf [254; as_u8 v; as_u8 (shr v 8); as_u8 (shr v 16); as_u8 (shr v 24);
      as_u8 (shr v 32); as_u8 (shr v 40); as_u8 (shr v 48)] 8
  else if lz <=? 21 then
    let x := shl 64 v 7 in
    arm buf [N.lor (shr (as_u8 x) 7) 252; as_u8 (shr x 8); as_u8 (shr x 16); as_u8 (shr x 24);
      as_u8 (shr x 32); as_u8 (shr x 40); as_u8 (shr x 48)] 7
  else if lz <=? 28 then
    let x := shl 64 v 6 in
    arm buf [N.lor (shr (as_u8 x) 6) 248; as_u8 (shr x 8); as_u8 (shr x 16); as_u8 (shr x 24);
      as_u8 (shr x 32); as_u8 (shr x 40)] 6
  else if lz <=? 35 then
    let x := shl 64 v 5 in
    arm buf [N.lor (shr (as_u8 x) 5) 240; as_u8 (shr x 8); as_u8 (shr x 16); as_u8 (shr x 24);
      as_u8 (shr x 32)] 5
  else if lz <=? 42 then
    let x := shl 64 v 4 in
    arm buf [N.lor (shr (as_u8 x) 4) 224; as_u8 (shr x 8); as_u8 (shr x 16); as_u8 (shr x 24)] 4
  else if lz <=? 49 then
    let x := shl 64 v 3 in arm buf [N.lor (shr (as_u8 x) 3) 192; as_u8 (shr x 8); as_u8 (shr x 16)] 3
  else if lz <=? 56 then
    let x := shl 64 v 2 in arm buf [N.lor (shr (as_u8 x) 2) 128; as_u8 (shr x 8)] 2
  else arm buf [as_u8 v] 1.

(** prefix_varint.rs:11-15 encode_prefix_varint_vec, and the callers' [&buf[..size]] (e.g. ser.rs:102-104):
    a fresh buffer of [n] zeros; [None] also when [size] exceeds the buffer. *)
Definition put_vec (n : nat) (put : list N -> option (list N * nat)) : option (list N) :=
  match put (repeat 0 n) with
  | Some (buf, size) => if (size <=? length buf)%nat then Some (firstn size buf) else None
  | None => None
  end.
