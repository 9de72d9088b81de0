(** * Model of the UTF-8 handling used by the crate.

    dlhn calls into std for this: [String::from_utf8] (de.rs:222),
    [read_to_string] (de.rs:229), [chars().next()] (de.rs:196-198),
    [char::to_string] (ser.rs:138). The definitions below transcribe std's
    algorithms (core::str::validations::run_utf8_validation and next_code_point,
    core::char::methods::encode_utf8_raw), operating on bytes. *)
From Verif Require Import Base Varint.

(** core::str::validations::UTF8_CHAR_WIDTH *)
Definition utf8_width (b : N) : N :=
  if b <? 128 then 1
  else if b <? 194 then 0
  else if b <? 224 then 2
  else if b <? 240 then 3
  else if b <? 245 then 4
  else 0.

(** continuation byte test: (b as i8) < -64, i.e. 0x80..=0xBF *)
Definition is_cont (b : N) : bool := (128 <=? b) && (b <=? 191).

(** second byte of a 3-byte sequence *)
Definition ok3 (b0 b1 : N) : bool :=
  ((b0 =? 224) && (160 <=? b1) && (b1 <=? 191))
  || ((225 <=? b0) && (b0 <=? 236) && (128 <=? b1) && (b1 <=? 191))
  || ((b0 =? 237) && (128 <=? b1) && (b1 <=? 159))
  || ((238 <=? b0) && (b0 <=? 239) && (128 <=? b1) && (b1 <=? 191)).

(** second byte of a 4-byte sequence *)
Definition ok4 (b0 b1 : N) : bool :=
  ((b0 =? 240) && (144 <=? b1) && (b1 <=? 191))
  || ((241 <=? b0) && (b0 <=? 243) && (128 <=? b1) && (b1 <=? 191))
  || ((b0 =? 244) && (128 <=? b1) && (b1 <=? 143)).

(** run_utf8_validation: Ok iff [utf8_valid]. Its ASCII fast path (word-at-a-time)
    is not modelled: it only skips bytes below 128. *)
Fixpoint utf8_valid (s : list N) : bool :=
  match s with
  | [] => true
  | b0 :: t =>
    let w := utf8_width b0 in
    if w =? 1 then utf8_valid t
    else if w =? 2 then
      match t with
      | b1 :: t1 => is_cont b1 && utf8_valid t1
      | _ => false
      end
    else if w =? 3 then
      match t with
      | b1 :: b2 :: t2 => ok3 b0 b1 && is_cont b2 && utf8_valid t2
      | _ => false
      end
    else if w =? 4 then
      match t with
      | b1 :: b2 :: b3 :: t3 => ok4 b0 b1 && is_cont b2 && is_cont b3 && utf8_valid t3
      | _ => false
      end
    else false
  end.

(** core::str::validations::next_code_point, applied to a valid string.
    utf8_first_byte(x, 2) = x & 0x1f; utf8_acc_cont_byte(ch, b) = (ch << 6) | (b & 0x3f). *)
Definition acc_cont (ch b : N) : N := N.lor (N.shiftl ch 6) (N.land b 63).
Definition next_char (s : list N) : option N :=
  match s with
  | [] => None
  | x :: t =>
    if x <? 128 then Some x
    else
      let init := N.land x 31 in
      let y := at_ t 0 in
      if x <? 224 then Some (acc_cont init y)
      else
        let z := at_ t 1 in
        let yz := acc_cont (N.land y 63) z in
        if x <? 240 then Some (N.lor (N.shiftl init 12) yz)
        else
          let w := at_ t 2 in
          Some (N.lor (N.shiftl (N.land init 7) 18) (acc_cont yz w))
  end.

(** core::char::methods::encode_utf8_raw *)
Definition char_utf8 (c : N) : list N :=
  if c <? 128 then [as_u8 c]
  else if c <? 2048 then
    [N.lor (as_u8 (N.land (shr c 6) 31)) 192; N.lor (as_u8 (N.land c 63)) 128]
  else if c <? 65536 then
    [N.lor (as_u8 (N.land (shr c 12) 15)) 224; N.lor (as_u8 (N.land (shr c 6) 63)) 128;
     N.lor (as_u8 (N.land c 63)) 128]
  else
    [N.lor (as_u8 (N.land (shr c 18) 7)) 240; N.lor (as_u8 (N.land (shr c 12) 63)) 128;
     N.lor (as_u8 (N.land (shr c 6) 63)) 128; N.lor (as_u8 (N.land c 63)) 128].

(** The invariant of Rust's [char]. *)
Definition is_scalar (c : N) : bool := (c <? 55296) || ((57344 <=? c) && (c <? 1114112)).
