(** * Nesting of calls.

    Body::deserialize, Body::serialize, Body::validate and Header::serialize call themselves on the
    parts of a header or body. Here each takes the number of nested calls the stack can hold;
    exceeding it is a stack overflow. What lies between two nested calls (Option's, Box's and
    Vec's impls, serialize_inner_box, iterators) is a bounded number of frames and part of the
    one unit per call. Header decoding is treated that way in Header.v ([hde]). *)
From Verif Require Import Base Serde Header Body.

(** body/mod.rs:79-158 Body::deserialize, the nested calls being [call] *)
Definition bde_call (c : cfg) (call : header -> prog body) (h : header) : prog body :=
  match h with
  | HOptional h => pmap BOptional (de_option (call h))                     (* 86-95 *)
  | HArray h =>                                                            (* 114-121 *)
      len <- de_u64 ;;
      Alloc (as_usize c len * size_of_body c) (pmap BArray (repeatN len (call h)))
  | HTuple hs =>                                                           (* 122-128 *)
      Alloc (lenN hs * size_of_body c) (pmap BTuple (sequence (map call hs)))
  | HMap h =>                                                              (* 136-146 *)
      len <- de_u64 ;; pmap BMap (de_map_n c len (call h))
  | HEnum hs =>                                                            (* 147-154 *)
      i <- de_u32 ;;
      match pickN hs (as_usize c i) with
      | Some h => pmap (BEnum i) (call h)
      | None => Fail ERead
      end
  | h => bde c h                                         (* no nested call *)
  end.
Fixpoint bde_d (c : cfg) (depth : nat) (h : header) : prog body :=
  match depth with
  | O => Crash PStack
  | S d => bde_call c (bde_d c d) h
  end.

(** body/mod.rs:37-77 impl Serialize for Body, the nested calls being [call] *)
Definition body_sval_call (c : cfg) (call : body -> sval) (b : body) : sval :=
  match b with
  | BOptional (Some b) => SSome (call b)
  | BArray l => SSeq (Some (lenN l)) (map call l)
  | BTuple l => STuple (map call l)
  | BMap m => SMap (Some (lenN m)) (map (fun kv => (SStr (fst kv), call (snd kv))) m)
  | BEnum i b => SNewtypeVariant i (call b)
  | b => body_sval c b
  end.
Fixpoint body_sval_d (c : cfg) (depth : nat) (b : body) : sval :=
  match depth with
  | O => SPanic PStack
  | S d => body_sval_call c (body_sval_d c d) b
  end.
Definition bser_d (c : cfg) (depth : nat) (b : body) : wprog := ser (body_sval_d c depth b).

(** Iterator::all: stops at the first false. None: the stack overflowed. *)
Fixpoint all_d {A} (f : A -> option bool) (l : list A) : option bool :=
  match l with
  | [] => Some true
  | a :: t => match f a with Some true => all_d f t | r => r end
  end.
(** body/mod.rs:160-217 Body::validate *)
Fixpoint validate_d (depth : nat) (h : header) (b : body) : option bool :=
  match depth with
  | O => None
  | S d =>
    match h, b with
    | HOptional h, BOptional (Some b) => validate_d d h b
    | HArray h, BArray l => all_d (validate_d d h) l
    | HTuple hs, BTuple l =>
        if (length hs =? length l)%nat then all_d (fun hb => validate_d d (fst hb) (snd hb)) (combine hs l)
        else Some false
    | HMap h, BMap m => all_d (fun kv => validate_d d h (snd kv)) m
    | HEnum hs, BEnum i b => match pickN hs i with Some h => validate_d d h b | None => Some false end
    | h, b => Some (validate h b)
    end
  end.

(** header/ser.rs:255-305 Header::serialize *)
Fixpoint hser_d (depth : nat) (h : header) : wprog :=
  match depth with
  | O => WPanic PStack
  | S d =>
    let inner_box code h := wseq (wr [code]) (hser_d d h) in
    let inner_vec code hs :=
      wseq (wr [code]) (wseq (wr (Varint.enc_u16 (len_u16 hs))) (wconcat (map (hser_d d) hs))) in
    match h with
    | HOptional h => inner_box OPTIONAL_CODE h
    | HArray h => inner_box ARRAY_CODE h
    | HMap h => inner_box MAP_CODE h
    | HTuple hs => inner_vec TUPLE_CODE hs
    | HEnum hs => inner_vec ENUM_CODE hs
    | h => hser h
    end
  end.
