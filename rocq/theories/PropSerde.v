(** * Serialization and deserialization through serde: C10 - C19, C45 - C51. *)
From Coq Require Import String Permutation Sorted.
From Verif Require Import Base BaseFacts Varint SpecVarint VarintFacts Serde Typing SpecMap SpecDty ExSerde
  SerdeFacts SerdeMore SerdeSize WidthFacts SerdeSafe MapFacts SerdeProps.
Local Open Scope list_scope.
Local Open Scope N_scope.

(** ** C10 *)
Theorem C10_roundtrip : forall c d v rest,
  wf_cfg c -> 4096 <= heap_limit c -> wf_dty d = true -> has_ty c d v = true ->
  wresult (ser v) = WeOk /\ run c (de c d) (wbytes (ser v) ++ rest) = OOk v rest.
Proof. exact rt_run. Qed.
Example C10_ex :
  (wf_cfg c64 /\ 4096 <= heap_limit c64 /\ wf_dty ex_dty = true /\ has_ty c64 ex_dty ex_val = true) /\
  (wf_cfg c32 /\ 4096 <= heap_limit c32 /\ has_ty c32 ex_dty ex_val = true) /\
  wbytes (ser ex_val) = ex_bytes /\ run c64 (de c64 ex_dty) (ex_bytes ++ [9; 9]) = OOk ex_val [9; 9].
Proof.
  split; [|split; [|split]]; [|  |vm_compute; reflexivity..].
  - split; [repeat split; cbn; lia|]. split; [cbn; lia|]. split; reflexivity.
  - split; [repeat split; cbn; lia|]. split; [cbn; lia|]. reflexivity.
Qed.
Print Assumptions C10_roundtrip.

(** ** C11 *)
(** [u] is a proper prefix of the encoding of [v]. *)
Theorem C11_truncation : forall c d v u x t,
  wf_cfg c -> 4096 <= heap_limit c -> wf_dty d = true -> has_ty c d v = true ->
  wbytes (ser v) = u ++ x :: t -> run c (de c d) u = OErr ERead.
Proof. exact rt_prefix. Qed.
Example C11_ex : exists u, wbytes (ser ex_val) = u ++ 172 :: [4; 2; 7; 255; 2; 1; 97; 1; 0; 0; 0; 0; 0; 0; 240; 63; 2; 97; 98; 0; 44; 41] /\
  run c64 (de c64 ex_dty) u = OErr ERead.
Proof.
  exists (firstn 24 ex_bytes). split; vm_compute; reflexivity.
Qed.
Print Assumptions C11_truncation.

(** ** C12 *)
Theorem C12_prefix_free : forall c d v1 v2 t1 t2,
  wf_cfg c -> 4096 <= heap_limit c -> wf_dty d = true -> has_ty c d v1 = true -> has_ty c d v2 = true ->
  wbytes (ser v1) ++ t1 = wbytes (ser v2) ++ t2 -> v1 = v2 /\ t1 = t2.
Proof. exact rt_inj. Qed.
(** Different values of a type whose encodings agree on their first bytes. *)
Example C12_ex :
  has_ty c64 (DVec DU16) (SSeq (Some 1) [SU16 5]) = true /\ has_ty c64 (DVec DU16) (SSeq (Some 1) [SU16 16383]) = true /\
  wbytes (ser (SSeq (Some 1) [SU16 5])) = [1; 5] /\ wbytes (ser (SSeq (Some 1) [SU16 16383])) = [1; 191; 255].
Proof. repeat split; vm_compute; reflexivity. Qed.
Print Assumptions C12_prefix_free.

(** ** C13 *)
Theorem C13_stream : forall c ds vs rest, wf_cfg c -> 4096 <= heap_limit c ->
  Forall2 (fun d v => wf_dty d = true /\ has_ty c d v = true) ds vs ->
  wresult (wconcat (map ser vs)) = WeOk /\ reads c ds (wbytes (wconcat (map ser vs)) ++ rest) vs rest.
Proof. exact rt_stream. Qed.
(** At the end of the stream: a type occupying at least one byte is refused, any other reads on. *)
Theorem C13_stream_end : forall c d, wf_dty d = true ->
  if occupies d then run c (de c d) [] = OErr ERead else exists v, run c (de c d) [] = OOk v [].
Proof. exact de_empty. Qed.
Example C13_ex :
  Forall2 (fun d v => wf_dty d = true /\ has_ty c64 d v = true) [DBool; ex_dty; DUnit; DString]
     [SBool true; ex_val; SUnit; SStr [104; 105]] /\
  occupies ex_dty = true /\ occupies (DTuple [DUnit; DBool]) = true /\ occupies (DTuple [DUnit; DUnitStruct]) = false.
Proof. repeat split; repeat constructor; reflexivity. Qed.
Print Assumptions C13_stream.
Print Assumptions C13_stream_end.

(** ** C14 *)
(** Any input, any request (even those the crate does not support). Cutting the consumed bytes
    anywhere gives Err(Read). *)
Theorem C14_local : forall c d s v r, usize_bits c = 64 -> bytes_ok s -> run c (de c d) s = OOk v r ->
  exists u, s = u ++ r /\ (forall t, run c (de c d) (u ++ t) = OOk v t) /\
    (forall u1 x t1, u = u1 ++ x :: t1 -> run c (de c d) u1 = OErr ERead).
Proof. exact de_local. Qed.
(** An input which is not the encoding of anything (an overlong count). *)
Example C14_ex : bytes_ok [192; 0; 2; 1; 7] /\
  run c64 (de c64 (DVec DBool)) [192; 0; 0; 1; 7] = OOk (SSeq (Some 0) []) [1; 7].
Proof. split; [repeat constructor; lia|vm_compute; reflexivity]. Qed.
Print Assumptions C14_local.

(** ** C15 *)
(** All indices up to 16383 (general enums are covered by C10): *)
Theorem C15_small_index : forall c n i rest, wf_cfg c -> 4096 <= heap_limit c -> i < n -> i < 16384 ->
  run c (de c (unit_enum n)) (wbytes (ser (SUnitVariant i)) ++ rest) = OOk (SUnitVariant i) rest.
Proof. exact unit_enum_small. Qed.
(** No variant of a larger index ever reads back as itself, whatever the enum, the payload and
    what follows; up to 2^21 what is read is variant i / 32. *)
Theorem C15_large_index : forall c vs v i s w r, 16384 <= i -> i < 2 ^ 32 -> variant_index v = Some i ->
  run c (de c (DEnum vs)) (wbytes (ser v) ++ s) = OOk w r ->
  variant_index w <> Some i /\ (i < 2 ^ 21 -> variant_index w = Some (i / 32)).
Proof. exact enum_large_lost. Qed.
(** It is read silently: *)
Theorem C15_any_index_refuted : exists c n i, i < n /\
  run c (de c (unit_enum n)) (wbytes (ser (SUnitVariant i))) = OOk (SUnitVariant (i / 32)) [] /\
  SUnitVariant (i / 32) <> SUnitVariant i.
Proof.
  exists c64, 16385, 16384. split; [lia|]. split; [|discriminate].
  rewrite <- (app_nil_r (wbytes _)). apply (unit_enum_mid c64 16385 16384 []); lia.
Qed.
Example C15_ex : variant_index (SNewtypeVariant 20000 (SU8 1)) = Some 20000 /\
  wbytes (ser (SNewtypeVariant 20000 (SU8 1))) = [192; 113; 2; 1] /\
  run c64 (de c64 (DEnum (repeat (KNewtype, DU8) (N.to_nat 1000)))) [192; 113; 2; 1] = OOk (SNewtypeVariant 625 (SU8 1)) [].
Proof. repeat split; vm_compute; reflexivity. Qed.
Print Assumptions C15_small_index.
Print Assumptions C15_large_index.
Print Assumptions C15_any_index_refuted.

(** ** C16 *)
Theorem C16_string_keys_only : forall len l,
  wresult (ser (SMap len l)) = WeOk <->
  Forall (fun kv => (exists bs, fst kv = SStr bs) /\ wresult (ser (snd kv)) = WeOk) l.
Proof. exact ser_map_ok_iff. Qed.
(** The error, and what was already written (the count). *)
Theorem C16_bad_key : forall len k v l, (forall bs, k <> SStr bs) -> (forall p, k <> SPanic p) ->
  wresult (ser (SMap len ((k, v) :: l))) = WeErr (match k with SI128 _ | SU128 _ | SError => SEMsg | _ => SEKey end) /\
  wbytes (ser (SMap len ((k, v) :: l))) = match len with Some n => enc_u64 n | None => [] end.
Proof. exact ser_map_bad_key. Qed.
Example C16_ex : wresult (ser (SMap (Some 1) [(SU8 1, SU8 2)])) = WeErr SEKey /\
  wbytes (ser (SMap (Some 1) [(SU8 1, SU8 2)])) = [1] /\
  wresult (ser (SMap (Some 1) [(SNewtypeStruct (SStr [97]), SU8 2)])) = WeErr SEKey /\
  wresult (ser (SMap (Some 1) [(SStr [97], SU8 2)])) = WeOk.
Proof. repeat split; reflexivity. Qed.
Print Assumptions C16_string_keys_only.
Print Assumptions C16_bad_key.

(** ** C17 *)
(** Whatever the input, a map is decoded as the list of its entries would be decoded (same
    failures, same consumption); keys come out strictly sorted and each is bound to the last value
    read for it. *)
Theorem C17_map_decode : forall c d s,
  match run c (de c (DVec (DTuple [DString; d]))) s with
  | OOk v r => exists l m, v = SSeq (Some (lenN l)) (map entry_tuple l) /\
      run c (de c (DMap d)) s = OOk (SMap (Some (lenN m)) (entries m)) r /\
      StronglySorted lex_lt (map fst m) /\ (forall k, last_binding k m = last_binding k l)
  | OErr e => run c (de c (DMap d)) s = OErr e
  | OPanic q => run c (de c (DMap d)) s = OPanic q
  end.
Proof. exact map_decode_all. Qed.
(** Entries written in any order, with any repetition. *)
Theorem C17_last_wins : forall c d l rest, wf_cfg c -> 4096 <= heap_limit c -> wf_dty d = true ->
  lenN l < 2 ^ usize_bits c ->
  Forall (fun kv => str_ok c (fst kv) = true /\ has_ty c d (snd kv) = true) l ->
  wresult (ser (SMap (Some (lenN l)) (entries l))) = WeOk /\
  exists m, run c (de c (DMap d)) (wbytes (ser (SMap (Some (lenN l)) (entries l))) ++ rest) =
              OOk (SMap (Some (lenN m)) (entries m)) rest /\
    StronglySorted lex_lt (map fst m) /\ (forall k, last_binding k m = last_binding k l).
Proof. exact map_decode_any. Qed.
Theorem C17_order_irrelevant : forall c d l l' rest, wf_cfg c -> 4096 <= heap_limit c -> wf_dty d = true ->
  lenN l < 2 ^ usize_bits c ->
  Forall (fun kv => str_ok c (fst kv) = true /\ has_ty c d (snd kv) = true) l ->
  NoDup (map fst l) -> Permutation l l' ->
  run c (de c (DMap d)) (wbytes (ser (SMap (Some (lenN l')) (entries l'))) ++ rest) =
  run c (de c (DMap d)) (wbytes (ser (SMap (Some (lenN l)) (entries l))) ++ rest).
Proof. exact map_decode_perm. Qed.
Example C17_ex :
  let l := [([98], SU8 1); ([97], SU8 2); ([98], SU8 3)] in
  Forall (fun kv => str_ok c64 (fst kv) = true /\ has_ty c64 DU8 (snd kv) = true) l /\
  run c64 (de c64 (DMap DU8)) [3; 1; 98; 1; 1; 97; 2; 1; 98; 3] =
    OOk (SMap (Some 2) (entries [([97], SU8 2); ([98], SU8 3)])) [].
Proof. split; [repeat constructor|vm_compute; reflexivity]. Qed.
Print Assumptions C17_map_decode.
Print Assumptions C17_last_wins.
Print Assumptions C17_order_irrelevant.

(** ** C18 *)
(** Known lengths round-trip: C10 at DVec and DMap. Unknown length: success is reported, nothing but
    the elements is written, and no continuation makes it read back. *)
Theorem C18_unknown_length_seq : forall l, Forall (fun v => wresult (ser v) = WeOk) l ->
  wresult (ser (SSeq None l)) = WeOk /\ wbytes (ser (SSeq None l)) = concat (map (fun v => wbytes (ser v)) l).
Proof. intros l H. cbn [ser ser_len wseq]. split; apply (wconcat_ok ser l H). Qed.
Theorem C18_seq_lost : forall c d n l rest,
  wf_cfg c -> 4096 <= heap_limit c -> wf_dty d = true ->
  Forall (fun v => wresult (ser v) = WeOk) l -> bytes_ok (wbytes (ser (SSeq None l)) ++ rest) ->
  run c (de c (DVec d)) (wbytes (ser (SSeq None l)) ++ rest) <> OOk (SSeq n l) rest.
Proof. exact seq_none_lost. Qed.
Theorem C18_map_lost : forall c d n l rest,
  wf_cfg c -> 4096 <= heap_limit c -> wf_dty d = true ->
  wresult (ser (SMap None l)) = WeOk -> bytes_ok (wbytes (ser (SMap None l)) ++ rest) ->
  run c (de c (DMap d)) (wbytes (ser (SMap None l)) ++ rest) <> OOk (SMap n l) rest.
Proof. exact map_none_lost. Qed.
Example C18_ex : wbytes (ser (SSeq None [SU8 1; SU8 7])) = [1; 7] /\
  run c64 (de c64 (DVec DU8)) [1; 7] = OOk (SSeq (Some 1) [SU8 7]) [] /\
  wbytes (ser (SMap None [(SStr [97], SU8 0)])) = [1; 97; 0] /\
  run c64 (de c64 (DMap DU8)) [1; 97; 0] = OErr ERead.
Proof. repeat split; vm_compute; reflexivity. Qed.
Print Assumptions C18_unknown_length_seq.
Print Assumptions C18_seq_lost.
Print Assumptions C18_map_lost.

(** ** C19 *)
Theorem C19_struct_bytes : forall fs, wresult (ser (SStruct fs)) = WeOk ->
  Forall (fun kv => wresult (ser (snd kv)) = WeOk) fs /\
  wbytes (ser (SStruct fs)) = concat (map (fun kv => wbytes (ser (snd kv))) fs).
Proof. exact (concat_wire (fun kv : string * sval => ser (snd kv))). Qed.
Theorem C19_names_irrelevant : forall fs gs, map snd fs = map snd gs ->
  ser (SStruct fs) = ser (SStruct gs) /\ ser (SStruct fs) = ser (STuple (map snd fs)) /\
  ser (SStruct fs) = ser (STupleStruct (map snd fs)).
Proof. intros fs gs H. cbn [ser]. rewrite <- (map_map snd ser fs), <- (map_map snd ser gs), H. auto. Qed.
Theorem C19_wrappers_add_nothing : forall v,
  ser (SNewtypeStruct v) = ser v /\ wbytes (ser SUnitStruct) = [] /\ wbytes (ser SUnit) = [].
Proof. intros v; repeat split. Qed.
Print Assumptions C19_wrappers_add_nothing.
(** Decoding: a struct consumes and fails exactly as the tuple of its field types does. *)
Theorem C19_struct_decode : forall c fs s, NoDup (map fst fs) ->
  run c (de c (DStruct (map fst fs) fs)) s =
  match run c (de c (DTuple (map snd fs))) s with
  | OOk (STuple l) r => OOk (SStruct (combine (map fst fs) l)) r
  | OOk v r => OOk v r
  | OErr e => OErr e
  | OPanic p => OPanic p
  end.
Proof. exact struct_tuple. Qed.
Theorem C19_newtype_decode : forall c d s,
  run c (de c (DNewtypeStruct d)) s = match run c (de c d) s with
    OOk v r => OOk (SNewtypeStruct v) r | OErr e => OErr e | OPanic p => OPanic p end.
Proof. exact newtype_transparent. Qed.
Example C19_ex :
  wbytes (ser (SStruct [("a"%string, SU16 300); ("b"%string, SStr [104; 105])])) = [172; 4] ++ [2; 104; 105] /\
  NoDup (map fst [("a"%string, DU16); ("b"%string, DString)]).
Proof. split; [vm_compute; reflexivity|]. repeat constructor; cbn; intuition discriminate. Qed.
Print Assumptions C19_struct_bytes.
Print Assumptions C19_names_irrelevant.
Print Assumptions C19_struct_decode.
Print Assumptions C19_newtype_decode.

(** ** C45 *)
Theorem C45_bool_byte : forall c b t, run c (de c DBool) (b :: t) =
  if b =? 0 then OOk (SBool false) t else if b =? 1 then OOk (SBool true) t else OErr ERead.
Proof. exact bool_byte. Qed.
Theorem C45_option_byte : forall c d b t, run c (de c (DOption d)) (b :: t) =
  if b =? 0 then OOk SNone t
  else if b =? 1 then match run c (de c d) t with OOk v r => OOk (SSome v) r | OErr e => OErr e | OPanic p => OPanic p end
  else OErr ERead.
Proof. exact option_byte. Qed.
Example C45_ex : run c64 (de c64 DBool) [2] = OErr ERead /\
  run c64 (de c64 (DOption DU16)) [1; 172; 4; 5] = OOk (SSome (SU16 300)) [5] /\
  run c64 (de c64 (DOption DU16)) [255; 172; 4; 5] = OErr ERead.
Proof. repeat split; vm_compute; reflexivity. Qed.
Print Assumptions C45_bool_byte.
Print Assumptions C45_option_byte.

(** ** C46 *)
Theorem C46_f32 : forall c bits bs rest,
  (bits < 2 ^ 32 -> wbytes (ser (SF32 bits)) = le_digits 4 bits) /\
  (bytes_ok bs -> length bs = 4%nat ->
     run c (de c DF32) (bs ++ rest) = OOk (SF32 (le_value bs)) rest /\ le_digits 4 (le_value bs) = bs).
Proof.
  intros c bits bs rest; split; [intros _; cbn [ser wr wbytes]; rewrite app_nil_r; apply le_bytes_digits|].
  exact (float_bits c 4 SF32 bs rest).
Qed.
Theorem C46_f64 : forall c bits bs rest,
  (bits < 2 ^ 64 -> wbytes (ser (SF64 bits)) = le_digits 8 bits) /\
  (bytes_ok bs -> length bs = 8%nat ->
     run c (de c DF64) (bs ++ rest) = OOk (SF64 (le_value bs)) rest /\ le_digits 8 (le_value bs) = bs).
Proof.
  intros c bits bs rest; split; [intros _; cbn [ser wr wbytes]; rewrite app_nil_r; apply le_bytes_digits|].
  exact (float_bits c 8 SF64 bs rest).
Qed.
(** A signalling NaN with a payload, and negative zero. *)
Example C46_ex : wbytes (ser (SF32 2141192193)) = [1; 0; 160; 127] /\
  run c64 (de c64 DF32) [1; 0; 160; 127] = OOk (SF32 2141192193) [] /\
  wbytes (ser (SF64 (2 ^ 63))) = [0; 0; 0; 0; 0; 0; 0; 128].
Proof. repeat split; vm_compute; reflexivity. Qed.
Print Assumptions C46_f32.
Print Assumptions C46_f64.

(** ** C47 *)
(** Serialization succeeds exactly for values without 128-bit integers, non-string keys and
    panicking Serialize impls, at any depth. *)
Theorem C47_serialize_ok : forall v, wresult (ser v) = WeOk <-> serializable v.
Proof. exact ser_ok_iff. Qed.
Theorem C47_i128 : forall c z n s,
  wresult (ser (SI128 z)) = WeErr SEMsg /\ wresult (ser (SU128 n)) = WeErr SEMsg /\
  run c (de c DI128) s = OErr EMsg /\ run c (de c DU128) s = OErr EMsg.
Proof. intros; repeat split. Qed.
Theorem C47_todo : forall c s d, In d [DStr; DBytes; DAny; DIgnored] -> run c (de c d) s = OPanic PTodo.
Proof. intros c s d [<-|[<-|[<-|[<-|[]]]]]; reflexivity. Qed.
Example C47_ex : serializable ex_val /\ ~ serializable (SSeq (Some 1) [SSome (SI128 1)]) /\
  wresult (ser (SSeq (Some 1) [SSome (SI128 1)])) = WeErr SEMsg /\
  run c64 (de c64 (DTuple [DU8; DStr])) [1; 2] = OPanic PTodo.
Proof.
  split; [|split; [|split; reflexivity]].
  - cbn. repeat split; eexists; reflexivity.
  - cbn. intros [[] _].
Qed.
Print Assumptions C47_serialize_ok.
Print Assumptions C47_i128.
Print Assumptions C47_todo.

(** ** C48 *)
Theorem C48_elements_bounded : forall c d s l r, wf_dty d = true -> occupies d = true -> bytes_ok s ->
  run c (de c (DVec d)) s = OOk (SSeq (Some (lenN l)) l) r -> (length l + length r <= length s)%nat.
Proof. exact vec_count. Qed.
Theorem C48_entries_bounded : forall c d s m r, bytes_ok s ->
  run c (de c (DMap d)) s = OOk (SMap (Some (lenN m)) m) r -> (length m + length r <= length s)%nat.
Proof. exact map_count. Qed.
Theorem C48_any_element_refuted : exists c d, wf_dty d = true /\ forall n, n < 2 ^ 64 ->
  exists s, (length s <= 9)%nat /\ run c (de c (DVec d)) s = OOk (SSeq (Some n) (repeat SUnit (N.to_nat n))) [].
Proof.
  exists c64, DUnit. split; [reflexivity|]. intros n Hn. exists (enc_u64 n). split.
  - rewrite enc_u64_spec by exact Hn. destruct (varint_bytes_shape 8 n (or_intror (or_intror eq_refl)) Hn) as (p & t & -> & _ & _ & Hl & _).
    unfold varint_extra in Hl. cbn [length]. lia.
  - rewrite <- (app_nil_r (enc_u64 n)). apply unit_vec; [reflexivity|exact Hn].
Qed.
Example C48_ex : occupies (DTuple [DUnit; DBool]) = true /\
  run c64 (de c64 (DVec (DTuple [DUnit; DBool]))) [2; 1; 0; 5] =
    OOk (SSeq (Some 2) [STuple [SUnit; SBool true]; STuple [SUnit; SBool false]]) [5] /\
  run c64 (de c64 (DVec DUnit)) [192; 125] = OErr ERead /\
  run c64 (de c64 (DVec DUnit)) [3] = OOk (SSeq (Some 3) [SUnit; SUnit; SUnit]) [].
Proof. repeat split; vm_compute; reflexivity. Qed.
Print Assumptions C48_elements_bounded.
Print Assumptions C48_entries_bounded.
Print Assumptions C48_any_element_refuted.

(** ** C49 *)
(** Re-encoding whatever was decoded never takes more bytes than were consumed. *)
Theorem C49_reencode_never_longer : forall c d s v r,
  wf_cfg c -> 4096 <= heap_limit c -> wf_dty d = true -> bytes_ok s ->
  run c (de c d) s = OOk v r -> lenN (wbytes (ser v)) + lenN r <= lenN s.
Proof.
  intros c d s v r Hw Hh Hd Hs H. destruct (reencode c d Hw Hh Hd s v r Hs H) as (n & E & Hn).
  cbv beta in Hn. unfold vsize, wsize in Hn. lia.
Qed.
(** Strictly shorter for an overlong count and duplicated keys; on a 32-bit target, a count of 2^32 + 2
    is taken to be 2 and written as 2. *)
Example C49_ex :
  run c32 (de c32 (DVec DU8)) [255; 2; 0; 0; 0; 1; 0; 0; 0; 7; 8; 9] = OOk (SSeq (Some 2) [SU8 7; SU8 8]) [9] /\
  wbytes (ser (SSeq (Some 2) [SU8 7; SU8 8])) = [2; 7; 8] /\
  run c64 (de c64 (DMap DU8)) [128; 4; 1; 97; 1; 1; 97; 2; 9] = OErr ERead /\
  run c64 (de c64 (DMap DU8)) [130; 0; 1; 97; 1; 1; 97; 2; 9] = OOk (SMap (Some 1) [(SStr [97], SU8 2)]) [9] /\
  wbytes (ser (SMap (Some 1) [(SStr [97], SU8 2)])) = [1; 1; 97; 2].
Proof. repeat split; vm_compute; reflexivity. Qed.
Print Assumptions C49_reencode_never_longer.

(** ** C50 *)
(** The value decoded from arbitrary bytes belongs to the type, and encoding it gives bytes that
    decode to it again; on a 32-bit target, if a byte buffer is involved, as long as fewer than 2^32
    bytes were consumed (a buffer of 2^32 bytes does not fit such a target). *)
Theorem C50_decode_encode_decode : forall c d s v r rest,
  wf_cfg c -> 4096 <= heap_limit c -> wf_dty d = true -> bytes_ok s ->
  usize_bits c = 64 \/ occurs is_buf d = false \/ lenN s < 2 ^ usize_bits c + lenN r ->
  run c (de c d) s = OOk v r ->
  has_ty c d v = true /\ wresult (ser v) = WeOk /\ run c (de c d) (wbytes (ser v) ++ rest) = OOk v rest.
Proof.
  intros c d s v r rest Hw Hh Hd Hs Hc H. pose proof (typed_wide c d s v r Hw Hh Hd Hc Hs H) as Ht.
  split; [exact Ht|]. exact (rt_run c d v rest Hw Hh Hd Ht).
Qed.
Example C50_ex :
  run c32 (de c32 DByteBuf) [255; 0; 0; 0; 0; 3; 0; 0; 0; 7] = OOk (SBytes []) [7] /\
  run c64 (de c64 (DVec DU16)) [2; 224; 5; 0; 128; 2] = OOk (SSeq (Some 2) [SU16 5; SU16 128]) [] /\
  wbytes (ser (SSeq (Some 2) [SU16 5; SU16 128])) = [2; 5; 128; 2].
Proof. repeat split; vm_compute; reflexivity. Qed.
Print Assumptions C50_decode_encode_decode.
