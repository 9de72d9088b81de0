(** * Reading with another type than the one written: C57 - C60. *)
From Coq Require Import String.
From Verif Require Import Base BaseFacts Varint SpecVarint Utf8 SpecUtf8 Serde Typing SpecMap SpecDty SpecEvolve ExSerde
  Header SpecHeader SpecRequest HeaderFacts SerdeFacts SerdeProps EvolveFacts EvolveWire.
Local Open Scope list_scope.
Local Open Scope N_scope.

(** ** C57 *)
(** An unsigned value written with width [a] reads back as itself with width [b] exactly when the
    widths are equal or the value takes at most 7 bits per byte of the narrower one. *)
Theorem C57_widen_or_narrow : forall c a b v rest, u_ok a v ->
  (u_shared a b v -> run c (de c (u_dty b)) (wbytes (ser (u_val a v)) ++ rest) = OOk (u_val b v) rest) /\
  ((exists r, run c (de c (u_dty b)) (wbytes (ser (u_val a v)) ++ rest) = OOk (u_val b v) r) -> u_shared a b v).
Proof.
  intros c a b v rest H. split; [exact (proj1 (cross_value c a b v rest H))|exact (proj1 (cross_read_iff c a b v rest H))].
Qed.
(** Otherwise another number is read without any error. *)
Theorem C57_misread : forall c a b v rest, u_ok a v -> ~ u_shared a b v -> exists w r,
  run c (de c (u_dty b)) (wbytes (ser (u_val a v)) ++ rest) = OOk (u_val b w) (r ++ rest) /\ w <> v /\
  (w_size a < w_size b -> w = 2 ^ (7 - w_size a) * v /\ r = []) /\
  (w_size b < w_size a -> v < 2 ^ (7 * (w_size b + 1)) -> w = v / 2 ^ (7 - w_size b) /\ r = []).
Proof. intros c a b v rest H. exact (proj2 (cross_value c a b v rest H)). Qed.
Theorem C57_same_bytes : forall a b v, u_ok a v -> u_ok b v ->
  (wbytes (ser (u_val a v)) = wbytes (ser (u_val b v)) <-> u_shared a b v).
Proof. exact same_bytes_iff. Qed.
Theorem C57_signed : forall c a b z rest, i_ok a z ->
  (i_shared a b z -> run c (de c (i_dty b)) (wbytes (ser (i_val a z)) ++ rest) = OOk (i_val b z) rest) /\
  ((exists r, run c (de c (i_dty b)) (wbytes (ser (i_val a z)) ++ rest) = OOk (i_val b z) r) -> i_shared a b z).
Proof. exact cross_read_signed. Qed.
Example C57_ex :
  (u_ok W16 16383 /\ u_shared W16 W64 16383) /\ (u_ok W16 16384 /\ ~ u_shared W16 W64 16384) /\
  (i_ok W32 (-8192) /\ i_shared W32 W16 (-8192)) /\ (i_ok W32 8192 /\ ~ i_shared W32 W16 8192) /\
  wbytes (ser (SU16 16384)) = [192; 0; 64] /\ run c64 (de c64 DU64) [192; 0; 64] = OOk (SU64 524288) [].
Proof.
  unfold u_ok, u_shared, i_ok, i_shared. cbn [w_size N.min N.compare Pos.compare Pos.compare_cont].
  split; [split; [lia|right; lia]|]. split; [split; [lia|intros [H|H]; [discriminate|lia]]|].
  split; [split; [lia|right; lia]|]. split; [split; [lia|intros [H|H]; [discriminate|lia]]|].
  split; vm_compute; reflexivity.
Qed.
Print Assumptions C57_widen_or_narrow.
Print Assumptions C57_misread.
Print Assumptions C57_same_bytes.
Print Assumptions C57_signed.

(** ** C58 *)
(** A byte buffer, a vector of u8 and a big integer's bytes: written alike; on any input both
    readers return the same bytes and stop at the same place, or both fail. *)
Theorem C58_bytes_written : forall bs,
  wbytes (ser (SBytes bs)) = wbytes (ser (SStr bs)) /\ wbytes (ser (vec_u8 bs)) = wbytes (ser (SBytes bs)) /\
  wbytes (ser (big_sval bs)) = wbytes (ser (SBytes bs)).
Proof. exact bytes_alike. Qed.
Theorem C58_bytes_read : forall c s, wf_cfg c -> usize_bits c = 64 -> 4096 <= heap_limit c -> bytes_ok s ->
  (exists bs r, run c (de c DByteBuf) s = OOk (SBytes bs) r /\ run c (de c (DVec DU8)) s = OOk (vec_u8 bs) r) \/
  (run c (de c DByteBuf) s = OErr ERead /\ run c (de c (DVec DU8)) s = OErr ERead).
Proof. exact buf_vec. Qed.
(** A string is a buffer that is well-formed UTF-8. *)
Theorem C58_string_read : forall c s bs r, wf_cfg c -> usize_bits c = 64 -> 4096 <= heap_limit c -> bytes_ok s ->
  run c (de c DString) s = OOk (SStr bs) r <-> run c (de c DByteBuf) s = OOk (SBytes bs) r /\ wellformed bs.
Proof. exact str_buf. Qed.
(** Map entries as (key, value) pairs (reading: C17_map_decode). *)
Theorem C58_map_written : forall n l, Forall (fun kv => wresult (ser (snd kv)) = WeOk) l ->
  wbytes (ser (SMap (Some n) (entries l))) = wbytes (ser (SSeq (Some n) (map entry_tuple l))).
Proof. exact map_alike. Qed.
(** An option is the enum { Nothing, Just(T) }. *)
Theorem C58_option_written : forall v, ser (SSome v) = ser (SNewtypeVariant 1 v) /\ ser SNone = ser (SUnitVariant 0).
Proof. exact option_ser. Qed.
Theorem C58_option_read : forall c d s v r, run c (de c (DOption d)) s = OOk v r ->
  run c (de c (DEnum [(KUnit, DUnit); (KNewtype, d)])) s =
    OOk (match v with SSome x => SNewtypeVariant 1 x | _ => SUnitVariant 0 end) r.
Proof. exact option_as_enum. Qed.
(** The converse fails: the index may be written in two bytes, a boolean or option tag may not. *)
Theorem C58_option_read_back_refuted : exists c d s v r,
  run c (de c (DEnum [(KUnit, DUnit); (KNewtype, d)])) s = OOk (SNewtypeVariant 1 v) r /\
  run c (de c (DOption d)) s = OErr ERead.
Proof. exists c64, DU8, [129; 0; 7], (SU8 7), []. split; vm_compute; reflexivity. Qed.
Example C58_ex : bytes_ok [3; 1; 2; 255; 9] /\
  run c64 (de c64 DByteBuf) [3; 1; 2; 255; 9] = OOk (SBytes [1; 2; 255]) [9] /\
  run c64 (de c64 (DVec DU8)) [3; 1; 2; 255; 9] = OOk (vec_u8 [1; 2; 255]) [9] /\
  run c64 (de c64 DString) [3; 1; 2; 255; 9] = OErr ERead /\
  run c64 (de c64 (DOption DU16)) [1; 172; 4] = OOk (SSome (SU16 300)) [] /\
  run c64 (de c64 (DEnum [(KUnit, DUnit); (KNewtype, DU16)])) [1; 172; 4] = OOk (SNewtypeVariant 1 (SU16 300)) [] /\
  Forall (fun kv : list N * sval => wresult (ser (snd kv)) = WeOk) [([97], SU8 1); ([98], SU8 2)].
Proof. split; [repeat constructor; lia|]. repeat split; repeat constructor; vm_compute; reflexivity. Qed.
Print Assumptions C58_bytes_written.
Print Assumptions C58_bytes_read.
Print Assumptions C58_string_read.
Print Assumptions C58_map_written.
Print Assumptions C58_option_written.
Print Assumptions C58_option_read.
Print Assumptions C58_option_read_back_refuted.

(** ** C59 *)
(** Fields added at the end: the old type reads its fields and leaves the others unread. *)
Theorem C59_extra_fields : forall c fs l extra rest, wf_cfg c -> 4096 <= heap_limit c -> NoDup (map fst fs) ->
  Forall2 (fun nd nv => wf_dty (snd nd) = true /\ has_ty c (snd nd) (snd nv) = true) fs l ->
  wresult (ser (SStruct extra)) = WeOk ->
  wresult (ser (SStruct (l ++ extra))) = WeOk /\
  run c (de c (DStruct (map fst fs) fs)) (wbytes (ser (SStruct (l ++ extra))) ++ rest) =
    OOk (SStruct (combine (map fst fs) (map snd l))) (wbytes (ser (SStruct extra)) ++ rest).
Proof. exact struct_prefix. Qed.
(** The new type never accepts old data, even if the added field is an Option. *)
Theorem C59_missing_fields : forall c ds d ds' vs, wf_cfg c -> 4096 <= heap_limit c ->
  Forall2 (fun d v => wf_dty d = true /\ has_ty c d v = true) ds vs -> wf_dty d = true -> occupies d = true ->
  run c (de c (DTuple (ds ++ d :: ds'))) (wbytes (ser (STuple vs))) = OErr ERead.
Proof. exact seq_missing. Qed.
(** Inside a larger value the unread fields are taken for something else: a vector of (u8, u8)
    read as a vector of u8. *)
Theorem C59_nested_refuted : exists c d d' v w r, wf_dty d = true /\ wf_dty d' = true /\
  has_ty c (DVec (DTuple [d; d'])) v = true /\
  run c (de c (DVec (DTuple [d]))) (wbytes (ser v)) = OOk w r /\
  w <> SSeq (Some 2) [STuple [SU8 1]; STuple [SU8 2]] /\
  v = SSeq (Some 2) [STuple [SU8 1; SU8 7]; STuple [SU8 2; SU8 8]].
Proof.
  exists c64, DU8, DU8, (SSeq (Some 2) [STuple [SU8 1; SU8 7]; STuple [SU8 2; SU8 8]]),
    (SSeq (Some 2) [STuple [SU8 1]; STuple [SU8 7]]), [2; 8].
  split; [reflexivity|]. split; [reflexivity|]. split; [reflexivity|]. split; [vm_compute; reflexivity|].
  split; [discriminate|reflexivity].
Qed.
(** Variants added at the end: old data reads the same; a new variant is refused by the old type. *)
Theorem C59_more_variants : forall c vs ws v rest, wf_cfg c -> 4096 <= heap_limit c ->
  wf_dty (DEnum (vs ++ ws)) = true -> has_ty c (DEnum vs) v = true ->
  run c (de c (DEnum (vs ++ ws))) (wbytes (ser v) ++ rest) = OOk v rest.
Proof.
  intros c vs ws v rest Hw Hh Hd Hv.
  exact (proj2 (rt_run c (DEnum (vs ++ ws)) v rest Hw Hh Hd (has_ty_more_variants c vs ws v Hv))).
Qed.
Theorem C59_unknown_variant : forall c vs v i rest, variant_index v = Some i -> lenN vs <= i -> i < 16384 ->
  run c (de c (DEnum vs)) (wbytes (ser v) ++ rest) = OErr EMsg.
Proof. exact unknown_variant. Qed.
Example C59_ex :
  let old := [("a", DU8); ("b", DString)]%string in
  NoDup (map fst old) /\ wresult (ser (SStruct [("c"%string, SSome (SU8 9))])) = WeOk /\
  run c64 (de c64 (DStruct (map fst old) old)) [7; 1; 97; 1; 9] =
    OOk (SStruct [("a", SU8 7); ("b", SStr [97])]%string) [1; 9] /\
  run c64 (de c64 (DTuple [DU8; DString; DOption DU8])) [7; 1; 97] = OErr ERead /\
  run c64 (de c64 (DEnum [(KUnit, DUnit); (KNewtype, DU8)])) [2; 5] = OErr EMsg.
Proof.
  cbv zeta. split; [repeat constructor; cbn; intuition discriminate|]. repeat split; vm_compute; reflexivity.
Qed.
Print Assumptions C59_extra_fields.
Print Assumptions C59_missing_fields.
Print Assumptions C59_nested_refuted.
Print Assumptions C59_more_variants.
Print Assumptions C59_unknown_variant.

(** ** C60 *)
Theorem C60_header_prefix_free : forall h1 h2 t1 t2, counts_fit h1 = true -> counts_fit h2 = true ->
  wbytes (hser h1) ++ t1 = wbytes (hser h2) ++ t2 -> h1 = h2 /\ t1 = t2.
Proof. exact hser_inj. Qed.
(** Without the bound on member counts two headers may be written alike up to what follows. *)
Theorem C60_every_header_refuted : exists h1 h2 t1 t2, h1 <> h2 /\
  wresult (hser h1) = WeOk /\ wresult (hser h2) = WeOk /\ wbytes (hser h1) ++ t1 = wbytes (hser h2) ++ t2.
Proof.
  exists (HTuple (repeat HUnit (N.to_nat 65536))), (HTuple []), [], (wbytes (wconcat (map hser (repeat HUnit (N.to_nat 65536))))).
  split; [|split; [vm_compute; reflexivity|split; [reflexivity|rewrite app_nil_r; apply hser_wraps; vm_compute; reflexivity]]].
  intros H. apply (f_equal (fun h => match h with HTuple l => lenN l | _ => 0 end)) in H. vm_compute in H. discriminate.
Qed.
Example C60_ex : counts_fit (HTuple [HUnit; HArray HBoolean]) = true /\ counts_fit (HTuple [HUnit; HBoolean]) = true /\
  wbytes (hser (HTuple [HUnit; HArray HBoolean])) = [21; 2; 0; 20; 2] /\
  wbytes (hser (HTuple [HUnit; HBoolean])) = [21; 2; 0; 2].
Proof. repeat split; vm_compute; reflexivity. Qed.
Print Assumptions C60_header_prefix_free.
Print Assumptions C60_every_header_refuted.
