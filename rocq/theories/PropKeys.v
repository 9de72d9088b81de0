(** * C68: map keys that are not strings. *)
From Coq Require Import String.
From Verif Require Import Base BaseFacts SpecVarint Serde Typing Keys SpecKeys KeysFacts ExSerde.
Local Open Scope list_scope.
Local Open Scope N_scope.

(** ** C68 *)
(** As a value, an address is its four octets, and reads back. *)
Theorem C68_address_value : forall c a r, wresult (ser (ip4_sval ser_human a)) = WeOk /\
  wbytes (ser (ip4_sval ser_human a)) = octets a /\ run c (ip4_de de_human) (octets a ++ r) = OOk a r.
Proof. exact ip4_value. Qed.
(** As a key it is written like the string of its dotted notation. *)
Theorem C68_address_key_text : forall V (val : bool -> V -> sval) m, Forall (fun kv => bytes_ok (octets (fst kv))) m ->
  ser (key_map_sval ip4_sval val m) =
  ser (SMap (Some (lenN m)) (map (fun kv => (SStr (dotted (octets (fst kv))), val false (snd kv))) m)).
Proof. intros V val m H. rewrite (ip4_key_map val m H). reflexivity. Qed.
(** Such a key is read, without an error, as the address made of the length of the text and its
    first three characters. One address is read as itself. *)
Theorem C68_address_key_read : forall c a r, bytes_ok (octets a) ->
  exists x y z t, dotted (octets a) = x :: y :: z :: t /\
  run c (ip4_de de_human) (wbytes (ser_key (ip4_sval key_human a)) ++ r) = OOk (lenN (dotted (octets a)), x, y, z) (t ++ r).
Proof.
  intros c a r Ha. destruct (key_misread c a r) as (x & y & z & E & H). rewrite (ip4_text_dotted a Ha) in *.
  destruct (dotted (octets a)) as [|x' [|y' [|z' t]]]; try discriminate. injection E as -> -> ->. eauto 6.
Qed.
Theorem C68_address_key_wrong : forall c a r r',
  run c (ip4_de de_human) (wbytes (ser_key (ip4_sval key_human a)) ++ r) = OOk a r' -> a = (11, 49, 49, 46).
Proof. exact key_fixed. Qed.
Example C68_ex_fixed : run c64 (ip4_de de_human) (wbytes (ser_key (ip4_sval key_human (11, 49, 49, 46)))) =
  OOk (11, 49, 49, 46) (text_bytes "49.49.46").
Proof. vm_compute. reflexivity. Qed.
(** So a map from addresses to bytes is read as a map of as many other entries, never fails, and
    never ends where it was written to end. *)
Theorem C68_address_map_read : forall c m r, wf_cfg c -> lenN m < 2 ^ usize_bits c ->
  exists es r', run c (de_entries c (ip4_de de_human) de_u8)
      (wbytes (ser (key_map_sval ip4_sval (fun _ n => SU8 n) m)) ++ r) = OOk es r' /\
    lenN es = lenN m /\ lenN r + 4 * lenN m <= lenN r'.
Proof. exact key_map_misread. Qed.
(** A map round trip for keys that ask is_human_readable therefore fails. *)
Theorem C68_address_map_roundtrip_refuted : exists m, let w := ser (key_map_sval ip4_sval (fun _ n => SU8 n) m) in
  wresult w = WeOk /\ run c64 (de_entries c64 (ip4_de de_human) de_u8) (wbytes w) <> OOk m [].
Proof. exists [((10, 0, 0, 1), 7)]. split; [reflexivity|]. vm_compute. discriminate. Qed.
(** Reading has no such restriction to strings as writing (C16): with keys of any type the entries
    are read one by one. *)
Theorem C68_other_keys_read : forall c dk dv es, wf_cfg c -> 4096 <= heap_limit c -> wf_dty dk = true -> wf_dty dv = true ->
  lenN es < 2 ^ usize_bits c -> Forall (fun kv => has_ty c dk (fst kv) = true /\ has_ty c dv (snd kv) = true) es ->
  let u := varint_bytes 8 (lenN es) ++ concat (map (fun kv => wbytes (ser (fst kv)) ++ wbytes (ser (snd kv))) es) in
  (forall r, run c (de_entries c (de c dk) (de c dv)) (u ++ r) = OOk es r) /\
  (forall u' x t, u = u' ++ x :: t -> run c (de_entries c (de c dk) (de c dv)) u' = OErr ERead).
Proof. intros c dk dv es Hw Hh Hk Hv Hl H. exact (other_keys c dk dv es Hw Hh Hk Hv Hl H). Qed.

Example C68_ex_text : dotted [192; 168; 0; 10] = text_bytes "192.168.0.10" /\
  wbytes (ser (key_map_sval ip4_sval (fun _ n => SU8 n) [((10, 0, 0, 1), 7)])) = [1; 8; 49; 48; 46; 48; 46; 48; 46; 49; 7] /\
  run c64 (de_entries c64 (ip4_de de_human) de_u8) [1; 8; 49; 48; 46; 48; 46; 48; 46; 49; 7] =
    OOk [((8, 49, 48, 46), 48)] [46; 48; 46; 49; 7].
Proof. vm_compute. auto. Qed.
(** Keys of type u32 and Option<char>: not written, but read. *)
Example C68_ex_keys :
  wresult (ser (SMap (Some 1) [(SU32 300, SBool true)])) = WeErr SEKey /\
  run c64 (de_entries c64 (de c64 DU32) (de c64 DBool)) [1; 172; 4; 1; 9] = OOk [(SU32 300, SBool true)] [9] /\
  Forall (fun kv => has_ty c64 DU32 (fst kv) = true /\ has_ty c64 DBool (snd kv) = true) [(SU32 300, SBool true)] /\
  run c64 (de_entries c64 (de c64 (DOption DChar)) (de c64 DUnit)) [2; 0; 1; 1; 97] = OOk [(SNone, SUnit); (SSome (SChar 97), SUnit)] [].
Proof. split; [reflexivity|]. split; [vm_compute; reflexivity|]. split; [repeat constructor|vm_compute; reflexivity]. Qed.
Print Assumptions C68_address_value.
Print Assumptions C68_address_key_text.
Print Assumptions C68_address_key_read.
Print Assumptions C68_address_key_wrong.
Print Assumptions C68_address_map_read.
Print Assumptions C68_address_map_roundtrip_refuted.
Print Assumptions C68_other_keys_read.
