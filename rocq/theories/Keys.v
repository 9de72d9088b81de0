(** * Map keys other than strings, and impls that ask whether the format is human readable.

    Ipv4Addr stands for the std types whose serde impls ask (Ipv6Addr, IpAddr, SocketAddr behave
    alike): text for a human readable format, the octets otherwise. *)
From Verif Require Import Base Varint Serde.
Local Open Scope N_scope.

(** ser.rs:262-265 *)
Definition ser_human : bool := false.
(** MapKeySerializer (ser.rs:409-575) does not define is_human_readable: serde's default *)
Definition key_human : bool := true.
(** de.rs:384-387 *)
Definition de_human : bool := false.

(** std::net::Ipv4Addr: four octets. Display: in decimal, separated by dots. *)
Definition ip4 : Type := (N * N * N * N)%type.
Definition octets (a : ip4) : list N := match a with (w, x, y, z) => [w; x; y; z] end.
Definition digits (n : N) : list N :=
  if n <? 10 then [48 + n]
  else if n <? 100 then [48 + n / 10; 48 + n mod 10]
  else [48 + n / 100; 48 + n / 10 mod 10; 48 + n mod 10].
Definition ip4_text (a : ip4) : list N :=
  match a with (w, x, y, z) => (digits w ++ 46 :: digits x ++ 46 :: digits y ++ 46 :: digits z)%list end.
(** serde's Serialize for Ipv4Addr: serialize_str or the array of octets (serialize_tuple) *)
Definition ip4_sval (human : bool) (a : ip4) : sval :=
  if human then SStr (ip4_text a) else STuple (map SU8 (octets a)).
(** serde's Deserialize for Ipv4Addr: deserialize_str (de.rs:203-208) or [u8; 4] (deserialize_tuple) *)
Definition ip4_de (human : bool) : prog ip4 :=
  if human then Crash PTodo
  else w <- de_u8 ;; x <- de_u8 ;; y <- de_u8 ;; z <- de_u8 ;; Ret (w, x, y, z).

(** serde's Serialize for BTreeMap<K, V> and HashMap<K, V>: serialize_map(Some(len)), then for each
    entry serialize_key (ser.rs:340-345: the key sees a MapKeySerializer) and serialize_value
    (347-352: the value sees the Serializer) *)
Definition key_map_sval {K V} (key : bool -> K -> sval) (val : bool -> V -> sval) (m : list (K * V)) : sval :=
  SMap (Some (lenN m)) (map (fun kv => (key key_human (fst kv), val ser_human (snd kv))) m).

(** de.rs:338-344 deserialize_map, 420-455 MapDeserializer, for any key type: the entries in the
    order read (the map inserts them one by one) *)
Definition de_entries {K V} (c : cfg) (key : prog K) (val : prog V) : prog (list (K * V)) :=
  count <- dec_u64 ERead ;; repeatN (as_usize c count) (k <- key ;; v <- val ;; Ret (k, v)).
