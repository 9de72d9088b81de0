(** * Structs with #[serde(flatten)].

    serde_derive (1.0) writes such a struct as a map of unknown length whose keys are the field
    names, and reads it as a map. Modelled here: the calls serde makes, and what ser.rs and de.rs
    do with them. *)
From Coq Require Import String Ascii.
From Verif Require Import Base Varint Serde.
Local Open Scope list_scope.
Local Open Scope N_scope.

Definition name_bytes (s : string) : list N := map N_of_ascii (list_ascii_of_string s).

(** A field, as derive(Serialize) treats it. *)
Inductive member := Plain (name : string) (v : sval) | Flat (v : sval).

(** serde::private::ser::FlatMapSerializer: the entries a flattened value adds to the map. Options
    and newtype structs are passed through, the fields of structs and the entries of maps added;
    for scalars, strings, sequences and tuples serde returns an error of its own. Not modelled
    ([None]): units and enums, which serde's releases treat differently. *)
Fixpoint flat_entries (v : sval) : option (list (sval * sval)) :=
  match v with
  | SNone => Some []
  | SSome v => flat_entries v
  | SNewtypeStruct v => flat_entries v
  | SStruct l => Some (map (fun kv => (SStr (name_bytes (fst kv)), snd kv)) l)
  | SMap _ l => Some l
  | SUnit | SUnitStruct | SUnitVariant _ | SNewtypeVariant _ _ | STupleVariant _ _ | SStructVariant _ _ => None
  | SPanic p => Some [(SPanic p, SUnit)]
  | _ => Some [(SError, SUnit)]
  end.

Definition member_entries (m : member) : option (list (sval * sval)) :=
  match m with
  | Plain name v => Some [(SStr (name_bytes name), v)]
  | Flat v => flat_entries v
  end.
Fixpoint members_entries (ms : list member) : option (list (sval * sval)) :=
  match ms with
  | [] => Some []
  | m :: ms =>
    match member_entries m, members_entries ms with Some l, Some l' => Some (l ++ l') | _, _ => None end
  end.

(** serialize_map(None), serialize_entry for each entry, end (ser.rs:235-240, 336-357). *)
Definition flatten_sval (ms : list member) : option sval :=
  match members_entries ms with Some es => Some (SMap None es) | None => None end.

(** deserialize_map (de.rs:338-344); for each entry the key is read with deserialize_identifier,
    a u16 (de.rs:369-374), which is no field name, so the value is to be kept for the flattened
    fields: deserialize_any (de.rs:62-67), todo!(). Without entries, [finish]: what the fields
    are when none was there (defaults, None, an empty map, or an error "missing field"). *)
Definition flatten_de {A} (c : cfg) (finish : prog A) : prog A :=
  count <- dec_u64 ERead ;;
  if as_usize c count =? 0 then finish else _ <- de_u16 ;; Crash PTodo.
