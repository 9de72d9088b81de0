(** * Fields with a second name: #[serde(alias = "...")].

    The visitor that #[derive(Deserialize)] generates takes a field by its name or by any of its
    aliases. Which names reach it is decided by the deserializer: dlhn/src/de.rs:346-356 and 457-492
    present the names of the FIELDS constant one after the other, and the input has none.
    serde_derive is a dependency (not in /repo). Its releases differ in what FIELDS holds: the names
    of the fields only, or the aliases as well, those of one field together and sorted (a BTreeSet).
    dlhn/Cargo.toml:20 accepts both kinds, so both are modelled ([all]). Aliases of variants are not
    modelled: de.rs:358-375 never looks at names of variants. *)
From Coq Require Import String.
From Verif Require Import Base Serde.
Local Open Scope list_scope.
Local Open Scope N_scope.

Record afield := AField { af_name : string; af_aliases : list string; af_ty : dty }.

(** serde_derive: the arms of the field visitor's visit_str. *)
Fixpoint find_alias (key : string) (fs : list afield) : option (nat * afield) :=
  match fs with
  | [] => None
  | f :: t =>
    if existsb (String.eqb key) (af_name f :: af_aliases f) then Some (O, f)
    else match find_alias key t with Some (i, x) => Some (S i, x) | None => None end
  end.

(** serde_derive: the FIELDS constant. *)
Fixpoint add_name (k : string) (l : list string) : list string :=
  match l with
  | [] => [k]
  | x :: t => if String.eqb k x then l else if String.ltb k x then k :: l else x :: add_name k t
  end.
Definition announced (all : bool) (f : afield) : list string :=
  if all then fold_right add_name [] (af_name f :: af_aliases f) else [af_name f].

(** The loop of Serde.struct_loop (de.rs:471-492 and the derived visit_map), over such fields. *)
Fixpoint alias_loop (c : cfg) (keys : list string) (fs : list afield) (slots : list (option sval)) : prog (list (option sval)) :=
  match keys with
  | [] => Ret slots
  | key :: t =>
    match find_alias key fs with
    | None => Crash PTodo
    | Some (i, f) =>
      match nth_error slots i with
      | Some None => a <- de c (af_ty f) ;; alias_loop c t fs (set_slot i a slots)
      | _ => Fail EMsg
      end
    end
  end.
Definition alias_de (c : cfg) (all : bool) (fs : list afield) : prog sval :=
  slots <- alias_loop c (flat_map (announced all) fs) fs (map (fun _ => None) fs) ;;
  l <- fill_missing (map (fun f => missing (af_ty f)) fs) slots ;;
  Ret (SStruct (combine (map af_name fs) l)).
