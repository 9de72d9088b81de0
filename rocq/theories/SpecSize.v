(** * Smallest and largest encoding of a type, computed from the type alone. *)
From Coq Require Import String.
From Verif Require Import Base Serde.
Local Open Scope list_scope.
Local Open Scope N_scope.

(** [None]: the type has no value. [Some (a, b)]: the shortest encoding has [a] bytes, the longest
    [b]; [b = None]: no limit but the address space. *)
Definition range : Type := option (N * option N).

(** One value after another. *)
Definition range_add (r s : range) : range :=
  match r, s with
  | Some (a, b), Some (a', b') =>
    Some (a + a', match b, b' with Some b, Some b' => Some (b + b') | _, _ => None end)
  | _, _ => None
  end.
(** One value or another. *)
Definition range_alt (r s : range) : range :=
  match r, s with
  | None, _ => s
  | _, None => r
  | Some (a, b), Some (a', b') =>
    Some (N.min a a', match b, b' with Some b, Some b' => Some (N.max b b') | _, _ => None end)
  end.
Definition range_all (l : list range) : range := fold_right range_add (Some (0, Some 0)) l.
(** Bytes of an enum index. *)
Definition index_size (i : N) : N := if i <? 128 then 1 else 2.
Fixpoint range_enum (i : N) (l : list range) : range :=
  match l with
  | [] => None
  | r :: t => range_alt (range_add (Some (index_size i, Some (index_size i))) r) (range_enum (i + 1) t)
  end.
(** Longest encoding of a usize, isize or count. *)
Definition word_max (c : cfg) : N := if usize_bits c =? 32 then 5 else 9.

Fixpoint size_range (c : cfg) (d : dty) : range :=
  match d with
  | DBool | DI8 | DU8 => Some (1, Some 1)
  | DI16 | DU16 => Some (1, Some 3)
  | DI32 | DU32 => Some (1, Some 5)
  | DI64 | DU64 => Some (1, Some 9)
  | DIsize | DUsize => Some (1, Some (word_max c))
  | DF32 => Some (4, Some 4)
  | DF64 => Some (8, Some 8)
  | DChar => Some (2, Some 5)
  | DString | DByteBuf | DBigUint | DBigInt | DBigDecimal => Some (1, None)
  | DOption d => range_alt (Some (1, Some 1)) (range_add (Some (1, Some 1)) (size_range c d))
  | DUnit | DUnitStruct => Some (0, Some 0)
  | DNewtypeStruct d => size_range c d
  | DVec d =>
    match size_range c d with
    | None => Some (1, Some 1)                      (* only the empty vector *)
    | Some (_, Some 0) => Some (1, Some (word_max c)) (* the count alone *)
    | _ => Some (1, None)
    end
  | DMap d => match size_range c d with None => Some (1, Some 1) | _ => Some (1, None) end
  | DTuple ds | DTupleStruct ds => range_all (map (size_range c) ds)
  | DStruct _ fs => range_all (map (fun nf => size_range c (snd nf)) fs)
  | DEnum vs => range_enum 0 (map (fun kd => size_range c (snd kd)) vs)
  | DDate => Some (2, Some 8)
  | DDateTime => Some (2, Some 14)
  | DI128 | DU128 | DStr | DBytes | DAny | DIgnored => None
  end.
