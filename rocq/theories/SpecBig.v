(** * What byte strings and digit/scale pairs mean as numbers; ordering of dates and times. *)
From Coq Require Import List NArith ZArith QArith.
From Verif Require Import SpecVarint.
Import ListNotations.
Local Open Scope N_scope.

(** Little-endian two's complement. *)
Definition signed_value (bs : list N) : Z :=
  let v := Z.of_N (le_value bs) in
  let m := (256 ^ Z.of_nat (length bs))%Z in
  (if 2 * v <? m then v else v - m)%Z.

(** [bs] is the shortest byte string with value [x]. *)
Definition shortest {A} (value : list N -> A) (x : A) (bs : list N) : Prop :=
  Forall (fun b => b < 256) bs /\ value bs = x /\
  forall bs', Forall (fun b => b < 256) bs' -> value bs' = x -> (length bs <= length bs')%nat.

(** The rational number digits * 10^-scale. *)
Definition dec_value (v : Z * Z) : Q := (inject_Z (fst v) * Qpower (10 # 1) (- snd v))%Q.

(** Dropping the trailing decimal zeros of the digits does not take the scale out of i64. *)
Definition scale_room (v : Z * Z) : Prop :=
  (snd v < 2 ^ 63)%Z /\ (- 2 ^ 63 <= snd v)%Z /\
  forall k, (0 <= k)%Z -> fst v <> 0%Z -> (10 ^ k | fst v)%Z -> (- 2 ^ 63 <= snd v - k)%Z.
