(** * What the modules of dlhn::format read from every input. *)
From Verif Require Import Base Serde SpecVarint SpecAccept SpecReject SpecReads SpecBig SpecTime Time.
Local Open Scope list_scope.
Local Open Scope N_scope.

(** Digits are a length and bytes; a scale follows unless the digits are zero as a number. *)
Inductive format_decimal (c : cfg) : list N -> outcome (Z * Z) -> Prop :=
| fd_stop s x : bytes_read (kept c) s (stop x) -> format_decimal c s (stop x)
| fd_zero s bs r : bytes_read (kept c) s (OOk bs r) -> signed_value bs = 0%Z -> format_decimal c s (OOk (0%Z, 0%Z) r)
| fd_short s bs r : bytes_read (kept c) s (OOk bs r) -> signed_value bs <> 0%Z -> short 8 r -> format_decimal c s (OErr ERead)
| fd_scale s bs l n r : bytes_read (kept c) s (OOk bs (l ++ r)) -> signed_value bs <> 0%Z -> code 8 l n ->
    format_decimal c s (OOk (signed_value bs, unzigzag n) r).
(** Year and day, as a date of the calendar. *)
Inductive format_date (c : cfg) : list N -> outcome (Z * N) -> Prop :=
| fa_stop s x : no_date c s x -> format_date c s (stop x)
| fa_real l k y o r : code 4 l y -> code 2 k o -> date_range c (unzigzag y) o ->
    real_date (date_year (unzigzag y)) (date_ordinal o) ->
    format_date c (l ++ k ++ r) (OOk (date_year (unzigzag y), date_ordinal o) r)
| fa_other l k y o r : code 4 l y -> code 2 k o -> date_range c (unzigzag y) o ->
    ~ real_date (date_year (unzigzag y)) (date_ordinal o) -> format_date c (l ++ k ++ r) (OErr EMsg).
(** Seconds within the years -9999 to 9999, then nanoseconds, which may leave that range. *)
Inductive format_time : list N -> outcome odt -> Prop :=
| fm_short s : no_date_time s -> format_time s (OErr ERead)
| fm_range l k t n r : code 8 l t -> code 4 k n ->
    (1000000000 * unzigzag t < first_nano \/ last_nano < 1000000000 * unzigzag t)%Z -> format_time (l ++ k ++ r) (OErr EMsg)
| fm_crash l k t n r : code 8 l t -> code 4 k n ->
    (first_nano <= 1000000000 * unzigzag t <= last_nano)%Z -> (last_nano < nanos (unzigzag t, n))%Z -> format_time (l ++ k ++ r) (OPanic PTime)
| fm_time l k t n r t' n' : code 8 l t -> code 4 k n ->
    (first_nano <= 1000000000 * unzigzag t)%Z -> (nanos (unzigzag t, n) <= last_nano)%Z ->
    n' < 1000000000 -> nanos (t', n') = nanos (unzigzag t, n) -> format_time (l ++ k ++ r) (OOk (Odt t' n' 0) r).
