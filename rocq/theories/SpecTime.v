(** * The Gregorian calendar and points in time. *)
From Coq Require Import List NArith ZArith Bool.
Import ListNotations.
Local Open Scope Z_scope.

Definition leap (y : Z) : Prop := ((4 | y) /\ ~ (100 | y)) \/ (400 | y).
(** Lengths of the months of a leap/common year. *)
Definition months (l : bool) : list Z := [31; if l then 29 else 28; 31; 30; 31; 30; 31; 31; 30; 31; 30; 31].
Definition total_days (l : list Z) : Z := fold_right Z.add 0 l.
(** [o] is the ordinal of day [d] of month number [m] (from 0) of the year [y]. *)
Definition day_of (y : Z) (m : nat) (d : Z) (o : N) : Prop :=
  exists l len, (l = true <-> leap y) /\ nth_error (months l) m = Some len /\ 1 <= d <= len /\
    Z.of_N o = total_days (firstn m (months l)) + d.
(** A date of the calendar, in the years supported by the time crate. *)
Definition real_date (y : Z) (o : N) : Prop := -9999 <= y <= 9999 /\ exists m d, day_of y m d o.

(** Days since the end of the year 0. *)
Definition day_number (d : Z * N) : Z :=
  let p := fst d - 1 in 365 * p + p / 4 - p / 100 + p / 400 + Z.of_N (snd d).
(** Seconds from the Unix epoch to the start of a day. *)
Definition day_seconds (d : Z * N) : Z := 86400 * (day_number d - day_number (1970, 1%N)).

(** Nanoseconds since the Unix epoch. *)
Definition nanos (p : Z * N) : Z := 1000000000 * fst p + Z.of_N (snd p).
(** Last representable nanosecond and first one: years -9999 to 9999. *)
Definition last_nano : Z := 1000000000 * day_seconds (10000, 1%N) - 1.
Definition first_nano : Z := 1000000000 * day_seconds (-9999, 1%N).

(** Bytes taken by the year, the ordinal, the seconds and the nanoseconds on the wire. *)
Definition year_size (y : Z) : nat :=
  if (1936 <=? y) && (y <=? 2063) then 1 else if (-6192 <=? y) && (y <=? 10191) then 2 else 3.
Definition ordinal_size (o : N) : nat := if (o <=? 128)%N then 1 else 2.
Definition seconds_size (t : Z) : nat :=
  if (-64 <=? t) && (t <? 64) then 1 else if (-8192 <=? t) && (t <? 8192) then 2
  else if (-1048576 <=? t) && (t <? 1048576) then 3 else if (-134217728 <=? t) && (t <? 134217728) then 4
  else if (-17179869184 <=? t) && (t <? 17179869184) then 5 else 6.
Definition nanos_size (n : N) : nat :=
  if (n <? 128)%N then 1 else if (n <? 16384)%N then 2 else if (n <? 2097152)%N then 3
  else if (n <? 268435456)%N then 4 else 5.
