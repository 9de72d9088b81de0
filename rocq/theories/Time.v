(** * Dates and times.

    Models dlhn/src/date.rs:17-34, date_time.rs:11-30 (conversions) and
    dlhn/src/format/date.rs, format/date_time.rs. The time crate (not in /repo,
    default features: years -9999..=9999) is represented by the parts used here:
    a calendar date is (year, ordinal), a point in time is (seconds since the Unix
    epoch, nanosecond within the second). *)
From Verif Require Import Base Varint Utf8 Serde.

(** time::util::is_leap_year, days_in_year *)
Definition is_leap (y : Z) : bool :=
  ((y mod 4 =? 0) && (negb (y mod 100 =? 0) || (y mod 400 =? 0)))%Z.
Definition days_in_year (y : Z) : N := if is_leap y then 366 else 365.

Definition MIN_YEAR : Z := -9999.
Definition MAX_YEAR : Z := 9999.

(** time::Date::from_ordinal_date *)
Definition from_ordinal_date (year : Z) (ordinal : N) : option (Z * N) :=
  if ((MIN_YEAR <=? year) && (year <=? MAX_YEAR))%Z
     && (1 <=? ordinal) && (ordinal <=? days_in_year year)
  then Some (year, ordinal) else None.

(** date.rs:17-25 *)
Definition date_from (d : Z * N) : Z * N := d.
(** date.rs:27-34 *)
Definition date_try_into (w : Z * N) : option (Z * N) := from_ordinal_date (fst w) (snd w).

(** format/date.rs:39-44 *)
Definition fmt_date_sval (c : cfg) (d : Z * N) : sval :=
  STuple
    [ match arith_s c 32 (fst d - YEAR_OFFSET) with Some y => SI32 y | None => SPanic POverflow end;
      match arith_u c 16 (Z.of_N (snd d) - Z.of_N ORDINAL_OFFSET) with
      | Some o => SU16 o | None => SPanic POverflow end ].
(** format/date.rs:21-36, 46-48 *)
Definition fmt_de_date (c : cfg) : prog (Z * N) :=
  y0 <- de_i32 ;;
  y <- or_overflow (arith_s c 32 (y0 + YEAR_OFFSET)) ;;
  o0 <- de_u16 ;;
  o <- or_overflow (arith_u c 16 (Z.of_N o0 + Z.of_N ORDINAL_OFFSET)) ;;
  match from_ordinal_date y o with Some d => Ret d | None => Fail EMsg end.

(** date.rs:11, derived Ord: fields in order *)
Definition date_cmp (a b : Z * N) : comparison :=
  match Z.compare (fst a) (fst b) with Eq => N.compare (snd a) (snd b) | r => r end.

(** ** Points in time *)

(** Seconds of -9999-01-01T00:00:00Z and 9999-12-31T23:59:59Z: the range accepted by
    OffsetDateTime::from_unix_timestamp and by addition. *)
Definition MIN_TS : Z := -377705116800.
Definition MAX_TS : Z := 253402300799.

(** An OffsetDateTime: UTC seconds, nanosecond, offset in seconds (|offset| < 86400). *)
Record odt := Odt { odt_ts : Z; odt_ns : N; odt_off : Z }.
Definition odt_ok (t : odt) : Prop :=
  (MIN_TS <= odt_ts t <= MAX_TS)%Z /\ odt_ns t < 1000000000.

(** OffsetDateTime::from_unix_timestamp *)
Definition from_unix_timestamp (ts : Z) : option odt :=
  if ((MIN_TS <=? ts) && (ts <=? MAX_TS))%Z then Some (Odt ts 0 0) else None.
(** OffsetDateTime + Duration of n nanoseconds, 0 <= n: panics when out of range *)
Definition odt_add_ns (t : odt) (n : N) : option odt :=
  let total := odt_ns t + n in
  let ts := (odt_ts t + Z.of_N (total / 1000000000))%Z in
  if (ts <=? MAX_TS)%Z then Some (Odt ts (total mod 1000000000) (odt_off t)) else None.

(** date_time.rs:11-19; also what format/date_time.rs:39-40 reads off. unix_timestamp() is in
    UTC; nanosecond() is that of the local time, equal because offsets are whole seconds. *)
Definition datetime_from (t : odt) : Z * N := (odt_ts t, odt_ns t).

(** date_time.rs:5, derived Ord: fields in order *)
Definition datetime_cmp (a b : Z * N) : comparison :=
  match Z.compare (fst a) (fst b) with Eq => N.compare (snd a) (snd b) | r => r end.

Inductive conv (A : Type) := COk (a : A) | CErr | CPanic (p : panic).
Arguments COk {A} a.  Arguments CErr {A}.  Arguments CPanic {A} p.

(** date_time.rs:21-30 *)
Definition datetime_try_into (w : Z * N) : conv odt :=
  match from_unix_timestamp (fst w) with
  | None => CErr
  | Some t => match odt_add_ns t (snd w) with Some t' => COk t' | None => CPanic PTime end
  end.

(** format/date_time.rs:34-42 *)
Definition fmt_datetime_sval (t : odt) : sval := SSeq None [SI64 (odt_ts t); SU32 (odt_ns t)].
(** format/date_time.rs:18-31, 44-46 *)
Definition fmt_de_datetime : prog odt :=
  ts <- de_i64 ;;
  ns <- de_u32 ;;
  match from_unix_timestamp ts with
  | None => Fail EMsg
  | Some t => match odt_add_ns t ns with Some t' => Ret t' | None => Crash PTime end
  end.
