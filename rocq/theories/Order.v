(** Model of the comparison of durations and of dates with times: the PartialOrd derived in
    xsd-types/src/types/duration.rs (l.5), datetime.rs (l.6), datetimestamp.rs (l.9). *)
From Coq Require Import NArith ZArith Bool List.
From Coq Require Import Floats.SpecFloat.
From Verif Require Import Str Dur DateTime.
Import ListNotations.
Local Open Scope N_scope.

(** #[derive(PartialOrd)]: the fields in the order of declaration; the first that differs (or
    cannot be compared) decides. *)
Definition then_cmp (a b : option comparison) : option comparison := match a with Some Eq => b | _ => a end.
(** [bool]: false < true. *)
Definition bool_cmp (a b : bool) : comparison :=
  match a, b with false, true => Lt | true, false => Gt | _, _ => Eq end.
Definition dur_cmp (a b : duration) : option comparison :=
  then_cmp (Some (bool_cmp (d_neg a) (d_neg b)))
  (then_cmp (Some (d_years a ?= d_years b))
  (then_cmp (Some (d_months a ?= d_months b))
  (then_cmp (Some (d_days a ?= d_days b))
  (then_cmp (Some (d_hours a ?= d_hours b))
  (then_cmp (Some (d_minutes a ?= d_minutes b))
  (SFcompare (d_seconds a) (d_seconds b))))))).

(** ** Dates with times *)
Local Open Scope Z_scope.
(** chrono keeps the moment in UTC, as year, day of the year, second of the day and nanosecond,
    and compares these (derived PartialOrd of NaiveDateTime, NaiveDate and NaiveTime); overflow of the
    years chrono supports is not modelled. *)
Definition days_before (y m : Z) : Z := fold_right Z.add 0 (map (fun k => month_length y (Z.of_nat k)) (seq 1 (Z.to_nat (m - 1)))).
Definition year_days (y : Z) : Z := if leap_year y then 366 else 365.
Definition utc (v : datetime) : Z * Z * Z :=
  let y := n_year (dt_date v) in let o := days_before y (n_month (dt_date v)) + n_day (dt_date v) in
  let s := 3600 * n_hour (dt_time v) + 60 * n_min (dt_time v) + n_sec (dt_time v) - dt_off v in
  if s <? 0 then (if o =? 1 then (y - 1, year_days (y - 1), s + 86400) else (y, o - 1, s + 86400))
  else if 86400 <=? s then (if o =? year_days y then (y + 1, 1, s - 86400) else (y, o + 1, s - 86400))
  else (y, o, s).
Definition dt_cmp (a b : datetime) : option comparison :=
  let '(y, o, s) := utc a in let '(y', o', s') := utc b in
  then_cmp (Some (y ?= y')) (then_cmp (Some (o ?= o')) (then_cmp (Some (s ?= s')) (Some (n_nano (dt_time a) ?= n_nano (dt_time b))))).
