(** Model of xsd-types/src/types/{date,time,datetime,datetimestamp}.rs, together with the
    parts of chrono 0.4.35 (the version of /repo/Cargo.lock) they call:
    [NaiveDate::parse_from_str(_, "%Y-%m-%d")], [NaiveTime::parse_from_str(_, "%H:%M:%S")],
    [DateTime::parse_from_rfc3339], the corresponding formatters and [to_rfc3339].

    chrono's range of years is [lo..hi]; its exact ends differ between chrono releases, so
    they are parameters. *)
From Coq Require Import List NArith ZArith Bool Ascii String.
From Verif Require Import Str Tz GTypes.
Import ListNotations.
Local Open Scope Z_scope.

(** ** chrono: format/scan.rs *)

Definition i64_max : N := 9223372036854775807.

(** Longest prefix of at most [max] ASCII digits, and the rest. *)
Fixpoint take_digits (max : nat) (s : str) : str * str :=
  match max, s with
  | S k, c :: s' =>
    if is_ascii_digit c then let '(ds, r) := take_digits k s' in (c :: ds, r) else ([], s)
  | _, _ => ([], s)
  end.

(** chrono format/scan.rs [number(s, min, max)]: between [min] and [max] ASCII digits, the
    value must fit an i64 (chrono checks after each digit, which is the same). *)
Definition scan_number (min max : nat) (s : str) : res (str * N) :=
  let '(ds, r) := take_digits max s in
  if (List.length ds <? min)%nat then Err
  else if (digits_val ds <=? i64_max)%N then Ok (r, digits_val ds) else Err.

(** chrono format/scan.rs [char] and format/parse.rs [Item::Literal] for a one-character
    ASCII literal. *)
Definition scan_char (c : N) (s : str) : res str :=
  match s with x :: r => if N.eqb x c then Ok r else Err | [] => Err end.

(** chrono format/parse.rs, [Item::Numeric] of an unsigned item of width 2: leading white
    space is skipped. *)
Definition scan_item (s : str) : res (str * N) := scan_number 1 2 (trim_start s).

(** chrono format/parse.rs, [Item::Numeric(Year, _)]: signed, width 4 unless a sign is
    written. *)
Definition scan_year (s : str) : res (str * Z) :=
  let t := trim_start s in
  match strip_prefix (chr "-") t with
  | Some r => bind (scan_number 1 (List.length r) r) (fun '(r, v) => Ok (r, - Z.of_N v))
  | None =>
    match strip_prefix (chr "+") t with
    | Some r => bind (scan_number 1 (List.length r) r) (fun '(r, v) => Ok (r, Z.of_N v))
    | None => bind (scan_number 1 4 t) (fun '(r, v) => Ok (r, Z.of_N v))
    end
  end.

(** ** chrono: calendar *)

Definition leap_year (y : Z) : bool :=
  if y mod 400 =? 0 then true else if y mod 100 =? 0 then false else y mod 4 =? 0.

Definition month_length (y m : Z) : Z :=
  nth (Z.to_nat m) [0; 31; if leap_year y then 29 else 28; 31; 30; 31; 30; 31; 31; 30; 31; 30; 31] 0.

(** A NaiveDate: year, month, day. *)
Record ndate := { n_year : Z; n_month : Z; n_day : Z }.

(** chrono [NaiveDate::from_ymd_opt] *)
Definition from_ymd_opt (lo hi y m d : Z) : option ndate :=
  if (lo <=? y) && (y <=? hi) && (1 <=? m) && (m <=? 12) && (1 <=? d) && (d <=? month_length y m)
  then Some {| n_year := y; n_month := m; n_day := d |} else None.

(** A NaiveTime: [n_nano] goes up to 1_999_999_999, values from 1_000_000_000 on denote a
    leap second. *)
Record ntime := { n_hour : Z; n_min : Z; n_sec : Z; n_nano : Z }.

(** chrono [NaiveTime::from_hms_nano_opt] *)
Definition from_hms_nano_opt (h m s n : Z) : option ntime :=
  if (24 <=? h) || (60 <=? m) || (60 <=? s) || ((1000000000 <=? n) && negb (s =? 59))
     || (2000000000 <=? n)
  then None else Some {| n_hour := h; n_min := m; n_sec := s; n_nano := n |}.

(** chrono format/parsed.rs [Parsed::to_naive_time] with hour, minute, second set and
    [nanosecond] = [nano] (0 when not set): second 60 is a leap second. *)
Definition to_naive_time (h m s nano : Z) : option ntime :=
  if s <=? 59 then from_hms_nano_opt h m s nano
  else if s =? 60 then from_hms_nano_opt h m 59 (1000000000 + nano)
  else None.

(** chrono [NaiveDate::parse_from_str(s, "%Y-%m-%d")] *)
Definition parse_naive_date (lo hi : Z) (s : str) : res ndate :=
  bind (scan_year s) (fun '(s, y) =>
  bind (scan_char (chr "-") s) (fun s =>
  bind (scan_item s) (fun '(s, m) =>
  bind (scan_char (chr "-") s) (fun s =>
  bind (scan_item s) (fun '(s, d) =>
  match s with
  | [] => ok_or (from_ymd_opt lo hi y (Z.of_N m) (Z.of_N d))
  | _ => Err
  end))))).

(** chrono [NaiveTime::parse_from_str(s, "%H:%M:%S")] *)
Definition parse_naive_time (s : str) : res ntime :=
  bind (scan_item s) (fun '(s, h) =>
  bind (scan_char (chr ":") s) (fun s =>
  bind (scan_item s) (fun '(s, m) =>
  bind (scan_char (chr ":") s) (fun s =>
  bind (scan_item s) (fun '(s, sec) =>
  match s with
  | [] => ok_or (to_naive_time (Z.of_N h) (Z.of_N m) (Z.of_N sec) 0)
  | _ => Err
  end))))).

(** chrono formatting of [%Y]: four digits for 0..=9999, otherwise sign and at least four
    digits. *)
Definition format_year (y : Z) : str :=
  if (0 <=? y) && (y <=? 9999) then pad 4 (Z.to_N y)
  else ((if y <? 0 then chr "-" else chr "+") :: pad 4 (Z.abs_N y))%list.

(** chrono formatting of "%Y-%m-%d" *)
Definition format_date (d : ndate) : str :=
  (format_year (n_year d) ++ lit "-" ++ pad 2 (Z.to_N (n_month d)) ++ lit "-"
   ++ pad 2 (Z.to_N (n_day d)))%list.

(** chrono formatting of "%H:%M:%S": a leap second shows as second + 1. *)
Definition format_time (t : ntime) : str :=
  (pad 2 (Z.to_N (n_hour t)) ++ lit ":" ++ pad 2 (Z.to_N (n_min t)) ++ lit ":"
   ++ pad 2 (Z.to_N (n_sec t + n_nano t / 1000000000)))%list.

(** ** Date (date.rs) *)
Record date := { d_value : ndate; d_tz : option Z }.

(** date.rs l.33-70 *)
Definition date_from_str (lo hi : Z) (s : str) : res date :=
  match strip_suffix (chr "Z") s with
  | Some s' => bind (parse_naive_date lo hi s') (fun v =>
               bind (unwrap (east_opt 0)) (fun tz => Ok {| d_value := v; d_tz := Some tz |}))
  | None =>
    if contains (chr "+") s then
      if (1 <? count (chr "+") s)%nat then Err
      else match split_before (chr "+") 0 s with
           | None => Panic
           | Some (date_token, tz_token) =>
             bind (parse_naive_date lo hi date_token) (fun v =>
             bind (parse_timezone tz_token) (fun tz => Ok {| d_value := v; d_tz := Some tz |}))
           end
    else if (count (chr "-") s =? 3)%nat then
      match split_before (chr "-") 2 s with
      | None => Panic
      | Some (date_token, tz_token) =>
        bind (parse_naive_date lo hi date_token) (fun v =>
        bind (parse_timezone tz_token) (fun tz => Ok {| d_value := v; d_tz := Some tz |}))
      end
    else bind (parse_naive_date lo hi s) (fun v => Ok {| d_value := v; d_tz := None |})
  end.

(** date.rs l.74-80 *)
Definition date_display (d : date) : str := (format_date (d_value d) ++ tz_text (d_tz d))%list.

(** ** Time (time.rs) *)
Record time := { t_value : ntime; t_tz : option Z }.

(** time.rs l.33-74 *)
Definition time_from_str (s : str) : res time :=
  match strip_suffix (chr "Z") s with
  | Some s' => bind (parse_naive_time s') (fun v =>
               bind (unwrap (east_opt 0)) (fun tz => Ok {| t_value := v; t_tz := Some tz |}))
  | None =>
    if contains (chr "+") s then
      if (1 <? count (chr "+") s)%nat then Err
      else match split_before (chr "+") 0 s with
           | None => Panic
           | Some (time_token, tz_token) =>
             bind (parse_naive_time time_token) (fun v =>
             bind (parse_timezone tz_token) (fun tz => Ok {| t_value := v; t_tz := Some tz |}))
           end
    else if contains (chr "-") s then
      if (1 <? count (chr "-") s)%nat then Err
      else match split_before (chr "-") 0 s with
           | None => Panic
           | Some (time_token, tz_token) =>
             bind (parse_naive_time time_token) (fun v =>
             bind (parse_timezone tz_token) (fun tz => Ok {| t_value := v; t_tz := Some tz |}))
           end
    else bind (parse_naive_time s) (fun v => Ok {| t_value := v; t_tz := None |})
  end.

(** time.rs l.78-84 *)
Definition time_display (t : time) : str := (format_time (t_value t) ++ tz_text (t_tz t))%list.

(** ** DateTime and DateTimeStamp *)

(** A chrono [DateTime<FixedOffset>].  chrono stores the UTC date and time and the offset;
    local time = UTC + offset is a bijection (leap-second marks included), and the model
    stores the local date and time.  Its [PartialEq] compares the UTC instants only, so
    equality of these records is finer than Rust's [==]. *)
Record datetime := { dt_date : ndate; dt_time : ntime; dt_off : Z }.

(** chrono format/scan.rs [nanosecond]: 1 to 9 digits scaled to nanoseconds, further digits
    skipped. *)
Definition scan_nanosecond (s : str) : res (str * N) :=
  let '(ds, r) := take_digits 9 s in
  match ds with
  | [] => Err
  | _ => Ok (snd (take_digits (List.length r) r),
             digits_val ds * 10 ^ N.of_nat (9 - List.length ds))%N
  end.

(** Two ASCII digits (chrono's [digits] helper). *)
Definition scan_two (s : str) : res (str * N) :=
  match s with
  | a :: b :: r => if is_ascii_digit a && is_ascii_digit b then Ok (r, digits_val [a; b]) else Err
  | _ => Err
  end.

(** chrono format/scan.rs [timezone_offset(s, char ':', allow_zulu = true,
    allow_missing_minutes = false, allow_tz_minus_sign = true)]; 8722 is U+2212. *)
Definition scan_offset (s : str) : res (str * Z) :=
  match s with
  | [] => Err
  | c :: r =>
    if N.eqb c (chr "Z") || N.eqb c (chr "z") then Ok (r, 0)
    else if negb (N.eqb c (chr "+") || N.eqb c (chr "-") || N.eqb c 8722) then Err
    else
      bind (scan_two r) (fun '(r, h) =>
      bind (scan_char (chr ":") r) (fun r =>
      bind (scan_two r) (fun '(r, m) =>
      if (60 <=? m)%N then Err
      else
        let secs := Z.of_N h * 3600 + Z.of_N m * 60 in
        Ok (r, if N.eqb c (chr "+") then secs else - secs))))
  end.

(** chrono format/parse.rs [parse_rfc3339] and datetime/mod.rs [parse_from_rfc3339] *)
Definition parse_from_rfc3339 (lo hi : Z) (s : str) : res datetime :=
  bind (scan_number 4 4 s) (fun '(s, y) =>
  bind (scan_char (chr "-") s) (fun s =>
  bind (scan_number 2 2 s) (fun '(s, m) =>
  bind (scan_char (chr "-") s) (fun s =>
  bind (scan_number 2 2 s) (fun '(s, d) =>
  match s with
  | [] => Err
  | c :: s =>
    if negb (N.eqb c (chr "t") || N.eqb c (chr "T") || N.eqb c (chr " ")) then Err else
    bind (scan_number 2 2 s) (fun '(s, h) =>
    bind (scan_char (chr ":") s) (fun s =>
    bind (scan_number 2 2 s) (fun '(s, mi) =>
    bind (scan_char (chr ":") s) (fun s =>
    bind (scan_number 2 2 s) (fun '(s, sec) =>
    bind (match strip_prefix (chr ".") s with
          | Some r => scan_nanosecond r
          | None => Ok (s, 0%N)
          end) (fun '(s, nano) =>
    bind (scan_offset s) (fun '(s, off) =>
    if negb ((-86340 <=? off) && (off <=? 86340)) then Err else
    match s with
    | _ :: _ => Err
    | [] =>
      bind (ok_or (from_ymd_opt lo hi (Z.of_N y) (Z.of_N m) (Z.of_N d))) (fun dd =>
      bind (ok_or (to_naive_time (Z.of_N h) (Z.of_N mi) (Z.of_N sec) (Z.of_N nano))) (fun tt =>
      bind (ok_or (east_opt off)) (fun off =>
      Ok {| dt_date := dd; dt_time := tt; dt_off := off |})))
    end)))))))
  end))))).

(** datetimestamp.rs l.27-32 *)
Definition stamp_from_str (lo hi : Z) (s : str) : res datetime :=
  match parse_from_rfc3339 lo hi s with
  | Ok cdt => Ok cdt
  | Err => Err
  | Panic => Panic
  end.

(** datetime.rs l.35-42 *)
Definition datetime_from_str (lo hi : Z) (s : str) : res datetime :=
  let tz_provided := match strip_suffix (chr "Z") s with Some _ => true | None => false end
                     || contains (chr "+") s || (count (chr "-") s =? 3)%nat in
  let s_with_timezone := if tz_provided then s else (s ++ lit "Z")%list in
  parse_from_rfc3339 lo hi s_with_timezone.

(** chrono format/formatting.rs [write_rfc3339]: fraction in the AutoSi style *)
Definition format_nano (n : Z) : str :=
  if n =? 0 then []
  else if n mod 1000000 =? 0 then (chr "." :: pad 3 (Z.to_N (n / 1000000)))%list
  else if n mod 1000 =? 0 then (chr "." :: pad 6 (Z.to_N (n / 1000)))%list
  else (chr "." :: pad 9 (Z.to_N n))%list.

(** chrono format/formatting.rs [OffsetFormat] {Minutes, Colon, no zulu}: rounded to the
    nearest minute. *)
Definition format_offset (z : Z) : str :=
  let minutes := (Z.abs z + 30) / 60 in
  ((if z <? 0 then chr "-" else chr "+") :: pad 2 (Z.to_N (minutes / 60)) ++ lit ":"
    ++ pad 2 (Z.to_N (minutes mod 60)))%list.

(** datetime.rs l.46-48, datetimestamp.rs l.36-38: chrono [to_rfc3339] *)
Definition datetime_display (v : datetime) : str :=
  (format_date (dt_date v) ++ lit "T" ++ format_time (dt_time v)
   ++ format_nano (n_nano (dt_time v) mod 1000000000) ++ format_offset (dt_off v))%list.
