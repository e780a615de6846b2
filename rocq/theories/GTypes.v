(** Model of the g-types: xsd-types/src/types/{gday,gmonth,gmonthday,gyear,gyearmonth}.rs.
    i32 values are Z; a time zone is [option Z] (seconds east). *)
From Coq Require Import List NArith ZArith Bool Ascii String.
From Verif Require Import Str Tz.
Import ListNotations.
Local Open Scope Z_scope.

(** [token.parse::<i32>().map_err(..)] *)
Definition parse_i32_res (s : str) : res Z := ok_or (parse_i32 s).

(** [{}] of an Option<FixedOffset> as used by the Display impls: nothing for None. *)
Definition tz_text (tz : option Z) : str :=
  match tz with Some z => display_offset z | None => [] end.

(** ** GDay (gday.rs) *)
Record gday := { gd_value : Z; gd_tz : option Z }.

(** gday.rs l.15-20 *)
Definition gday_new (day : Z) (tz : option Z) : res gday :=
  if negb ((1 <=? day) && (day <=? 31)) then Err
  else Ok {| gd_value := day; gd_tz := tz |}.

(** gday.rs l.33-42 *)
Definition gday_parse_value (s : str) : res Z :=
  if negb (byte_len s =? 5)%nat then Err
  else bind (slice s 0 3) (fun p =>
    if negb (str_eqb p (lit "---")) then Err
    else bind (slice s 3 5) (fun token =>
      if negb (forallb is_ascii_digit token) then Err
      else parse_i32_res token)).

(** gday.rs l.32-66 *)
Definition gday_from_str (s : str) : res gday :=
  match strip_suffix (chr "Z") s with
  | Some s' => bind (gday_parse_value s') (fun v => gday_new v (east_opt 0))
  | None =>
    if contains (chr "+") s then
      if (1 <? count (chr "+") s)%nat then Err
      else match split_before (chr "+") 0 s with
           | None => Panic
           | Some (value_token, tz_token) =>
             bind (gday_parse_value value_token) (fun v =>
             bind (parse_timezone tz_token) (fun tz => gday_new v (Some tz)))
           end
    else if (count (chr "-") s =? 4)%nat then
      match split_before (chr "-") 3 s with
      | None => Panic
      | Some (value_token, tz_token) =>
        bind (gday_parse_value value_token) (fun v =>
        bind (parse_timezone tz_token) (fun tz => gday_new v (Some tz)))
      end
    else bind (gday_parse_value s) (fun v => gday_new v None)
  end.

(** gday.rs l.70-77 *)
Definition gday_display (g : gday) : str :=
  (lit "---" ++ pad_signed 2 (gd_value g) ++ tz_text (gd_tz g))%list.

(** ** GMonth (gmonth.rs) *)
Record gmonth := { gm_value : Z; gm_tz : option Z }.

(** gmonth.rs l.15-20 *)
Definition gmonth_new (month : Z) (tz : option Z) : res gmonth :=
  if negb ((1 <=? month) && (month <=? 12)) then Err
  else Ok {| gm_value := month; gm_tz := tz |}.

(** gmonth.rs l.33-42 *)
Definition gmonth_parse_value (s : str) : res Z :=
  if negb (byte_len s =? 4)%nat then Err
  else bind (slice s 0 2) (fun p =>
    if negb (str_eqb p (lit "--")) then Err
    else bind (slice s 2 4) (fun token =>
      if negb (forallb is_ascii_digit token) then Err
      else parse_i32_res token)).

(** gmonth.rs l.32-66 *)
Definition gmonth_from_str (s : str) : res gmonth :=
  match strip_suffix (chr "Z") s with
  | Some s' => bind (gmonth_parse_value s') (fun v => gmonth_new v (east_opt 0))
  | None =>
    if contains (chr "+") s then
      if (1 <? count (chr "+") s)%nat then Err
      else match split_before (chr "+") 0 s with
           | None => Panic
           | Some (value_token, tz_token) =>
             bind (gmonth_parse_value value_token) (fun v =>
             bind (parse_timezone tz_token) (fun tz => gmonth_new v (Some tz)))
           end
    else if (count (chr "-") s =? 3)%nat then
      match split_before (chr "-") 2 s with
      | None => Panic
      | Some (value_token, tz_token) =>
        bind (gmonth_parse_value value_token) (fun v =>
        bind (parse_timezone tz_token) (fun tz => gmonth_new v (Some tz)))
      end
    else bind (gmonth_parse_value s) (fun v => gmonth_new v None)
  end.

(** gmonth.rs l.70-77 *)
Definition gmonth_display (g : gmonth) : str :=
  (lit "--" ++ pad_signed 2 (gm_value g) ++ tz_text (gm_tz g))%list.

(** ** GMonthDay (gmonthday.rs) *)
Record gmonthday := { gmd_month : Z; gmd_day : Z; gmd_tz : option Z }.

(** gmonthday.rs l.25: MONTH_MAX_LEN *)
Definition month_max_len : list Z := [31; 29; 31; 30; 31; 30; 31; 31; 30; 31; 30; 31].

(** gmonthday.rs l.16-31; an index outside the table is a panic. *)
Definition gmonthday_new (month day : Z) (tz : option Z) : res gmonthday :=
  if negb ((1 <=? month) && (month <=? 12)) then Err
  else if negb ((1 <=? day) && (day <=? 31)) then Err
  else match nth_error month_max_len (Z.to_nat (month - 1)) with
       | None => Panic
       | Some m => if m <? day then Err
                   else Ok {| gmd_month := month; gmd_day := day; gmd_tz := tz |}
       end.

(** gmonthday.rs l.52-71.  [||] evaluates left to right: the slice [4..5] is taken only if
    the prefix is "--". *)
Definition gmonthday_parse_value (s : str) : res (Z * Z) :=
  if negb (byte_len s =? 7)%nat then Err
  else bind (slice s 0 2) (fun p =>
    if negb (str_eqb p (lit "--")) then Err
    else bind (slice s 4 5) (fun q =>
      if negb (str_eqb q (lit "-")) then Err
      else bind (slice s 2 4) (fun month_token =>
        if negb (forallb is_ascii_digit month_token) then Err
        else bind (parse_i32_res month_token) (fun month =>
          bind (slice s 5 7) (fun day_token =>
          if negb (forallb is_ascii_digit day_token) then Err
          else bind (parse_i32_res day_token) (fun day => Ok (month, day))))))).

(** gmonthday.rs l.51-100 *)
Definition gmonthday_from_str (s : str) : res gmonthday :=
  match strip_suffix (chr "Z") s with
  | Some s' => bind (gmonthday_parse_value s') (fun '(m, d) => gmonthday_new m d (east_opt 0))
  | None =>
    if contains (chr "+") s then
      if (1 <? count (chr "+") s)%nat then Err
      else match split_before (chr "+") 0 s with
           | None => Panic
           | Some (value_token, tz_token) =>
             bind (gmonthday_parse_value value_token) (fun '(m, d) =>
             bind (parse_timezone tz_token) (fun tz => gmonthday_new m d (Some tz)))
           end
    else if (count (chr "-") s =? 4)%nat then
      match split_before (chr "-") 3 s with
      | None => Panic
      | Some (value_token, tz_token) =>
        bind (gmonthday_parse_value value_token) (fun '(m, d) =>
        bind (parse_timezone tz_token) (fun tz => gmonthday_new m d (Some tz)))
      end
    else bind (gmonthday_parse_value s) (fun '(m, d) => gmonthday_new m d None)
  end.

(** gmonthday.rs Display impl (l.102-109) *)
Definition gmonthday_display (g : gmonthday) : str :=
  (lit "--" ++ pad_signed 2 (gmd_month g) ++ lit "-" ++ pad_signed 2 (gmd_day g)
   ++ tz_text (gmd_tz g))%list.

(** ** GYear (gyear.rs) *)
Record gyear := { gy_value : Z; gy_tz : option Z }.

(** gyear.rs l.15-20 *)
Definition gyear_new (year : Z) (tz : option Z) : res gyear :=
  if year =? 0 then Err else Ok {| gy_value := year; gy_tz := tz |}.

(** gyear.rs l.43-51 *)
Definition gyear_parse_value (s : str) : res Z :=
  if (byte_len s <? 4)%nat then Err
  else if negb (forallb is_ascii_digit s) then Err
  else parse_i32_res s.

(** gyear.rs l.42-79 *)
Definition gyear_parse_positive (s : str) : res gyear :=
  match strip_suffix (chr "Z") s with
  | Some s' => bind (gyear_parse_value s') (fun v => gyear_new v (east_opt 0))
  | None =>
    if contains (chr "+") s then
      if (1 <? count (chr "+") s)%nat then Err
      else match split_before (chr "+") 0 s with
           | None => Panic
           | Some (value_token, tz_token) =>
             bind (gyear_parse_value value_token) (fun v =>
             bind (parse_timezone tz_token) (fun tz => gyear_new v (Some tz)))
           end
    else if contains (chr "-") s then
      if (1 <? count (chr "-") s)%nat then Err
      else match split_before (chr "-") 0 s with
           | None => Panic
           | Some (value_token, tz_token) =>
             bind (gyear_parse_value value_token) (fun v =>
             bind (parse_timezone tz_token) (fun tz => gyear_new v (Some tz)))
           end
    else bind (gyear_parse_value s) (fun v => gyear_new v None)
  end.

(** gyear.rs l.32-39; [gyear.value *= -1] cannot overflow: a parsed value is at most
    i32::MAX. *)
Definition gyear_from_str (s : str) : res gyear :=
  match strip_prefix (chr "-") s with
  | Some s' => bind (gyear_parse_positive s') (fun g =>
                 Ok {| gy_value := gy_value g * -1; gy_tz := gy_tz g |})
  | None => gyear_parse_positive s
  end.

(** Negation of an i32: [-x] panics on i32::MIN when overflow checks are on ([chk]) and
    wraps to i32::MIN otherwise. *)
Definition i32_neg (chk : bool) (z : Z) : res Z :=
  if z =? i32_min then (if chk then Panic else Ok i32_min) else Ok (- z).

(** gyear.rs l.82-96: [{:04}] of the year (positive) or '-' and [{:04}] of its negation. *)
Definition gyear_display (chk : bool) (g : gyear) : res str :=
  if 0 <? gy_value g then Ok (pad_signed 4 (gy_value g) ++ tz_text (gy_tz g))%list
  else bind (i32_neg chk (gy_value g)) (fun n =>
         Ok (lit "-" ++ pad_signed 4 n ++ tz_text (gy_tz g))%list).

(** ** GYearMonth (gyearmonth.rs) *)
Record gyearmonth := { gym_year : Z; gym_month : Z; gym_tz : option Z }.

(** gyearmonth.rs l.16-26 *)
Definition gyearmonth_new (year month : Z) (tz : option Z) : res gyearmonth :=
  if year =? 0 then Err
  else if negb ((1 <=? month) && (month <=? 12)) then Err
  else Ok {| gym_year := year; gym_month := month; gym_tz := tz |}.

(** gyearmonth.rs l.57-80.  [&s[idx + 1..]] starts right after the one-byte '-'. *)
Definition gyearmonth_parse_value (s : str) : res (Z * Z) :=
  if negb (count (chr "-") s =? 1)%nat then Err
  else match split_before (chr "-") 0 s with
       | None => Panic
       | Some (_, []) => Panic
       | Some (year_token, _ :: month_token) =>
         if (byte_len year_token <? 4)%nat || negb (byte_len month_token =? 2)%nat then Err
         else if negb (forallb is_ascii_digit year_token) then Err
         else bind (parse_i32_res year_token) (fun year =>
           if negb (forallb is_ascii_digit month_token) then Err
           else bind (parse_i32_res month_token) (fun month => Ok (year, month)))
       end.

(** gyearmonth.rs l.56-109 *)
Definition gyearmonth_parse_positive (s : str) : res gyearmonth :=
  match strip_suffix (chr "Z") s with
  | Some s' => bind (gyearmonth_parse_value s') (fun '(y, m) => gyearmonth_new y m (east_opt 0))
  | None =>
    if contains (chr "+") s then
      if (1 <? count (chr "+") s)%nat then Err
      else match split_before (chr "+") 0 s with
           | None => Panic
           | Some (value_token, tz_token) =>
             bind (gyearmonth_parse_value value_token) (fun '(y, m) =>
             bind (parse_timezone tz_token) (fun tz => gyearmonth_new y m (Some tz)))
           end
    else if (count (chr "-") s =? 2)%nat then
      match split_before (chr "-") 1 s with
      | None => Panic
      | Some (value_token, tz_token) =>
        bind (gyearmonth_parse_value value_token) (fun '(y, m) =>
        bind (parse_timezone tz_token) (fun tz => gyearmonth_new y m (Some tz)))
      end
    else bind (gyearmonth_parse_value s) (fun '(y, m) => gyearmonth_new y m None)
  end.

(** gyearmonth.rs l.46-53 *)
Definition gyearmonth_from_str (s : str) : res gyearmonth :=
  match strip_prefix (chr "-") s with
  | Some s' => bind (gyearmonth_parse_positive s') (fun g =>
                 Ok {| gym_year := gym_year g * -1; gym_month := gym_month g; gym_tz := gym_tz g |})
  | None => gyearmonth_parse_positive s
  end.

(** gyearmonth.rs Display impl (l.111-125) *)
Definition gyearmonth_display (chk : bool) (g : gyearmonth) : res str :=
  if 0 <? gym_year g then
    Ok (pad_signed 4 (gym_year g) ++ lit "-" ++ pad_signed 2 (gym_month g) ++ tz_text (gym_tz g))%list
  else bind (i32_neg chk (gym_year g)) (fun n =>
         Ok (lit "-" ++ pad_signed 4 n ++ lit "-" ++ pad_signed 2 (gym_month g)
             ++ tz_text (gym_tz g))%list).
