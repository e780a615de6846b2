(** Property theorems C19-C21: date, time, dateTime, dateTimeStamp (xsd-types).
    [lo..hi] is the range of years of chrono's NaiveDate, any range inside i64. *)
From Coq Require Import List NArith ZArith Bool Ascii String Lia.
From Verif Require Import Str SpecLex SpecDate Tz GTypes DateTime DateProofs.
Import ListNotations.
Local Open Scope N_scope.

(** C19: exact language and value of Date::from_str; it never panics. *)
Theorem C19_date_language : forall lo hi s,
  (- Z.of_N i64_max <= lo)%Z -> (hi <= Z.of_N i64_max)%Z ->
  (forall v, date_from_str lo hi s = Ok v <->
     exists body zone sg, s = body ++ zone /\
       date_body lo hi body sg (n_year (d_value v)) (n_month (d_value v)) (n_day (d_value v)) /\
       tz_opt zone (d_tz v) /\ zone_fits sg zone) /\
  date_from_str lo hi s <> Panic.
Proof. exact (fun lo hi s H1 H2 => conj (date_ok lo hi H1 H2 s) (date_no_panic lo hi s)). Qed.
Print Assumptions C19_date_language.
Example C19_ex1 : date_from_str (-262143) 262142 (lit "2020-02-29-06:30") =
  Ok {| d_value := {| n_year := 2020; n_month := 2; n_day := 29 |}; d_tz := Some (-23400)%Z |}.
Proof. reflexivity. Qed.
Example C19_ex2 : date_from_str (-262143) 262142 (lit "2019-02-29") = Err. Proof. reflexivity. Qed.

(** C19: every XSD literal with a four-digit year is read with the date and zone written. *)
Theorem C19_date_complete : forall lo hi ys ms ds zs y m d tz, (lo <= 0)%Z -> (9999 <= hi)%Z ->
  (- Z.of_N i64_max <= lo)%Z -> (hi <= Z.of_N i64_max)%Z ->
  digits 4 ys y -> two ms m -> two ds d -> 1 <= m <= 12 -> 1 <= d ->
  (Z.of_N d <= days_in_month (Z.of_N y) (Z.of_N m))%Z -> tz_opt zs tz ->
  date_from_str lo hi (ys ++ lit "-" ++ ms ++ lit "-" ++ ds ++ zs) =
  Ok {| d_value := {| n_year := Z.of_N y; n_month := Z.of_N m; n_day := Z.of_N d |}; d_tz := tz |}.
Proof. exact date_complete. Qed.
Print Assumptions C19_date_complete.

(** C19: which dates survive display and parse: exactly the years 0..9999 with an XSD zone,
    and negative years with an XSD zone that is not west of Greenwich. *)
Theorem C19_date_round_trip : forall lo hi v,
  (- Z.of_N i64_max <= lo)%Z -> (hi <= Z.of_N i64_max)%Z ->
  calendar lo hi (n_year (d_value v)) (n_month (d_value v)) (n_day (d_value v)) ->
  date_from_str lo hi (date_display v) = Ok v <->
  xsd_zone (d_tz v) /\
  ((0 <= n_year (d_value v) <= 9999)%Z \/
   ((n_year (d_value v) < 0)%Z /\ exists z, d_tz v = Some z /\ (0 <= z)%Z)).
Proof. exact date_round_trip. Qed.
Print Assumptions C19_date_round_trip.
Example C19_ex3 : date_display {| d_value := {| n_year := 10000; n_month := 1; n_day := 1 |}; d_tz := None |}
  = lit "+10000-01-01". Proof. reflexivity. Qed.

(** C19: the wider claim that every XSD date literal is read is false: a negative year
    without a zone is rejected, and so is a five-digit year. *)
Theorem C19_all_literals_refuted :
  (exists y m d, xsd_date (lit "-0044-03-15") y m d None) /\
  (exists y m d, xsd_date (lit "12020-03-15") y m d None) /\
  (forall lo hi, date_from_str lo hi (lit "-0044-03-15") = Err) /\
  (forall lo hi, date_from_str lo hi (lit "12020-03-15") = Err).
Proof.
  assert (T3 : two (lit "03") 3) by (split; [exact (num_snoc [48] 0 3 (num_one 0 eq_refl) eq_refl)|reflexivity]).
  assert (T15 : two (lit "15") 15) by (split; [exact (num_snoc [49] 1 5 (num_one 1 eq_refl) eq_refl)|reflexivity]).
  split; [|split; [|split; reflexivity]].
  - exists (-44)%Z, 3%Z, 15%Z, (lit "-0044"), (lit "03"), (lit "15"), [], 3, 15.
    repeat split; try apply T3; try apply T15; try discriminate; [|constructor].
    apply (year_neg (lit "0044") 44); [|apply Nat.leb_le; reflexivity|split; reflexivity].
    exact (num_snoc _ 4 4 (num_snoc _ 0 4 (num_snoc _ 0 0 (num_one 0 eq_refl) eq_refl) eq_refl) eq_refl).
  - exists 12020%Z, 3%Z, 15%Z, (lit "12020"), (lit "03"), (lit "15"), [], 3, 15.
    repeat split; try apply T3; try apply T15; try discriminate; [|constructor].
    apply (year_pos (lit "12020") 12020); [|apply Nat.leb_le; reflexivity|split; reflexivity].
    exact (num_snoc _ 1202 0 (num_snoc _ 120 2 (num_snoc _ 12 0 (num_snoc _ 1 2 (num_one 1 eq_refl) eq_refl) eq_refl) eq_refl) eq_refl).
Qed.
Print Assumptions C19_all_literals_refuted.

(** C20: exact language and value of Time::from_str; it never panics. *)
Theorem C20_time_language : forall s,
  (forall v, time_from_str s = Ok v <->
     exists body zone, s = body ++ zone /\
       time_body body (n_hour (t_value v)) (n_min (t_value v)) (n_sec (t_value v)) (n_nano (t_value v)) /\
       tz_opt zone (t_tz v)) /\
  time_from_str s <> Panic.
Proof. exact (fun s => conj (time_ok s) (time_no_panic s)). Qed.
Print Assumptions C20_time_language.
Example C20_ex1 : time_from_str (lit "04:40:00+06:30") =
  Ok {| t_value := {| n_hour := 4; n_min := 40; n_sec := 0; n_nano := 0 |}; t_tz := Some 23400%Z |}.
Proof. reflexivity. Qed.

(** C20: every XSD literal without a fraction, other than 24:00:00, is read as written. *)
Theorem C20_time_complete : forall hs ms ss zs h m sec tz,
  two hs h -> two ms m -> two ss sec -> h < 24 -> m < 60 -> sec < 60 -> tz_opt zs tz ->
  time_from_str (hs ++ lit ":" ++ ms ++ lit ":" ++ ss ++ zs) =
  Ok {| t_value := {| n_hour := Z.of_N h; n_min := Z.of_N m; n_sec := Z.of_N sec; n_nano := 0 |}; t_tz := tz |}.
Proof. exact time_complete. Qed.
Print Assumptions C20_time_complete.

(** C20: which times survive display and parse: whole seconds (a leap second only as :60)
    with an XSD zone. *)
Theorem C20_time_round_trip : forall v,
  clock_value (n_hour (t_value v)) (n_min (t_value v)) (n_sec (t_value v)) (n_nano (t_value v)) ->
  time_from_str (time_display v) = Ok v <->
  xsd_zone (t_tz v) /\
  (n_nano (t_value v) = 0 \/ n_nano (t_value v) = 10 ^ 9 /\ n_sec (t_value v) = 59)%Z.
Proof. exact time_round_trip. Qed.
Print Assumptions C20_time_round_trip.
Example C20_ex2 : time_display {| t_value := {| n_hour := 4; n_min := 40; n_sec := 9; n_nano := 500000000 |};
  t_tz := Some 0%Z |} = lit "04:40:09+00:00". Proof. reflexivity. Qed.

(** C20: the wider claim that every XSD time literal is read is false: fractions and
    24:00:00 are rejected. *)
Theorem C20_all_literals_refuted :
  xsd_time (lit "04:40:00.5") 4 40 0 500000000 None /\ time_from_str (lit "04:40:00.5") = Err /\
  xsd_time (lit "24:00:00") 24 0 0 0 None /\ time_from_str (lit "24:00:00") = Err.
Proof.
  assert (T0 : two (lit "00") 0) by (split; [exact (num_snoc [48] 0 0 (num_one 0 eq_refl) eq_refl)|reflexivity]).
  assert (T4 : two (lit "04") 4) by (split; [exact (num_snoc [48] 0 4 (num_one 0 eq_refl) eq_refl)|reflexivity]).
  assert (T40 : two (lit "40") 40) by (split; [exact (num_snoc [52] 4 0 (num_one 4 eq_refl) eq_refl)|reflexivity]).
  assert (T24 : two (lit "24") 24) by (split; [exact (num_snoc [50] 2 4 (num_one 2 eq_refl) eq_refl)|reflexivity]).
  split; [|split; [reflexivity|split; [|reflexivity]]].
  - exists (lit "04"), (lit "40"), (lit "00"), (lit ".5"), [], 4, 40, 0.
    split; [reflexivity|]. do 3 (split; [assumption|]).
    split; [exact (frac_some (lit "5") 5 (num_one 5 eq_refl))|]. split; [constructor|].
    do 3 (split; [reflexivity|]). left. repeat split.
  - exists (lit "24"), (lit "00"), (lit "00"), [], [], 24, 0, 0.
    split; [reflexivity|]. do 3 (split; [assumption|]).
    split; [constructor|]. split; [constructor|].
    do 3 (split; [reflexivity|]). right. repeat split.
Qed.
Print Assumptions C20_all_literals_refuted.

(** C21: exact language and value of DateTime::from_str and DateTimeStamp::from_str;
    neither panics. *)
Theorem C21_datetime_language : forall lo hi s,
  (forall v, datetime_from_str lo hi s = Ok v <->
     exists body zone, s = body ++ zone /\
       dt_body lo hi body (n_year (dt_date v)) (n_month (dt_date v)) (n_day (dt_date v))
         (n_hour (dt_time v)) (n_min (dt_time v)) (n_sec (dt_time v)) (n_nano (dt_time v)) /\
       dt_zone zone (dt_off v)) /\
  (forall v, stamp_from_str lo hi s = Ok v <->
     exists body zone, s = body ++ zone /\
       dt_body lo hi body (n_year (dt_date v)) (n_month (dt_date v)) (n_day (dt_date v))
         (n_hour (dt_time v)) (n_min (dt_time v)) (n_sec (dt_time v)) (n_nano (dt_time v)) /\
       stamp_zone zone (dt_off v)) /\
  datetime_from_str lo hi s <> Panic /\ stamp_from_str lo hi s <> Panic.
Proof.
  exact (fun lo hi s => conj (datetime_ok lo hi s) (conj (stamp_ok lo hi s)
    (conj (datetime_no_panic lo hi s) (stamp_no_panic lo hi s)))).
Qed.
Print Assumptions C21_datetime_language.
Example C21_ex1 : datetime_from_str (-262143) 262142 (lit "2020-03-07T04:40:00.25") =
  Ok {| dt_date := {| n_year := 2020; n_month := 3; n_day := 7 |};
        dt_time := {| n_hour := 4; n_min := 40; n_sec := 0; n_nano := 250000000 |}; dt_off := 0 |}.
Proof. reflexivity. Qed.

(** C21: every XSD literal with a four-digit year and an hour below 24 is read as written,
    UTC standing in for a missing zone. *)
Theorem C21_datetime_complete : forall lo hi ys ms ds hs mis ss fs zs y mo d h mi sec nano tz,
  (lo <= 0)%Z -> (9999 <= hi)%Z ->
  digits 4 ys y -> two ms mo -> two ds d -> 1 <= mo <= 12 -> 1 <= d ->
  (Z.of_N d <= days_in_month (Z.of_N y) (Z.of_N mo))%Z ->
  two hs h -> two mis mi -> two ss sec -> h < 24 -> mi < 60 -> sec < 60 ->
  fraction fs nano -> tz_opt zs tz ->
  datetime_from_str lo hi
    (ys ++ lit "-" ++ ms ++ lit "-" ++ ds ++ lit "T" ++ hs ++ lit ":" ++ mis ++ lit ":" ++ ss ++ fs ++ zs) =
  Ok {| dt_date := {| n_year := Z.of_N y; n_month := Z.of_N mo; n_day := Z.of_N d |};
        dt_time := {| n_hour := Z.of_N h; n_min := Z.of_N mi; n_sec := Z.of_N sec; n_nano := nano |};
        dt_off := match tz with Some z => z | None => 0 end |}.
Proof. exact datetime_complete. Qed.
Print Assumptions C21_datetime_complete.

(** C21: agreement of the zone heuristic with DateTimeStamp. *)
Theorem C21_zone_detection : forall lo hi s v,
  (stamp_from_str lo hi s = Ok v ->
     (exists p, s = p ++ lit "z") \/ In 8722 s \/ datetime_from_str lo hi s = Ok v) /\
  (stamp_from_str lo hi (s ++ lit "Z") = Ok v -> datetime_from_str lo hi s = Ok v) /\
  (datetime_from_str lo hi s = Ok v ->
     stamp_from_str lo hi s = Ok v \/ stamp_from_str lo hi (s ++ lit "Z") = Ok v).
Proof.
  exact (fun lo hi s v => conj (datetime_stamp_zone lo hi s v)
    (conj (datetime_no_zone lo hi s v) (datetime_cases lo hi s v))).
Qed.
Print Assumptions C21_zone_detection.

(** C21: a text ending in 'z' is a DateTimeStamp but not a DateTime. *)
Theorem C21_lowercase_z_refuted : exists s v,
  stamp_from_str (-262143) 262142 s = Ok v /\ datetime_from_str (-262143) 262142 s = Err.
Proof.
  exists (lit "2020-03-07T04:40:00z"), {| dt_date := {| n_year := 2020; n_month := 3; n_day := 7 |};
        dt_time := {| n_hour := 4; n_min := 40; n_sec := 0; n_nano := 0 |}; dt_off := 0 |}.
  split; reflexivity.
Qed.
Print Assumptions C21_lowercase_z_refuted.

(** C21: which values survive display and parse. *)
Theorem C21_datetime_round_trip : forall lo hi v,
  calendar lo hi (n_year (dt_date v)) (n_month (dt_date v)) (n_day (dt_date v)) /\
  clock_value (n_hour (dt_time v)) (n_min (dt_time v)) (n_sec (dt_time v)) (n_nano (dt_time v)) /\
  fixed_offset (dt_off v) ->
  (datetime_from_str lo hi (datetime_display v) = Ok v <->
   (0 <= n_year (dt_date v) <= 9999 /\ dt_off v mod 60 = 0 /\
    (n_nano (dt_time v) < 10 ^ 9 \/ n_sec (dt_time v) = 59))%Z) /\
  (stamp_from_str lo hi (datetime_display v) = Ok v <->
   (0 <= n_year (dt_date v) <= 9999 /\ dt_off v mod 60 = 0 /\
    (n_nano (dt_time v) < 10 ^ 9 \/ n_sec (dt_time v) = 59))%Z).
Proof. exact (fun lo hi v H => conj (datetime_round_trip lo hi v H) (stamp_round_trip lo hi v H)). Qed.
Print Assumptions C21_datetime_round_trip.
Example C21_ex2 : datetime_display
  {| dt_date := {| n_year := 2020; n_month := 3; n_day := 7 |};
     dt_time := {| n_hour := 4; n_min := 40; n_sec := 0; n_nano := 250000 |}; dt_off := (-23400) |} =
  lit "2020-03-07T04:40:00.000250-06:30". Proof. reflexivity. Qed.

(** C21: the wider claim that every XSD dateTime literal is read is false. *)
Theorem C21_all_literals_refuted : forall lo hi,
  datetime_from_str lo hi (lit "-0044-03-15T00:00:00Z") = Err /\
  datetime_from_str lo hi (lit "12020-03-15T00:00:00Z") = Err /\
  datetime_from_str lo hi (lit "2020-03-15T24:00:00Z") = Err.
Proof. exact datetime_rejects. Qed.
Print Assumptions C21_all_literals_refuted.
