(** Property theorems C01-C12: time zones, g-types, integers (xsd-types). *)
From Coq Require Import List NArith ZArith Bool Ascii String.
From Verif Require Import Str SpecLex Tz TzProofs GTypes GProofs Ints IntsProofs.
Import ListNotations.
Local Open Scope N_scope.

(** C01: exact language and value of the time-zone parser; exact panic set.  (On every
    string not covered by the two clauses the only remaining outcome is [Err].) *)
Theorem C01_timezone_language : forall s,
  (forall z, parse_timezone s = Ok z <-> tz_lex s z) /\
  (parse_timezone s = Panic <-> s = [] \/ exists c t, s = c :: t /\ 128 <= c).
Proof. exact (fun s => conj (parse_timezone_ok s) (parse_timezone_panic s)). Qed.
Print Assumptions C01_timezone_language.
Example C01_ex1 : parse_timezone (lit "-06:30") = Ok (-23400)%Z. Proof. reflexivity. Qed.
Example C01_ex2 : parse_timezone (lit "+14:01") = Err. Proof. reflexivity. Qed.
Example C01_ex3 : parse_timezone [233; 48] = Panic. Proof. reflexivity. Qed.

(** C02: display then parse. *)
Theorem C02_timezone_round_trip : forall z, fixed_offset z ->
  parse_timezone (display_offset z) =
  if ((Z.abs z <=? 14 * 3600) && (z mod 60 =? 0))%Z then Ok z else Err.
Proof. exact round_trip. Qed.
Print Assumptions C02_timezone_round_trip.
Example C02_ex : fixed_offset (-23400)%Z /\ display_offset (-23400)%Z = lit "-06:30" /\
  fixed_offset 3661%Z /\ display_offset 3661%Z = lit "+01:01:01".
Proof. repeat split. Qed.

(** C03: gDay. *)
Theorem C03_gday_language : forall s g,
  gday_from_str s = Ok g <->
  exists ds n t, s = lit "---" ++ ds ++ t /\ two ds n /\ 1 <= n <= 31 /\
    tz_opt t (gd_tz g) /\ gd_value g = Z.of_N n.
Proof. exact gday_ok. Qed.
Print Assumptions C03_gday_language.
Example C03_ex : gday_from_str (lit "---30-06:30") = Ok {| gd_value := 30; gd_tz := Some (-23400)%Z |}.
Proof. reflexivity. Qed.

(** C04: gMonth. *)
Theorem C04_gmonth_language : forall s g,
  gmonth_from_str s = Ok g <->
  exists ds n t, s = lit "--" ++ ds ++ t /\ two ds n /\ 1 <= n <= 12 /\
    tz_opt t (gm_tz g) /\ gm_value g = Z.of_N n.
Proof. exact gmonth_ok. Qed.
Print Assumptions C04_gmonth_language.
Example C04_ex : gmonth_from_str (lit "--12Z") = Ok {| gm_value := 12; gm_tz := Some 0%Z |}.
Proof. reflexivity. Qed.

(** C05: gMonthDay; the day must exist in that month of some year. *)
Theorem C05_gmonthday_language : forall s g,
  gmonthday_from_str s = Ok g <->
  exists ms ds m d t, s = lit "--" ++ ms ++ lit "-" ++ ds ++ t /\ two ms m /\ two ds d /\
    1 <= m <= 12 /\ 1 <= d /\ (exists y, (Z.of_N d <= days_in_month y (Z.of_N m))%Z) /\
    tz_opt t (gmd_tz g) /\ gmd_month g = Z.of_N m /\ gmd_day g = Z.of_N d.
Proof. exact gmonthday_ok. Qed.
Print Assumptions C05_gmonthday_language.
Example C05_ex1 : gmonthday_from_str (lit "--02-29+01:00") =
  Ok {| gmd_month := 2; gmd_day := 29; gmd_tz := Some 3600%Z |}. Proof. reflexivity. Qed.
Example C05_ex2 : gmonthday_from_str (lit "--02-30") = Err. Proof. reflexivity. Qed.

(** C06: gYear. *)
Theorem C06_gyear_language : forall s g,
  gyear_from_str s = Ok g <->
  exists ys t, s = ys ++ t /\ year_lex ys (gy_value g) /\ tz_opt t (gy_tz g).
Proof. exact gyear_ok. Qed.
Print Assumptions C06_gyear_language.
Example C06_ex : gyear_from_str (lit "-20010-06:30") =
  Ok {| gy_value := -20010; gy_tz := Some (-23400)%Z |}. Proof. reflexivity. Qed.

(** C07: gYearMonth. *)
Theorem C07_gyearmonth_language : forall s g,
  gyearmonth_from_str s = Ok g <->
  exists ys ms m t, s = ys ++ lit "-" ++ ms ++ t /\ year_lex ys (gym_year g) /\ two ms m /\
    1 <= m <= 12 /\ tz_opt t (gym_tz g) /\ gym_month g = Z.of_N m.
Proof. exact gyearmonth_ok. Qed.
Print Assumptions C07_gyearmonth_language.
Example C07_ex : gyearmonth_from_str (lit "-2020-04-06:30") =
  Ok {| gym_year := -2020; gym_month := 4; gym_tz := Some (-23400)%Z |}. Proof. reflexivity. Qed.

(** C08: display then parse, five types; [chk] is the overflow-checks build mode. *)
Theorem C08_gday_round_trip : forall d tz g,
  gday_new d tz = Ok g -> xsd_zone tz -> gday_from_str (gday_display g) = Ok g.
Proof. exact gday_round_trip. Qed.
Print Assumptions C08_gday_round_trip.
Theorem C08_gmonth_round_trip : forall m tz g,
  gmonth_new m tz = Ok g -> xsd_zone tz -> gmonth_from_str (gmonth_display g) = Ok g.
Proof. exact gmonth_round_trip. Qed.
Print Assumptions C08_gmonth_round_trip.
Theorem C08_gmonthday_round_trip : forall m d tz g,
  gmonthday_new m d tz = Ok g -> xsd_zone tz -> gmonthday_from_str (gmonthday_display g) = Ok g.
Proof. exact gmonthday_round_trip. Qed.
Print Assumptions C08_gmonthday_round_trip.
Theorem C08_gyear_round_trip : forall chk y tz g,
  (i32_min < y <= i32_max)%Z -> gyear_new y tz = Ok g -> xsd_zone tz ->
  exists s, gyear_display chk g = Ok s /\ gyear_from_str s = Ok g.
Proof. exact gyear_round_trip. Qed.
Print Assumptions C08_gyear_round_trip.
Theorem C08_gyearmonth_round_trip : forall chk y m tz g,
  (i32_min < y <= i32_max)%Z -> gyearmonth_new y m tz = Ok g -> xsd_zone tz ->
  exists s, gyearmonth_display chk g = Ok s /\ gyearmonth_from_str s = Ok g.
Proof. exact gyearmonth_round_trip. Qed.
Print Assumptions C08_gyearmonth_round_trip.
Example C08_ex : exists g, gyearmonth_new (-7) 3 (Some (-23400)%Z) = Ok g /\
  xsd_zone (Some (-23400)%Z) /\ gyearmonth_display true g = Ok (lit "-0007-03-06:30").
Proof. eexists. repeat split; discriminate. Qed.

(** The excluded year i32::MIN: [new] accepts it, displaying it panics or gives a text no
    parser accepts. *)
Theorem C08_gyear_min_year : forall tz,
  exists g, gyear_new i32_min tz = Ok g /\ gyear_display true g = Panic /\
  exists s, gyear_display false g = Ok s /\ forall g', gyear_from_str s <> Ok g'.
Proof. exact (fun tz => ex_intro _ _ (conj eq_refl (gyear_min tz))). Qed.
Print Assumptions C08_gyear_min_year.
Theorem C08_gyearmonth_min_year : forall m tz, (1 <= m <= 12)%Z ->
  exists g, gyearmonth_new i32_min m tz = Ok g /\ gyearmonth_display true g = Panic /\
  exists s, gyearmonth_display false g = Ok s /\ forall g', gyearmonth_from_str s <> Ok g'.
Proof. exact gyearmonth_min_new. Qed.
Print Assumptions C08_gyearmonth_min_year.

(** C09: panics. *)
Theorem C09_gtypes_ascii_no_panic : forall s,
  (forall c, In c s -> c < 128) ->
  gday_from_str s <> Panic /\ gmonth_from_str s <> Panic /\ gmonthday_from_str s <> Panic.
Proof. exact gtypes_no_panic. Qed.
Print Assumptions C09_gtypes_ascii_no_panic.
Theorem C09_gyear_never_panics : forall s,
  gyear_from_str s <> Panic /\ gyearmonth_from_str s <> Panic.
Proof. exact (fun s => conj (gyear_no_panic s) (gyearmonth_no_panic s)). Qed.
Print Assumptions C09_gyear_never_panics.
(** "--é1", "-é1", "--01é1": the byte slices cut a character. *)
Theorem C09_gtypes_panic_refuted :
  (exists s, gday_from_str s = Panic) /\ (exists s, gmonth_from_str s = Panic) /\
  (exists s, gmonthday_from_str s = Panic).
Proof.
  exact (conj (ex_intro _ [45; 45; 233; 49] eq_refl)
        (conj (ex_intro _ [45; 233; 49] eq_refl) (ex_intro _ [45; 45; 49; 233; 49; 49] eq_refl))).
Qed.
Print Assumptions C09_gtypes_panic_refuted.

(** C10: the five integer languages. *)
Theorem C10_integer_languages : forall s,
  (forall z, integer_from_str s = Ok z <-> signed_lex s z) /\
  (forall n, non_negative_integer_from_str s = Ok n <-> unsigned_lex s n) /\
  (forall n, positive_integer_from_str s = Ok n <-> unsigned_lex s n /\ 1 <= n) /\
  (forall z, non_positive_integer_from_str s = Ok z <-> signed_lex s z /\ (z <= 0)%Z) /\
  (forall z, negative_integer_from_str s = Ok z <-> signed_lex s z /\ (z <= -1)%Z).
Proof.
  exact (fun s => conj (bigint_ok s) (conj (nn_ok s) (conj (p_ok s) (conj (np_ok s) (neg_ok s))))).
Qed.
Print Assumptions C10_integer_languages.
(** Relation to the XSD lexical space: everything in it is read with the right value, and
    an accepted text without '_' is in it. *)
Theorem C10_integer_xsd : forall s z,
  (xsd_integer s z -> integer_from_str s = Ok z) /\
  (integer_from_str s = Ok z -> ~ In (chr "_") s -> xsd_integer s z).
Proof. exact integer_xsd. Qed.
Print Assumptions C10_integer_xsd.
Theorem C10_integer_never_panics : forall s,
  integer_from_str s <> Panic /\ non_negative_integer_from_str s <> Panic /\
  positive_integer_from_str s <> Panic /\ non_positive_integer_from_str s <> Panic /\
  negative_integer_from_str s <> Panic.
Proof. exact ints_no_panic. Qed.
Print Assumptions C10_integer_never_panics.
Example C10_ex1 : integer_from_str (lit "1__0_0") = Ok 100%Z. Proof. reflexivity. Qed.
Example C10_ex2 : integer_from_str (lit "-+1") = Err /\ integer_from_str (lit "_1") = Err /\
  negative_integer_from_str (lit "-12") = Ok (-12)%Z. Proof. repeat split. Qed.
(** The '_' extension leaves the XSD lexical space. *)
Theorem C10_integer_only_xsd_refuted :
  exists s z, integer_from_str s = Ok z /\ forall z', ~ xsd_integer s z'.
Proof. exact integer_underscore. Qed.
Print Assumptions C10_integer_only_xsd_refuted.

(** C11: round trip and range. *)
Theorem C11_integer_round_trip :
  (forall z, integer_from_str (integer_display z) = Ok z) /\
  (forall n, non_negative_integer_from_str (non_negative_integer_display n) = Ok n) /\
  (forall n, positive_integer_from_str (positive_integer_display n) = if 1 <=? n then Ok n else Err) /\
  (forall z, non_positive_integer_from_str (non_positive_integer_display z) =
             if (z <=? 0)%Z then Ok z else Err) /\
  (forall z, negative_integer_from_str (negative_integer_display z) =
             if (z <=? -1)%Z then Ok z else Err).
Proof. exact ints_round_trip. Qed.
Print Assumptions C11_integer_round_trip.
Theorem C11_display_is_xsd : forall z, xsd_integer (integer_display z) z.
Proof. exact bigint_display_lex. Qed.
Print Assumptions C11_display_is_xsd.
Example C11_ex : integer_display (-12678967543233) = lit "-12678967543233". Proof. reflexivity. Qed.

(** C12: defaults; refuted for the two types that exclude 0: the default's own serialised
    form is refused. *)
Theorem C12_defaults_valid :
  integer_from_str (integer_display integer_default) = Ok integer_default /\
  non_negative_integer_from_str (non_negative_integer_display non_negative_integer_default)
    = Ok non_negative_integer_default /\
  non_positive_integer_from_str (non_positive_integer_display non_positive_integer_default)
    = Ok non_positive_integer_default /\
  (** and each is zero *)
  xsd_integer (lit "0") integer_default /\ integer_display integer_default = lit "0" /\
  non_negative_integer_display non_negative_integer_default = lit "0" /\
  non_positive_integer_display non_positive_integer_default = lit "0".
Proof. refine (conj eq_refl (conj eq_refl (conj eq_refl (conj (bigint_display_lex 0) (conj eq_refl (conj eq_refl eq_refl)))))). Qed.
Print Assumptions C12_defaults_valid.
Theorem C12_defaults_refuted :
  positive_integer_from_str (positive_integer_display positive_integer_default) = Err /\
  negative_integer_from_str (negative_integer_display negative_integer_default) = Err /\
  positive_integer_display positive_integer_default = lit "0" /\
  negative_integer_display negative_integer_default = lit "0".
Proof. exact (conj eq_refl (conj eq_refl (conj eq_refl eq_refl))). Qed.
Print Assumptions C12_defaults_refuted.
