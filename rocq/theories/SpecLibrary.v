(** The texts of the built-in types that the library reads and writes faithfully, with their
    values: those of XML Schema Part 2 but for the exceptions stated. *)
From Coq Require Import NArith ZArith QArith Bool Ascii String List.
From Coq Require Import Floats.SpecFloat.
From Verif Require Import Str SpecLex SpecDate SpecDur SpecBigDec SpecBuiltin Entity SpecValue.
From Verif Require SpecDouble.
Import ListNotations.
Local Open Scope string_scope.
Local Open Scope list_scope.
Local Open Scope N_scope.

(** Values.  Decimals are whole numbers divided by a power of ten, so that 1.5 and 1.50 are told
    apart (they compare as equal); durations are kept by
    components; time zones are seconds east of UTC. *)
Inductive atom :=
| VText (s : str)
| VNumber (z : Z)
| VBool (b : bool)
| VDecimal (i : Z) (k : nat)
| VDate (y m d : Z) (tz : option Z)
| VTime (h m s : Z) (tz : option Z)
| VDateTime (y mo d h m s nano : Z) (tz : option Z)
| VDuration (neg : bool) (y mo d h m : N) (s : spec_float)
| VGDay (d : Z) (tz : option Z)
| VGMonth (m : Z) (tz : option Z)
| VGMonthDay (m d : Z) (tz : option Z)
| VGYear (y : Z) (tz : option Z)
| VGYearMonth (y m : Z) (tz : option Z)
| VDouble (v : spec_float).

(** How many digits follow the point. *)
Definition fraction_digits (s : str) (k : nat) : Prop :=
  (~ In 46 s /\ k = 0%nat) \/ exists a b, s = a ++ lit "." ++ b /\ ~ In 46 a /\ k = List.length b.
(** A decimal with [k] digits after the point. *)
Definition decimal_text (s : str) (i : Z) (k : nat) : Prop :=
  exists q, xsd_decimal s q /\ (q == decimal_value i (Z.of_nat k))%Q /\ fraction_digits s k.
(** At least four digits, not zero, perhaps with a minus sign. *)
Inductive any_year : str -> Z -> Prop :=
| any_year_pos s n : num s n -> (4 <= List.length s)%nat -> 0 < n -> any_year s (Z.of_N n)
| any_year_neg s n : num s n -> (4 <= List.length s)%nat -> 0 < n -> any_year (lit "-" ++ s) (- Z.of_N n).

Section Texts.
(** Which texts are of which text type. *)
Context (words : str -> str -> Prop).
(** [literal l s a]: the text [s] of the built-in type [l] means [a] (Part 2). *)
Inductive literal (l : str) (s : str) : atom -> Prop :=
| l_text : In (l, SText) xsd_builtins \/ In (l, SBytes) xsd_builtins -> words l s -> literal l s (VText s)
| l_integer lo hi z : In (l, SInt lo hi) xsd_builtins -> xsd_integer s z -> SpecBuiltin.in_range lo hi z -> literal l s (VNumber z)
| l_boolean b : l = lit "boolean" -> In s (if (b : bool) then [lit "true"; lit "1"] else [lit "false"; lit "0"]) -> literal l s (VBool b)
| l_decimal i k : l = lit "decimal" -> decimal_text s i k -> literal l s (VDecimal i k)
| l_date y m d tz : l = lit "date" -> xsd_date s y m d tz -> literal l s (VDate y m d tz)
| l_time h m sec tz : l = lit "time" -> xsd_time s h m sec 0 tz -> literal l s (VTime h m sec tz)
| l_datetime y mo d h m sec nano tz : l = lit "dateTime" -> xsd_datetime s y mo d h m sec nano tz -> literal l s (VDateTime y mo d h m sec nano tz)
| l_stamp y mo d h m sec nano z : l = lit "dateTimeStamp" -> xsd_datetime s y mo d h m sec nano (Some z) -> literal l s (VDateTime y mo d h m sec nano (Some z))
| l_duration w : l = lit "duration" -> dur_lex s w ->
    literal l s (VDuration (l_neg w) (comp (l_years w)) (comp (l_months w)) (comp (l_days w)) (comp (l_hours w)) (comp (l_minutes w)) (sec_value (l_sec w)))
| l_gday ds n t tz : l = lit "gDay" -> s = lit "---" ++ ds ++ t -> two ds n -> 1 <= n <= 31 -> tz_opt t tz -> literal l s (VGDay (Z.of_N n) tz)
| l_gmonth ds n t tz : l = lit "gMonth" -> s = lit "--" ++ ds ++ t -> two ds n -> 1 <= n <= 12 -> tz_opt t tz -> literal l s (VGMonth (Z.of_N n) tz)
| l_gmonthday ms ds m d t tz : l = lit "gMonthDay" -> s = lit "--" ++ ms ++ lit "-" ++ ds ++ t -> two ms m -> two ds d -> 1 <= m <= 12 -> 1 <= d ->
    (exists y, (Z.of_N d <= days_in_month y (Z.of_N m))%Z) -> tz_opt t tz -> literal l s (VGMonthDay (Z.of_N m) (Z.of_N d) tz)
| l_gyear ys y t tz : l = lit "gYear" -> s = ys ++ t -> any_year ys y -> tz_opt t tz -> literal l s (VGYear y tz)
| l_gyearmonth ys y ms m t tz : l = lit "gYearMonth" -> s = ys ++ lit "-" ++ ms ++ t -> any_year ys y -> two ms m -> 1 <= m <= 12 -> tz_opt t tz ->
    literal l s (VGYearMonth y (Z.of_N m) tz)
| l_double v : l = lit "double" -> SpecDouble.xsd_double s v -> literal l s (VDouble v).

(** The exceptions: a minus sign in front of a number of a type without negative numbers (-0);
    "1" and "0" for booleans; decimals that begin with more zeros after the point than the
    library writes, or have 2^63 digits after it; dates whose year has
    a sign or more than four digits; the time 24:00:00; times with a fraction; dates with times
    that have no zone, or more than nine digits of a fraction; durations with a fraction of
    seconds, of 2^53 seconds or of 2^64 of something else; years of more than 31 bits; infinity. *)
Definition four_digits (s : str) : Prop := exists ys t n, s = ys ++ lit "-" ++ t /\ SpecDate.digits 4 ys n.
Definition short_fraction (s : str) : Prop := forall a b c, s = a ++ lit "." ++ b ++ c -> (forall x, In x b -> is_ascii_digit x = true) -> (List.length b <= 9)%nat.
Definition whole (o : option (N * N * nat)) (n : N) : Prop := o = None /\ n = 0 \/ o = Some (n, 0, 0%nat).
Definition faithful (l s : str) (a : atom) : Prop :=
  match a with
  | VNumber z => forall lo hi t, In (l, SInt lo hi) xsd_builtins -> s = 45 :: t -> match lo with Some x => (x < 0)%Z | None => True end
  | VBool b => s = (if b then lit "true" else lit "false")
  | VDecimal i k => ((k <= 6)%nat \/ (10 ^ Z.of_nat (k - 6) <= Z.abs i)%Z) /\ (Z.of_nat k < 2 ^ 63)%Z
  | VDate _ _ _ _ => four_digits s
  | VTime h _ _ _ => (h < 24)%Z /\ ~ In 46 s
  | VDateTime _ _ _ h _ _ _ tz => four_digits s /\ (h < 24)%Z /\ tz <> None /\ short_fraction s
  | VDuration neg y mo d h m sec => exists w n, dur_lex s w /\ whole (l_sec w) n /\ n < 2 ^ 53 /\ sec = b64_of_N n /\ neg = l_neg w /\
      y = comp (l_years w) /\ mo = comp (l_months w) /\ d = comp (l_days w) /\ h = comp (l_hours w) /\ m = comp (l_minutes w) /\
      y < 2 ^ 64 /\ mo < 2 ^ 64 /\ d < 2 ^ 64 /\ h < 2 ^ 64 /\ m < 2 ^ 64
  | VGYear y _ | VGYearMonth y _ _ => (Z.abs y < 2 ^ 31)%Z
  | VDouble v => forall neg, v <> S754_infinity neg
  | _ => True
  end.
Definition text (l s : str) (a : atom) : Prop := literal l s a /\ faithful l s a.
End Texts.

(** ** Order *)
(** The day on which the month number [m], counted from January of year 0, begins. *)
Local Open Scope Z_scope.
Definition leap_days (y : Z) : Z := (y - 1) / 4 - (y - 1) / 100 + (y - 1) / 400.
Definition month_start (m : Z) : Z :=
  let y := m / 12 in 365 * y + leap_days y + fold_right Z.add 0 (map (fun k => days_in_month y (Z.of_nat k)) (seq 1 (Z.to_nat (m mod 12)))).
(** A moment, in nanoseconds. *)
Definition instant (y mo d h m s nano z : Z) : Z :=
  (86400 * (month_start (12 * y + mo - 1) + d - 1) + 3600 * h + 60 * m + s - z) * 10 ^ 9 + nano.
Definition proper_moment (y mo d h m s nano z : Z) : bool :=
  forallb (fun r => (fst (fst r) <=? snd (fst r)) && (snd (fst r) <=? snd r))
    [(1, mo, 12); (1, d, days_in_month y mo); (0, h, 23); (0, m, 59); (0, s, 59); (0, nano, 10 ^ 9 - 1); (-86399, z, 86399)].
(** XML Schema orders numbers; decimals by value; floating-point numbers but for NaN; moments,
    if their time zones are known.  The
    length of a text is its number of characters. *)
Definition atom_order (a b : atom) : option comparison :=
  match a, b with
  | VNumber x, VNumber y => Some (Z.compare x y)
  | VDecimal i k, VDecimal j m => Some (Qcompare (decimal_value i (Z.of_nat k)) (decimal_value j (Z.of_nat m)))
  | VDateTime y mo d h m s n (Some z), VDateTime y' mo' d' h' m' s' n' (Some z') =>
      if proper_moment y mo d h m s n z && proper_moment y' mo' d' h' m' s' n' z' then Some (Z.compare (instant y mo d h m s n z) (instant y' mo' d' h' m' s' n' z')) else None
  | VDouble v, VDouble w => if SpecDouble.valueb SpecDouble.binary64 v && SpecDouble.valueb SpecDouble.binary64 w then SpecDouble.order SpecDouble.binary64 v w else None
  | _, _ => None
  end.
Local Open Scope N_scope.
Definition atom_size (a : atom) : N := match a with VText s => N.of_nat (List.length s) | _ => 0 end.

(** ** Simple types for which nothing is left to assume about the library *)
(** All built-in types but the lists and xs:float. *)
Definition texted : list string :=
  ["string"; "boolean"; "decimal"; "double"; "duration"; "dateTime"; "time"; "date"; "gYearMonth"; "gYear"; "gMonthDay"; "gDay"; "gMonth"; "hexBinary"; "base64Binary"; "anyURI"; "QName"; "NOTATION";
   "normalizedString"; "token"; "language"; "NMTOKEN"; "Name"; "NCName"; "ID"; "IDREF"; "ENTITY"; "integer"; "nonPositiveInteger"; "negativeInteger"; "long"; "int"; "short"; "byte";
   "nonNegativeInteger"; "unsignedLong"; "unsignedInt"; "unsignedShort"; "unsignedByte"; "positiveInteger"; "dateTimeStamp"; "anySimpleType"].
(** Types of which the library reads nothing but their texts. *)
Definition exacted : list string :=
  ["boolean"; "long"; "int"; "short"; "byte"; "unsignedLong"; "unsignedInt"; "unsignedShort"; "unsignedByte"; "gDay"; "gMonth"; "gMonthDay"; "gYear"; "gYearMonth"].
(** As SpecValue.regular_simple, with the built-in types named. *)
Fixpoint plain_strict (T : stype) : Prop :=
  match T with TBuiltin l => exists n, l = lit n /\ In n exacted | TRestriction B fs => plain_strict B /\ fs = [] | TList _ _ | TUnion _ => False end.
Fixpoint plain_simple (u : uni) (T : stype) : Prop :=
  match T with
  | TBuiltin l => exists n, l = lit n /\ In n texted
  | TRestriction B fs =>
      enumerated u fs /\ (exists l, B = TBuiltin l /\ In (l, SText) xsd_builtins) \/
      ~ enumerated u fs /\ plain_simple u B /\ parseable u B /\ ((exists f, In f fs /\ checked f) -> exists l, B = TBuiltin l)
  | TList named E =>
      plain_simple u E /\ parseable u E /\ atomic E /\
      (named = false -> exists B fs, E = TRestriction B fs /\ forall f, In f fs -> ~ checked f)
  | TUnion Ts =>
      (fix all (l : list stype) : Prop :=
         match l with [] => True | U :: r => plain_simple u U /\ parseable u U /\ (r <> [] -> plain_strict U) /\ all r end) Ts
  end.

(** ** The order of durations, after Part 2, 3.2.6.2: a duration is shorter than another if it
    leads to an earlier moment from each of four given ones *)
Local Open Scope Z_scope.
(** 1696-09, 1697-02, 1903-03, 1903-07. *)
Definition references : list Z := [12 * 1696 + 8; 12 * 1697 + 1; 12 * 1903 + 2; 12 * 1903 + 6].
(** A duration is a number of months and a number of seconds. *)
Record span := { months : Z; seconds : Z }.
Definition moment (r : Z) (d : span) : Z := 86400 * month_start (r + months d) + seconds d.
Definition shorter (a b : span) : Prop := forall r, In r references -> moment r a < moment r b.
Definition signed (neg : bool) (n : N) : Z := if neg then - Z.of_N n else Z.of_N n.
Definition span_of (neg : bool) (y mo d h m s : N) : span :=
  {| months := signed neg (12 * y + mo); seconds := signed neg (86400 * d + 3600 * h + 60 * m + s) |}.
