(** Independent specification of the XSD lexical spaces used by the properties about
    xsd-types.  Nothing here refers to the model of the Rust code (only to the type of
    strings, [list N] of code points, and to string literals [lit "..."]). *)
From Coq Require Import List NArith ZArith Bool Ascii String.
From Verif Require Import Str.
Import ListNotations.
Local Open Scope N_scope.

(** [num s n]: [s] is a non-empty string of ASCII decimal digits denoting [n]. *)
Inductive num : str -> N -> Prop :=
| num_one d : d < 10 -> num [48 + d] d
| num_snoc s n d : num s n -> d < 10 -> num (s ++ [48 + d]) (10 * n + d).

(** Exactly two decimal digits denoting [n]. *)
Definition two (s : str) (n : N) : Prop := num s n /\ List.length s = 2%nat.

(** [tz_lex s z]: [s] is an XSD time zone, [z] its offset in seconds east of UTC. *)
Inductive tz_lex : str -> Z -> Prop :=
| tz_utc : tz_lex (lit "Z") 0
| tz_east hs ms h m : two hs h -> two ms m -> h * 60 + m <= 14 * 60 -> m < 60 ->
    tz_lex (lit "+" ++ hs ++ lit ":" ++ ms) (Z.of_N (3600 * h + 60 * m))
| tz_west hs ms h m : two hs h -> two ms m -> h * 60 + m <= 14 * 60 -> m < 60 ->
    tz_lex (lit "-" ++ hs ++ lit ":" ++ ms) (- Z.of_N (3600 * h + 60 * m)).

(** Optional time zone. *)
Inductive tz_opt : str -> option Z -> Prop :=
| tz_absent : tz_opt [] None
| tz_present s z : tz_lex s z -> tz_opt s (Some z).

(** Offsets that the XSD time zone syntax can express. *)
Definition xsd_zone (z : option Z) : Prop :=
  match z with
  | None => True
  | Some z => (Z.abs z <= 14 * 3600 /\ z mod 60 = 0)%Z
  end.

(** Offsets a chrono [FixedOffset] can hold. *)
Definition fixed_offset (z : Z) : Prop := (-86400 < z < 86400)%Z.

(** The proleptic Gregorian calendar. *)
Definition leap (y : Z) : bool :=
  ((y mod 4 =? 0) && (negb (y mod 100 =? 0) || (y mod 400 =? 0)))%Z.
Definition days_in_month (y m : Z) : Z :=
  (if m =? 2 then (if leap y then 29 else 28)
   else if (m =? 4) || (m =? 6) || (m =? 9) || (m =? 11) then 30 else 31)%Z.

(** Optional leading '-' in front of a year of at least four digits, value in 1..2^31-1. *)
Inductive year_lex : str -> Z -> Prop :=
| year_pos s n : num s n -> (4 <= List.length s)%nat -> 0 < n < 2 ^ 31 ->
    year_lex s (Z.of_N n)
| year_neg s n : num s n -> (4 <= List.length s)%nat -> 0 < n < 2 ^ 31 ->
    year_lex (lit "-" ++ s) (- Z.of_N n).

(** Decimal numerals in which '_' may follow any digit (what num-bigint reads). *)
Inductive numu : str -> N -> Prop :=
| numu_one d : d < 10 -> numu [48 + d] d
| numu_snoc s n d : numu s n -> d < 10 -> numu (s ++ [48 + d]) (10 * n + d)
| numu_us s n : numu s n -> numu (s ++ lit "_") n.

(** Optional '+' in front. *)
Inductive unsigned_lex : str -> N -> Prop :=
| unsigned_plain s n : numu s n -> unsigned_lex s n
| unsigned_plus s n : numu s n -> unsigned_lex (lit "+" ++ s) n.

(** Optional sign in front. *)
Inductive signed_lex : str -> Z -> Prop :=
| signed_pos s n : unsigned_lex s n -> signed_lex s (Z.of_N n)
| signed_neg s n : numu s n -> signed_lex (lit "-" ++ s) (- Z.of_N n).

(** XSD lexical space of xs:integer: optional sign and digits. *)
Inductive xsd_integer : str -> Z -> Prop :=
| xsd_int_plain s n : num s n -> xsd_integer s (Z.of_N n)
| xsd_int_plus s n : num s n -> xsd_integer (lit "+" ++ s) (Z.of_N n)
| xsd_int_minus s n : num s n -> xsd_integer (lit "-" ++ s) (- Z.of_N n).
