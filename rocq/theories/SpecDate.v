(** Independent specification of the texts that the date and time types read. *)
From Coq Require Import List NArith ZArith Bool Ascii String.
From Verif Require Import Str SpecLex.
Import ListNotations.
Local Open Scope N_scope.

(** A run of Unicode white space. *)
Definition blank (s : str) : Prop := forall c, In c s -> is_whitespace c = true.

(** One or two digits after optional white space. *)
Definition item (s : str) (n : N) : Prop :=
  exists w ds, s = w ++ ds /\ blank w /\ num ds n /\ (List.length ds <= 2)%nat.

(** Exactly [k] digits. *)
Definition digits (k : nat) (s : str) (n : N) : Prop := num s n /\ List.length s = k.

(** A calendar date inside the supported years. *)
Definition calendar (lo hi y m d : Z) : Prop :=
  (lo <= y <= hi /\ 1 <= m <= 12 /\ 1 <= d <= days_in_month y m)%Z.

(** Unsigned year of one to four digits, or a sign and any number of digits. *)
Inductive ysign := Unsigned | Minus | Plus.
Inductive year_item : str -> ysign -> Z -> Prop :=
| yi_plain w ds n : blank w -> num ds n -> (List.length ds <= 4)%nat ->
    year_item (w ++ ds) Unsigned (Z.of_N n)
| yi_minus w ds n : blank w -> num ds n -> year_item (w ++ lit "-" ++ ds) Minus (- Z.of_N n)
| yi_plus w ds n : blank w -> num ds n -> year_item (w ++ lit "+" ++ ds) Plus (Z.of_N n).

(** The text in front of the zone of a date. *)
Definition date_body (lo hi : Z) (s : str) (sg : ysign) (y m d : Z) : Prop :=
  exists ys ms ds nm nd, s = ys ++ lit "-" ++ ms ++ lit "-" ++ ds /\
    year_item ys sg y /\ item ms nm /\ item ds nd /\
    m = Z.of_N nm /\ d = Z.of_N nd /\ calendar lo hi y m d.

(** Which zones may follow: any zone after an unsigned year, only "Z" or an eastern zone
    after a '-' year, only "Z" after a '+' year. *)
Definition zone_fits (sg : ysign) (zone : str) : Prop :=
  match sg with
  | Unsigned => True
  | Minus => zone = lit "Z" \/ exists t, zone = chr "+" :: t
  | Plus => zone = lit "Z"
  end.

(** [clock h m s nano sec nan]: the written fields h:m:s.nano denote second [sec] and
    nanosecond field [nan]; ":60" is a leap second. *)
Definition clock (h m s nano sec nan : Z) : Prop :=
  (0 <= h < 24 /\ 0 <= m < 60 /\
   (0 <= s < 60 /\ sec = s /\ nan = nano \/ s = 60 /\ sec = 59 /\ nan = 10 ^ 9 + nano))%Z.

(** Values chrono's NaiveTime can hold. *)
Definition clock_value (h m s nano : Z) : Prop :=
  (0 <= h < 24 /\ 0 <= m < 60 /\ 0 <= s < 60 /\ 0 <= nano < 2 * 10 ^ 9)%Z.

(** The text in front of the zone of a time. *)
Definition time_body (s : str) (h m sec : Z) (nan : Z) : Prop :=
  exists hs ms ss nh nm ns, s = hs ++ lit ":" ++ ms ++ lit ":" ++ ss /\
    item hs nh /\ item ms nm /\ item ss ns /\ h = Z.of_N nh /\ m = Z.of_N nm /\
    clock h m (Z.of_N ns) 0 sec nan.

(** Optional fraction of a second, truncated to nanoseconds. *)
Inductive fraction : str -> Z -> Prop :=
| frac_none : fraction [] 0
| frac_some ds n : num ds n ->
    fraction (lit "." ++ ds) (Z.of_N n * 10 ^ 9 / 10 ^ Z.of_nat (List.length ds)).

(** YYYY-MM-DD, a separator, hh:mm:ss with an optional fraction: everything in front of the
    zone of a date and time. *)
Definition dt_body (lo hi : Z) (s : str) (y mo d h mi sec nan : Z) : Prop :=
  exists ys ms ds sep hs mis ss fs ny nm nd nh nmi ns nano,
    s = ys ++ lit "-" ++ ms ++ lit "-" ++ ds ++ [sep] ++ hs ++ lit ":" ++ mis ++ lit ":" ++ ss ++ fs /\
    digits 4 ys ny /\ two ms nm /\ two ds nd /\
    (sep = chr "T" \/ sep = chr "t" \/ sep = chr " ") /\
    two hs nh /\ two mis nmi /\ two ss ns /\ fraction fs nano /\
    y = Z.of_N ny /\ mo = Z.of_N nm /\ d = Z.of_N nd /\ calendar lo hi y mo d /\
    h = Z.of_N nh /\ mi = Z.of_N nmi /\ clock h mi (Z.of_N ns) nano sec nan.

(** Zones of up to 23:59, sign [sg]. *)
Definition zone_hm (sg : str) (s : str) (secs : Z) : Prop :=
  exists hs ms h m, s = sg ++ hs ++ lit ":" ++ ms /\ two hs h /\ two ms m /\ h < 24 /\ m < 60 /\
    secs = Z.of_N (3600 * h + 60 * m).

(** The zones xs:dateTime values are read with: absent means UTC. *)
Inductive dt_zone : str -> Z -> Prop :=
| dz_none : dt_zone [] 0
| dz_utc : dt_zone (lit "Z") 0
| dz_east s z : zone_hm (lit "+") s z -> dt_zone s z
| dz_west s z : zone_hm (lit "-") s z -> dt_zone s (- z).

(** The zones of xs:dateTimeStamp: never absent, but 'z' and U+2212 are also read. *)
Inductive stamp_zone : str -> Z -> Prop :=
| sz_utc : stamp_zone (lit "Z") 0
| sz_utc' : stamp_zone (lit "z") 0
| sz_east s z : zone_hm (lit "+") s z -> stamp_zone s z
| sz_west s z : zone_hm (lit "-") s z -> stamp_zone s (- z)
| sz_minus s z : zone_hm [8722] s z -> stamp_zone s (- z).

(** XSD lexical spaces (Part 2, 3.2.7-3.2.9): what schema authors expect to be read.
    [rd] is the calendar date, [rt] hour, minute, second and nanoseconds. *)
Definition xsd_date (s : str) (y m d : Z) (tz : option Z) : Prop :=
  exists ys ms ds zs nm nd, s = ys ++ lit "-" ++ ms ++ lit "-" ++ ds ++ zs /\
    year_lex ys y /\ two ms nm /\ two ds nd /\ m = Z.of_N nm /\ d = Z.of_N nd /\
    (1 <= m <= 12 /\ 1 <= d <= days_in_month y m)%Z /\ tz_opt zs tz.

(** 24:00:00 (the end of the day) is also a literal of XSD; [h] may be 24 only then. *)
Definition xsd_time (s : str) (h m sec nano : Z) (tz : option Z) : Prop :=
  exists hs ms ss fs zs nh nm ns, s = hs ++ lit ":" ++ ms ++ lit ":" ++ ss ++ fs ++ zs /\
    two hs nh /\ two ms nm /\ two ss ns /\ fraction fs nano /\ tz_opt zs tz /\
    h = Z.of_N nh /\ m = Z.of_N nm /\ sec = Z.of_N ns /\
    ((h < 24 /\ m < 60 /\ sec < 60) \/ (h = 24 /\ m = 0 /\ sec = 0 /\ nano = 0))%Z.

Definition xsd_datetime (s : str) (y mo d h m sec nano : Z) (tz : option Z) : Prop :=
  exists ds ts, s = ds ++ lit "T" ++ ts /\ xsd_date ds y mo d None /\ xsd_time ts h m sec nano tz.
