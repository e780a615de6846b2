(** The built-in types of XML Schema Part 2 and the Rust types, by their value spaces. *)
From Coq Require Import NArith ZArith Bool Ascii String List.
From Verif Require Import Str SpecLex.
Import ListNotations.

Inductive space :=
| SText                                    (* character strings *)
| STexts                                   (* lists of character strings *)
| SBytes                                   (* octet sequences, written as text *)
| SBool
| SInt (lo hi : option Z)
| SDec
| SFloat (prec emax : Z)
| SDate | STime | SDateTime | SDateTimeZoned | SDuration
| SGDay | SGMonth | SGMonthDay | SGYear | SGYearMonth.

(** XML Schema Part 2, sections 3.2 and 3.3 (those without structured content). *)
Definition xsd_builtins : list (str * space) := map (fun '(a, b) => (lit a, b))
  [("string", SText); ("boolean", SBool); ("decimal", SDec); ("float", SFloat 24 128);
   ("double", SFloat 53 1024); ("duration", SDuration); ("dateTime", SDateTime);
   ("time", STime); ("date", SDate); ("gYearMonth", SGYearMonth); ("gYear", SGYear);
   ("gMonthDay", SGMonthDay); ("gDay", SGDay); ("gMonth", SGMonth); ("hexBinary", SBytes);
   ("base64Binary", SBytes); ("anyURI", SText); ("QName", SText); ("NOTATION", SText);
   ("normalizedString", SText); ("token", SText); ("language", SText); ("NMTOKEN", SText);
   ("NMTOKENS", STexts); ("Name", SText); ("NCName", SText); ("ID", SText); ("IDREF", SText);
   ("IDREFS", STexts); ("ENTITY", SText); ("ENTITIES", STexts);
   ("integer", SInt None None); ("nonPositiveInteger", SInt None (Some 0%Z));
   ("negativeInteger", SInt None (Some (-1)%Z));
   ("long", SInt (Some (-9223372036854775808)%Z) (Some 9223372036854775807%Z));
   ("int", SInt (Some (-2147483648)%Z) (Some 2147483647%Z));
   ("short", SInt (Some (-32768)%Z) (Some 32767%Z));
   ("byte", SInt (Some (-128)%Z) (Some 127%Z));
   ("nonNegativeInteger", SInt (Some 0%Z) None);
   ("unsignedLong", SInt (Some 0%Z) (Some 18446744073709551615%Z));
   ("unsignedInt", SInt (Some 0%Z) (Some 4294967295%Z));
   ("unsignedShort", SInt (Some 0%Z) (Some 65535%Z));
   ("unsignedByte", SInt (Some 0%Z) (Some 255%Z));
   ("positiveInteger", SInt (Some 1%Z) None);
   ("dateTimeStamp", SDateTimeZoned); ("anySimpleType", SText)]%string.

(** Value spaces of the Rust types (the Rust reference; the documentation of xsd-types). *)
Definition rust_types : list (str * space) := map (fun '(a, b) => (lit a, b))
  [("String", SText); ("Vec<String>", STexts); ("bool", SBool); ("f64", SFloat 53 1024);
   ("i64", SInt (Some (- 2 ^ 63)%Z) (Some (2 ^ 63 - 1)%Z));
   ("i32", SInt (Some (- 2 ^ 31)%Z) (Some (2 ^ 31 - 1)%Z));
   ("i16", SInt (Some (- 2 ^ 15)%Z) (Some (2 ^ 15 - 1)%Z));
   ("i8", SInt (Some (- 2 ^ 7)%Z) (Some (2 ^ 7 - 1)%Z));
   ("u64", SInt (Some 0%Z) (Some (2 ^ 64 - 1)%Z)); ("u32", SInt (Some 0%Z) (Some (2 ^ 32 - 1)%Z));
   ("u16", SInt (Some 0%Z) (Some (2 ^ 16 - 1)%Z)); ("u8", SInt (Some 0%Z) (Some (2 ^ 8 - 1)%Z));
   ("xs::Integer", SInt None None); ("xs::NonNegativeInteger", SInt (Some 0%Z) None);
   ("xs::PositiveInteger", SInt (Some 1%Z) None); ("xs::NonPositiveInteger", SInt None (Some 0%Z));
   ("xs::NegativeInteger", SInt None (Some (-1)%Z)); ("xs::Decimal", SDec);
   ("xs::Date", SDate); ("xs::Time", STime); ("xs::DateTime", SDateTime);
   ("xs::DateTimeStamp", SDateTimeZoned); ("xs::Duration", SDuration); ("xs::GDay", SGDay);
   ("xs::GMonth", SGMonth); ("xs::GMonthDay", SGMonthDay); ("xs::GYear", SGYear);
   ("xs::GYearMonth", SGYearMonth)]%string.

Definition in_range (lo hi : option Z) (z : Z) : Prop :=
  match lo with Some l => (l <= z)%Z | None => True end /\
  match hi with Some h => (z <= h)%Z | None => True end.

(** Every value of the first space is a value of the second. *)
Definition sub_space (a b : space) : Prop :=
  match a, b with
  | SInt l h, SInt l' h' => forall z, in_range l h z -> in_range l' h' z
  | SFloat p e, SFloat p' e' => (p <= p')%Z /\ (e <= e')%Z
  | SBytes, SText => True
  | _, _ => a = b
  end.
(** The two spaces have the same values (binary64 for xs:float is wider). *)
Definition same_space (a b : space) : Prop := sub_space a b /\ (sub_space b a \/ a = SFloat 24 128 \/ a = SBytes).

(** [f] reads the integers of a range: every XSD literal of a value in the range, except a
    signed zero with '-' if the range has no negative number; nothing outside the range; only
    XSD literals unless there is an underscore in the text; no panic. *)
Definition reads (lo hi : option Z) (f : str -> res Z) : Prop :=
  (forall s z, xsd_integer s z -> in_range lo hi z ->
     ((exists t, s = 45%N :: t) -> match lo with Some l => (l < 0)%Z | None => True end) -> f s = Ok z) /\
  (forall s z, f s = Ok z -> in_range lo hi z /\ (~ In 95%N s -> xsd_integer s z)) /\
  (forall s, f s <> Panic).
