(** Independent specification of xs:decimal and of the value of a decimal. *)
From Coq Require Import List NArith ZArith QArith Bool Ascii String.
From Verif Require Import Str SpecLex.
Import ListNotations.
Local Open Scope N_scope.

(** The lexical space of xs:decimal with the values, as rational numbers. *)
Definition fraction (s : str) (m : N) : Q := (inject_Z (Z.of_N m) / inject_Z (10 ^ Z.of_nat (List.length s)))%Q.
Inductive unsigned_decimal : str -> Q -> Prop :=
| decimal_whole s n : num s n -> unsigned_decimal s (inject_Z (Z.of_N n))
| decimal_dot s n : num s n -> unsigned_decimal (s ++ lit ".") (inject_Z (Z.of_N n))
| decimal_both a n b m : num a n -> num b m ->
    unsigned_decimal (a ++ lit "." ++ b) (inject_Z (Z.of_N n) + fraction b m)%Q
| decimal_fraction b m : num b m -> unsigned_decimal (lit "." ++ b) (fraction b m).
Inductive xsd_decimal : str -> Q -> Prop :=
| decimal_plain s q : unsigned_decimal s q -> xsd_decimal s q
| decimal_plus s q : unsigned_decimal s q -> xsd_decimal (lit "+" ++ s) q
| decimal_minus s q : unsigned_decimal s q -> xsd_decimal (lit "-" ++ s) (- q)%Q.

(** The number denoted by a mantissa and a scale. *)
Definition decimal_value (i k : Z) : Q := (inject_Z i * Qpower (10 # 1) (- k))%Q.

(** All texts that are read, with mantissa and scale: digits with underscores, a sign also
    directly after the point if nothing is before it, a signed exponent. *)
Definition not_underscores (s : str) : Z := Z.of_nat (List.length (filter (fun c => negb (c =? 95)) s)).
Inductive mantissa_text : str -> Z -> Z -> Prop :=
| mantissa_whole s i : signed_lex s i -> mantissa_text s i 0
| mantissa_point a b i : signed_lex (a ++ b) i -> mantissa_text (a ++ lit "." ++ b) i (not_underscores b).
Inductive lenient_decimal : str -> Z -> Z -> Prop :=
| lenient_plain s i k : mantissa_text s i k -> lenient_decimal s i k
| lenient_exponent s i k e x z : mantissa_text s i k -> In e [lit "e"; lit "E"] -> xsd_integer x z ->
    (- 2 ^ 127 <= z < 2 ^ 127)%Z -> lenient_decimal (s ++ e ++ x) i (k - z).
