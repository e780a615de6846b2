(** xs:double and xs:float after XML Schema Part 2, 3.2.4 and 3.2.5. *)
From Coq Require Import NArith ZArith Bool Ascii String List.
From Coq Require Import Floats.SpecFloat.
From Verif Require Import Str SpecLex.
Import ListNotations.
Local Open Scope string_scope.
Local Open Scope list_scope.

(** ** Texts *)
(** Digits with or without a point: the digits as a number, and how many follow the point. *)
Inductive mantissa_lex : str -> N -> nat -> Prop :=
| mant_whole s n : num s n -> mantissa_lex s n 0
| mant_dot s n : num s n -> mantissa_lex (s ++ lit ".") n 0
| mant_both a b x y n : num a x -> num b y -> num (a ++ b) n -> mantissa_lex (a ++ lit "." ++ b) n (List.length b)
| mant_fraction b n : num b n -> mantissa_lex (lit "." ++ b) n (List.length b).
Inductive exponent_lex : str -> Z -> Prop :=
| exp_none : exponent_lex [] 0
| exp_some e s z : In e [lit "e"; lit "E"] -> xsd_integer s z -> exponent_lex (e ++ s) z.
Inductive sign_lex : str -> bool -> Prop :=
| sign_none : sign_lex [] false
| sign_plus : sign_lex (lit "+") false
| sign_minus : sign_lex (lit "-") true.

(** ** Values
    The numbers of a binary format: zero, and m * 2^e with m of at most [prec] bits and e from
    [emin] to [emax]; m has fewer bits for the least e only. *)
Local Open Scope Z_scope.
Record format := { prec : Z; emin : Z; emax : Z }.
Definition binary64 : format := {| prec := 53; emin := -1074; emax := 971 |}.
Definition binary32 : format := {| prec := 24; emin := -149; emax := 104 |}.
Definition representable (F : format) (m e : Z) : Prop :=
  0 < m < 2 ^ prec F /\ emin F <= e <= emax F /\ (2 ^ (prec F - 1) <= m \/ e = emin F).
(** Numbers in units of the least one. *)
Definition units (F : format) (m e : Z) : Z := m * 2 ^ (e - emin F).
Definition a_number (F : format) (x : Z) : Prop := x = 0 \/ exists m e, representable F m e /\ x = units F m e.
(** How far the number [x] is from a/b, in units and times b. *)
Definition distance (F : format) (a b x : Z) : Z := Z.abs (a * 2 ^ (- emin F) - b * x).
(** From here on a/b is nearer to the power of two after the greatest number. *)
Definition too_great (F : format) (a b : Z) : Prop := b * ((2 ^ (prec F + 1) - 1) * 2 ^ (emax F - 1)) <= a.
(** The value nearest to a/b, of two the even one. *)
Inductive nearest (F : format) (neg : bool) (a b : Z) : spec_float -> Prop :=
| near_infinity : too_great F a b -> nearest F neg a b (S754_infinity neg)
| near_zero : ~ too_great F a b -> (forall x, a_number F x -> distance F a b 0 <= distance F a b x) -> nearest F neg a b (S754_zero neg)
| near_finite m e : ~ too_great F a b -> representable F (Zpos m) e ->
    (forall x, a_number F x -> distance F a b (units F (Zpos m) e) <= distance F a b x) ->
    (forall x, a_number F x -> distance F a b x = distance F a b (units F (Zpos m) e) -> x = units F (Zpos m) e \/ Z.even (Zpos m) = true) ->
    nearest F neg a b (S754_finite neg m e).
(** [n] with [x] digits to the left. *)
Definition of_decimal (F : format) (neg : bool) (n : N) (x : Z) (v : spec_float) : Prop :=
  nearest F neg (Z.of_N n * 10 ^ Z.max x 0) (10 ^ Z.max (- x) 0) v.

(** Texts with their values. *)
Inductive floating (F : format) : str -> spec_float -> Prop :=
| fl_number sg neg ms n k es z v : sign_lex sg neg -> mantissa_lex ms n k -> exponent_lex es z ->
    of_decimal F neg n (z - Z.of_nat k) v -> floating F (sg ++ ms ++ es) v
| fl_infinity : floating F (lit "INF") (S754_infinity false)
| fl_negative_infinity : floating F (lit "-INF") (S754_infinity true)
| fl_nan : floating F (lit "NaN") S754_nan.
Definition xsd_double := floating binary64.
Definition xsd_float := floating binary32.

(** What Rust reads besides: signs before the names of infinity and of what is no number, the
    word infinity, any case. *)
Definition lenient_word (s : str) (v : spec_float) : Prop :=
  exists sg neg w, s = sg ++ w /\ sign_lex sg neg /\
    (In (map to_ascii_lowercase w) [lit "inf"; lit "infinity"] /\ v = S754_infinity neg \/ map to_ascii_lowercase w = lit "nan" /\ v = S754_nan).

(** The values of a format. *)
Definition value_of (F : format) (v : spec_float) : Prop :=
  match v with S754_finite _ m e => representable F (Zpos m) e | _ => True end.
Definition valueb (F : format) (v : spec_float) : bool :=
  match v with
  | S754_finite _ m e => (Zpos m <? 2 ^ prec F) && (emin F <=? e) && (e <=? emax F) && ((2 ^ (prec F - 1) <=? Zpos m) || (e =? emin F))
  | _ => true
  end.
(** Numbers are ordered by their size; infinity and minus infinity are the ends; what is no
    number is not ordered. *)
Definition signed_units (F : format) (neg : bool) (m e : Z) : Z := if neg then - units F m e else units F m e.
Definition extended (F : format) (v : spec_float) : option (option Z * bool) :=
  match v with
  | S754_zero _ => Some (Some 0, false)
  | S754_finite s m e => Some (Some (signed_units F s (Zpos m) e), false)
  | S754_infinity s => Some (None, s)
  | S754_nan => None
  end.
Definition order (F : format) (v w : spec_float) : option comparison :=
  match extended F v, extended F w with
  | Some (Some x, _), Some (Some y, _) => Some (Z.compare x y)
  | Some (None, s), Some (None, t) => Some (match s, t with true, false => Lt | false, true => Gt | _, _ => Eq end)
  | Some (None, s), Some (Some _, _) => Some (if s : bool then Lt else Gt)
  | Some (Some _, _), Some (None, t) => Some (if t : bool then Gt else Lt)
  | _, _ => None
  end.
