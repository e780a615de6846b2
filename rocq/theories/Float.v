(** Rust's f64 as text: [f64::from_str] (core::num::dec2flt); its [Display] is in Dur.v.
    The generator writes f64 for xs:double and xs:float (xsd-parser/src/generator/utils.rs
    l.51-52), derived tuple types use [from_str] and [Display] of their field
    (xsd-macro-utils/src/tuple.rs l.25-27, 55-57, 86-87).
    Simplification: core stops counting at exponents beyond 65535, which tells only for texts
    with as many zeros. *)
From Coq Require Import NArith ZArith Bool Ascii String List.
From Coq Require Import Floats.SpecFloat.
From Verif Require Import Str Dur.
Import ListNotations.

(** The digits in front, and the rest. *)
Fixpoint leading_digits (s : str) : str * str :=
  match s with
  | c :: r => if is_ascii_digit c then let '(a, b) := leading_digits r in (c :: a, b) else ([], s)
  | [] => ([], [])
  end.
(** A sign in front: is it a minus, and the rest. *)
Definition leading_sign (s : str) : bool * str :=
  match s with
  | c :: r => if N.eqb c 45 then (true, r) else if N.eqb c 43 then (false, r) else (false, s)
  | [] => (false, [])
  end.

(** dec2flt/parse.rs [parse_number]: the digits as a number, and the power of ten. *)
Definition parse_number (s : str) : option (N * Z) :=
  let '(a, r) := leading_digits s in
  let '(b, r') := match r with c :: t => if N.eqb c 46 then leading_digits t else ([], r) | [] => ([], []) end in
  let d := digits_val (a ++ b) in
  let k := Z.of_nat (List.length b) in
  if is_empty (a ++ b) then None
  else match r' with
       | [] => Some (d, - k)%Z
       | c :: t =>
           if N.eqb c 101 || N.eqb c 69 then
             let '(neg, t') := leading_sign t in
             let '(x, rest) := leading_digits t' in
             if is_empty x || negb (is_empty rest) then None
             else Some (d, (if neg : bool then - Z.of_N (digits_val x) else Z.of_N (digits_val x)) - k)%Z
           else None
       end.

(** The nearest double of the quotient of two positive numbers, the even one of two.  Core
    computes it by the algorithms of Lemire, Clinger and others. *)
Local Open Scope Z_scope.
Definition log2_floor (a b : Z) : Z :=
  let l := Z.log2 a - Z.log2 b in
  if b * 2 ^ Z.max l 0 <=? a * 2 ^ Z.max (- l) 0 then l else l - 1.
Definition round_half_even (a b : Z) : Z :=
  let q := a / b in
  match Z.compare (2 * (a mod b)) b with Lt => q | Gt => q + 1 | Eq => if Z.even q then q else q + 1 end.
Definition round_ratio (neg : bool) (a b : Z) : f64 :=
  let e := Z.max (log2_floor a b - 52) (-1074) in
  let m := round_half_even (a * 2 ^ Z.max (- e) 0) (b * 2 ^ Z.max e 0) in
  let '(m, e) := if m =? 2 ^ 53 then (2 ^ 52, e + 1) else (m, e) in
  match m with
  | Zpos p => if 971 <? e then S754_infinity neg else S754_finite neg p e
  | _ => S754_zero neg
  end.
Definition f64_of_decimal (neg : bool) (d : N) (x : Z) : f64 :=
  match d with
  | N0 => S754_zero neg
  | Npos _ => round_ratio neg (Z.of_N d * 10 ^ Z.max x 0) (10 ^ Z.max (- x) 0)
  end.

(** [f64::from_str]. *)
Definition f64_from_str (s : str) : res f64 :=
  let '(neg, t) := leading_sign s in
  match parse_number t with
  | Some (d, x) => Ok (f64_of_decimal neg d x)
  | None =>
      let w := map to_ascii_lowercase t in
      if str_eqb w (lit "inf") || str_eqb w (lit "infinity") then Ok (S754_infinity neg)
      else if str_eqb w (lit "nan") then Ok S754_nan
      else Err
  end.
(** [PartialOrd] of f64. *)
Definition f64_cmp (a b : f64) : option comparison := SFcompare a b.
