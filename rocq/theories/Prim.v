(** The text parsers of the Rust types the built-in table maps to, as used by the derived
    tuple types (xsd-macro-utils/src/tuple.rs l.25-27: [from_str] of the field type).
    The fixed-width integers and bool are core::num / core::str. *)
From Coq Require Import NArith ZArith Bool Ascii String List.
From Verif Require Import Str Ints.
Import ListNotations.

(** {i8,i16,i32,i64}::from_str: optional sign, digits, value in range. *)
Definition parse_signed (lo hi : Z) (s : str) : res Z :=
  let '(neg, ds) := match strip_prefix 45 s with
                    | Some t => (true, t)
                    | None => match strip_prefix 43 s with
                              | Some t => (false, t)
                              | None => (false, s)
                              end
                    end in
  match ds with
  | [] => Err
  | _ => if forallb is_ascii_digit ds then
           let v := Z.of_N (digits_val ds) in
           let z := if (neg : bool) then Z.opp v else v in
           if (lo <=? z)%Z && (z <=? hi)%Z then Ok z else Err
         else Err
  end.

(** {u8,u16,u32,u64}::from_str *)
Definition parse_uint (max : N) (s : str) : res Z :=
  match parse_unsigned max s with Some n => Ok (Z.of_N n) | None => Err end.

(** bool::from_str *)
Definition bool_from_str (s : str) : res bool :=
  if str_eqb s (lit "true") then Ok true else if str_eqb s (lit "false") then Ok false else Err.

(** The integer-valued Rust types of the table with their parsers. *)
Definition int_parsers : list (str * (str -> res Z)) :=
  [ (lit "i64", parse_signed (- 2 ^ 63) (2 ^ 63 - 1)); (lit "i32", parse_signed (- 2 ^ 31) (2 ^ 31 - 1));
    (lit "i16", parse_signed (- 2 ^ 15) (2 ^ 15 - 1)); (lit "i8", parse_signed (- 2 ^ 7) (2 ^ 7 - 1));
    (lit "u64", parse_uint (2 ^ 64 - 1)); (lit "u32", parse_uint (2 ^ 32 - 1));
    (lit "u16", parse_uint (2 ^ 16 - 1)); (lit "u8", parse_uint (2 ^ 8 - 1));
    (lit "xs::Integer", integer_from_str);
    (lit "xs::NonNegativeInteger", fun s => rmap Z.of_N (non_negative_integer_from_str s));
    (lit "xs::PositiveInteger", fun s => rmap Z.of_N (positive_integer_from_str s));
    (lit "xs::NonPositiveInteger", non_positive_integer_from_str);
    (lit "xs::NegativeInteger", negative_integer_from_str) ].
