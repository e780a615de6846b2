(** Model of the integer types of xsd-types/src/types: integer.rs, non_negative_integer.rs,
    positive_integer.rs, non_positive_integer.rs, negative_integer.rs, over num-bigint 0.4.
    BigUint is N, BigInt is Z (unbounded, as in num-bigint). *)
From Coq Require Import List NArith ZArith Bool Ascii String.
From Verif Require Import Str.
Import ListNotations.
Local Open Scope N_scope.

(** num-bigint 0.4.4 biguint/convert.rs [from_str_radix] (radix 10): the digit loop.
    '_' is skipped; letters are digits >= 10, hence rejected in radix 10 like any other
    character. Characters instead of bytes: every byte of a non-ASCII character is
    rejected. *)
Fixpoint biguint_digits (acc : N) (s : str) : option N :=
  match s with
  | [] => Some acc
  | c :: s' =>
    if c =? chr "_" then biguint_digits acc s'
    else if is_ascii_digit c then biguint_digits (10 * acc + (c - 48)) s'
    else None
  end.

(** same function, the part after the optional '+' *)
Definition biguint_body (s : str) : res N :=
  match s with
  | [] => Err
  | c :: _ => if c =? chr "_" then Err
              else match biguint_digits 0 s with Some n => Ok n | None => Err end
  end.

(** num-bigint 0.4.4 [BigUint::from_str] (= from_str_radix 10) *)
Definition biguint_from_str (s : str) : res N :=
  match strip_prefix (chr "+") s with
  | Some tail => match strip_prefix (chr "+") tail with
                 | Some _ => biguint_body s
                 | None => biguint_body tail
                 end
  | None => biguint_body s
  end.

(** num-bigint 0.4.4 [BigInt::from_str] *)
Definition bigint_from_str (s : str) : res Z :=
  match strip_prefix (chr "-") s with
  | Some tail =>
    let s' := match strip_prefix (chr "+") tail with Some _ => s | None => tail end in
    rmap (fun n => Z.opp (Z.of_N n)) (biguint_from_str s')
  | None => rmap Z.of_N (biguint_from_str s)
  end.

(** num-bigint [to_str_radix(10)] *)
Definition biguint_display (n : N) : str := dec n.
Definition bigint_display (z : Z) : str :=
  if (z <? 0)%Z then (chr "-" :: dec (Z.abs_N z))%list else dec (Z.abs_N z).

(** integer.rs l.22-28, 30-34 *)
Definition integer_from_str (s : str) : res Z := bigint_from_str s.
Definition integer_display (z : Z) : str := bigint_display z.

(** non_negative_integer.rs l.22-33 (the comparison with 0 of a BigUint is kept) *)
Definition non_negative_integer_from_str (s : str) : res N :=
  bind (biguint_from_str s) (fun v => if v <? 0 then Err else Ok v).
Definition non_negative_integer_display (n : N) : str := biguint_display n.

(** positive_integer.rs l.22-33 *)
Definition positive_integer_from_str (s : str) : res N :=
  bind (biguint_from_str s) (fun v => if v <=? 0 then Err else Ok v).
Definition positive_integer_display (n : N) : str := biguint_display n.

(** non_positive_integer.rs l.22-33 *)
Definition non_positive_integer_from_str (s : str) : res Z :=
  bind (bigint_from_str s) (fun v => if (0 <? v)%Z then Err else Ok v).
Definition non_positive_integer_display (z : Z) : str := bigint_display z.

(** negative_integer.rs l.22-33 *)
Definition negative_integer_from_str (s : str) : res Z :=
  bind (bigint_from_str s) (fun v => if (0 <=? v)%Z then Err else Ok v).
Definition negative_integer_display (z : Z) : str := bigint_display z.

(** [#[derive(Default)]] on the five tuple structs: BigInt/BigUint default is zero. *)
Definition integer_default : Z := 0%Z.
Definition non_negative_integer_default : N := 0.
Definition positive_integer_default : N := 0.
Definition non_positive_integer_default : Z := 0%Z.
Definition negative_integer_default : Z := 0%Z.
