(** Model of xsd-types/src/types/decimal.rs over bigdecimal 0.4.3: a [Decimal] is an
    unbounded integer with a scale (an i64), denoting [mantissa * 10 ^ -scale]. *)
From Coq Require Import List NArith ZArith Bool Ascii String.
From Verif Require Import Str Ints.
Import ListNotations.
Local Open Scope N_scope.

Record decimal := { mantissa : Z; scale : Z }.

(** [str::find] with a set of ASCII characters: the text before and after the first of them *)
Fixpoint break_at (p : N -> bool) (s : str) : option (str * str) :=
  match s with
  | [] => None
  | c :: s' => if p c then Some ([], s')
               else match break_at p s' with Some (a, b) => Some (c :: a, b) | None => None end
  end.

Definition i64_min : Z := (- 2 ^ 63)%Z.
Definition i64_max : Z := (2 ^ 63 - 1)%Z.
Definition i128_min : Z := (- 2 ^ 127)%Z.
Definition i128_max : Z := (2 ^ 127 - 1)%Z.

(** i128::from_str: optional sign, at least one digit, value in range *)
Definition parse_i128 (s : str) : res Z :=
  let '(neg, ds) := match strip_prefix 45 s with
                    | Some t => (true, t)
                    | None => match strip_prefix 43 s with
                              | Some t => (false, t)
                              | None => (false, s)
                              end
                    end in
  match ds with
  | [] => Err
  | _ => if forallb is_ascii_digit ds then
           let v := Z.of_N (digits_val ds) in
           let z := if (neg : bool) then Z.opp v else v in
           if (i128_min <=? z)%Z && (z <=? i128_max)%Z then Ok z else Err
         else Err
  end.

(** bigdecimal 0.4.3 [BigDecimal::from_str] (= from_str_radix 10), called by decimal.rs
    l.19-25: exponent after the first 'e' or 'E', digits around the first '.', as scale the
    number of characters other than '_' after it less the exponent. *)
Definition decimal_from_str (s : str) : res decimal :=
  bind (match break_at (fun c => (c =? chr "e") || (c =? chr "E")) s with
        | None => Ok (s, 0%Z)
        | Some (base, e) => bind (parse_i128 e) (fun x => Ok (base, x))
        end) (fun '(base, exponent) =>
    if is_empty base then Err
    else
      let '(digits, offset) :=
        match break_at (N.eqb (chr ".")) base with
        | None => (base, 0%nat)
        | Some (lead, trail) => (lead ++ trail, List.length (filter (fun c => negb (c =? chr "_")) trail))
        end%list in
      let k := (Z.of_nat offset - exponent)%Z in
      if (i64_min <=? k)%Z && (k <=? i64_max)%Z then
        bind (bigint_from_str digits) (fun i => Ok {| mantissa := i; scale := k |})
      else Err).

(** bigdecimal 0.4.3 impl_fmt.rs [format_exponential] without precision, the sign left out *)
Definition format_exponential (abs_int : str) (k : Z) : str :=
  let exponent := (Z.of_nat (List.length abs_int) - k - 1)%Z in
  (match abs_int with
   | _ :: _ :: _ => firstn 1 abs_int ++ chr "." :: skipn 1 abs_int
   | _ => abs_int
   end ++
   (if (exponent =? 0)%Z then []
    else chr "E" :: (if (exponent <? 0)%Z then chr "-" else chr "+") :: dec (Z.abs_N exponent)))%list.
(** [format_full_scale] without precision, for scales that are not negative *)
Definition format_full_scale (abs_int : str) (k : nat) : str :=
  (let l := List.length abs_int in
   if (k =? 0)%nat then abs_int
   else if (k <? l)%nat then firstn (l - k) abs_int ++ chr "." :: skipn (l - k) abs_int
   else chr "0" :: chr "." :: zeros (k - l) ++ abs_int)%list.
(** [Display], decimal.rs l.27-31: the number of leading zeros after which the exponential
    form is used is fixed when bigdecimal is built (5 by default) *)
Definition decimal_display (threshold : N) (d : decimal) : str :=
  let abs_int := dec (Z.abs_N (mantissa d)) in
  let text :=
    if (scale d <? 0)%Z || (Z.of_nat (List.length abs_int) + Z.of_N threshold <? scale d)%Z
    then format_exponential abs_int (scale d)
    else format_full_scale abs_int (Z.to_nat (scale d)) in
  (if (mantissa d <? 0)%Z then chr "-" :: text else text)%list.
