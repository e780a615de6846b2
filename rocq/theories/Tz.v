(** Model of xsd-types/src/types/utils.rs and of chrono's FixedOffset as used there. *)
From Coq Require Import List NArith ZArith Bool Ascii String.
From Verif Require Import Str.
Import ListNotations.
Local Open Scope Z_scope.

(** chrono 0.4 [FixedOffset::east_opt]: [Some] iff -86400 < secs < 86400.  A FixedOffset is
    represented by its seconds east of UTC. *)
Definition east_opt (secs : Z) : option Z :=
  if (-86400 <? secs) && (secs <? 86400) then Some secs else None.
(** chrono [FixedOffset::west_opt] *)
Definition west_opt (secs : Z) : option Z :=
  if (-86400 <? secs) && (secs <? 86400) then Some (- secs) else None.

(** [.ok_or(..)] *)
Definition ok_or {A} (o : option A) : res A :=
  match o with Some a => Ok a | None => Err end.
(** [.unwrap()] *)
Definition unwrap {A} (o : option A) : res A :=
  match o with Some a => Ok a | None => Panic end.

(** xsd-types/src/types/utils.rs l.4-30.  The i32 arithmetic of l.23 cannot overflow (the
    range check of l.19 precedes it), so it is written in Z. *)
Definition parse_timezone (s : str) : res Z :=
  if str_eqb s (lit "Z") then ok_or (east_opt 0)
  else
    bind (slice_from s 1) (fun rest =>
    match split_on (chr ":") rest with
    | [t0; t1] =>
      if negb (byte_len t0 =? 2)%nat || negb (byte_len t1 =? 2)%nat then Err
      else if negb (forallb is_ascii_digit t0 && forallb is_ascii_digit t1) then Err
      else
        bind (unwrap (parse_i32 t0)) (fun hours =>
        bind (unwrap (parse_i32 t1)) (fun minutes =>
        if (14 <? hours) || ((hours =? 14) && negb (minutes =? 0)) || (60 <=? minutes)
        then Err
        else
          let offset_secs := 60 * (60 * hours + minutes) in
          match s with
          | [] => Panic
          | c :: _ =>
            if N.eqb c (chr "+") then ok_or (east_opt offset_secs)
            else if N.eqb c (chr "-") then ok_or (west_opt offset_secs)
            else Err
          end))
    | _ => Err
    end).

(** chrono 0.4 [impl Display for FixedOffset]: sign, hh:mm and, only when the offset is
    not a whole number of minutes, ":ss". *)
Definition display_offset (z : Z) : str :=
  let sign := if z <? 0 then chr "-" else chr "+" in
  let off := Z.to_N (Z.abs z) in
  let sec := N.modulo off 60 in
  let mins := N.div off 60 in
  let min := N.modulo mins 60 in
  let hour := N.div mins 60 in
  let hm := (sign :: pad 2 hour ++ lit ":" ++ pad 2 min)%list in
  if N.eqb sec 0 then hm else (hm ++ lit ":" ++ pad 2 sec)%list.
