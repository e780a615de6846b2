(** What the documentation of Rust's standard library says about the functions on strings and
    numbers that the code uses.  Of [Str.v] only the type of strings is used. *)
From Coq Require Import NArith ZArith Bool Ascii String List.
From Verif Require Import Str SpecLex.
Import ListNotations.
Local Open Scope list_scope.
Local Open Scope N_scope.

(** ** Characters *)
(** UTF-8 (RFC 3629, section 3). *)
Definition utf8_char (c : N) : list N :=
  if c <? 128 then [c]
  else if c <? 2048 then [192 + c / 64; 128 + c mod 64]
  else if c <? 65536 then [224 + c / 4096; 128 + c / 64 mod 64; 128 + c mod 64]
  else [240 + c / 262144; 128 + c / 4096 mod 64; 128 + c / 64 mod 64; 128 + c mod 64].
Definition utf8 (s : str) : list N := List.concat (map utf8_char s).
(** The characters with the property White_Space of Unicode. *)
Definition white : list N :=
  [9; 10; 11; 12; 13; 32; 133; 160; 5760; 8192; 8193; 8194; 8195; 8196; 8197; 8198; 8199; 8200; 8201; 8202; 8232; 8233; 8239; 8287; 12288].
Definition digits : str := lit "0123456789".
Definition small : str := lit "abcdefghijklmnopqrstuvwxyz".
Definition capital : str := lit "ABCDEFGHIJKLMNOPQRSTUVWXYZ".

(** ** Parts of strings *)
(** The bytes from [i] to [j], if both are where characters begin or at the end. *)
Definition part_of (s : str) (i j : nat) (m : str) : Prop :=
  exists a b, s = a ++ m ++ b /\ List.length (utf8 a) = i /\ List.length (utf8 (a ++ m)) = j.
(** The pieces between the [c]s. *)
Inductive split_by (c : N) : str -> list str -> Prop :=
| split_last s : ~ In c s -> split_by c s [s]
| split_more s r ps : ~ In c s -> split_by c r ps -> split_by c (s ++ [c] ++ r) (s :: ps).
(** What comes after the last [c]. *)
Definition after_last (c : N) (s l : str) : Prop := ~ In c l /\ (s = l \/ exists p, s = p ++ [c] ++ l).
(** The words between white space. *)
Definition blank (s : str) : Prop := forall c, In c s -> In c white.
Definition solid (t : str) : Prop := t <> [] /\ forall c, In c t -> ~ In c white.
Inductive words : str -> list str -> Prop :=
| words_none w : blank w -> words w []
| words_one w t : blank w -> solid t -> words (w ++ t) [t]
| words_more w t b s ts : blank w -> solid t -> In b white -> words s ts -> words (w ++ t ++ [b] ++ s) (t :: ts).
(** Without the white space in front, and at both ends. *)
Definition no_white_first (t : str) : Prop := forall c r, t = c :: r -> ~ In c white.
Definition no_white_last (t : str) : Prop := forall c r, t = r ++ [c] -> ~ In c white.
(** The lines, each ended by a line feed or a carriage return and a line feed; the last one need
    not be ended. *)
Inductive lines_of : str -> list str -> Prop :=
| lines_none : lines_of [] []
| lines_rest s : s <> [] -> ~ In 10 s -> lines_of s [s]
| lines_feed s r ls : ~ In 10 s -> (forall t, s <> t ++ [13]) -> lines_of r ls -> lines_of (s ++ [10] ++ r) (s :: ls)
| lines_return s r ls : ~ In 10 s -> lines_of r ls -> lines_of (s ++ [13; 10] ++ r) (s :: ls).
(** With [sep] between each two. *)
Inductive joined (sep : str) : list str -> str -> Prop :=
| joined_none : joined sep [] []
| joined_one x : joined sep [x] x
| joined_more x y l s : joined sep (y :: l) s -> joined sep (x :: y :: l) (x ++ sep ++ s).

(** ** Numbers *)
(** No zero in front of other digits. *)
Definition shortened (s : str) : Prop := forall t, s = 48 :: t -> t = [].
(** [w] digits, or more if needed. *)
Definition widened (w : nat) (s : str) : Prop := (w <= List.length s)%nat /\ (List.length s = w \/ shortened s).
(** Digits after an optional sign. *)
Definition signed (s : str) (z : Z) : Prop :=
  exists n, num s n /\ z = Z.of_N n \/ (exists t, s = lit "+" ++ t /\ num t n /\ z = Z.of_N n) \/ (exists t, s = lit "-" ++ t /\ num t n /\ z = (- Z.of_N n)%Z).
