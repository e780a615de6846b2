(** Rust strings, characters, slices and integer text conversion.

    A Rust [&str] is modelled as the list of its Unicode scalar values.  Rust's
    [str::len], slicing and [char_indices] count UTF-8 bytes; [utf8_len] gives the number
    of bytes of each character so byte offsets can be computed exactly. *)
From Coq Require Import List NArith ZArith Bool Ascii String Arith.
Import ListNotations.
Local Open Scope N_scope.

(** Outcome of a Rust call: [Ok]/[Err] are the two variants of [Result] (the error text is
    not modelled), [Panic] is an unwinding panic. *)
Inductive res (A : Type) : Type :=
| Ok (a : A)
| Err
| Panic.
Arguments Ok {A} a.
Arguments Err {A}.
Arguments Panic {A}.

(** The [?] operator / sequencing. *)
Definition bind {A B} (r : res A) (f : A -> res B) : res B :=
  match r with Ok a => f a | Err => Err | Panic => Panic end.

Definition rmap {A B} (f : A -> B) (r : res A) : res B :=
  match r with Ok a => Ok (f a) | Err => Err | Panic => Panic end.

Definition str := list N.

(** String literals (ASCII only) for readability of the model. *)
Definition lit (s : string) : str := map N_of_ascii (list_ascii_of_string s).
Definition chr (a : ascii) : N := N_of_ascii a.

(** ** Characters *)

(** char::len_utf8 *)
Definition utf8_len (c : N) : nat :=
  if c <? 128 then 1%nat else if c <? 2048 then 2%nat else if c <? 65536 then 3%nat else 4%nat.

(** str::len *)
Fixpoint byte_len (s : str) : nat :=
  match s with [] => 0%nat | c :: s' => (utf8_len c + byte_len s')%nat end.

Definition is_ascii (c : N) : bool := c <? 128.
Definition is_ascii_digit (c : N) : bool := (48 <=? c) && (c <=? 57).
Definition is_ascii_lower (c : N) : bool := (97 <=? c) && (c <=? 122).
Definition is_ascii_upper (c : N) : bool := (65 <=? c) && (c <=? 90).
Definition is_ascii_alpha (c : N) : bool := is_ascii_lower c || is_ascii_upper c.
Definition to_ascii_lowercase (c : N) : N := if is_ascii_upper c then c + 32 else c.
Definition to_ascii_uppercase (c : N) : N := if is_ascii_lower c then c - 32 else c.

(** Classification of the non-ASCII characters; a parameter of everything that uses it. *)
Record uni := {
  u_alphabetic : N -> bool;
  u_numeric : N -> bool;
  u_lower : N -> bool;
  u_upper : N -> bool
}.

(** char::is_numeric / is_alphanumeric / is_lowercase / is_uppercase *)
Definition is_numeric (u : uni) (c : N) : bool :=
  if is_ascii c then is_ascii_digit c else u_numeric u c.
Definition is_alphanumeric (u : uni) (c : N) : bool :=
  if is_ascii c then is_ascii_digit c || is_ascii_alpha c
  else u_alphabetic u c || u_numeric u c.
Definition is_lowercase (u : uni) (c : N) : bool :=
  if is_ascii c then is_ascii_lower c else u_lower u c.
Definition is_uppercase (u : uni) (c : N) : bool :=
  if is_ascii c then is_ascii_upper c else u_upper u c.

(** char::is_whitespace (Unicode White_Space) *)
Definition is_whitespace (c : N) : bool :=
  ((9 <=? c) && (c <=? 13)) || (c =? 32) || (c =? 133) || (c =? 160) || (c =? 5760)
  || ((8192 <=? c) && (c <=? 8202)) || (c =? 8232) || (c =? 8233) || (c =? 8239)
  || (c =? 8287) || (c =? 12288).

(** ** Strings *)

Fixpoint str_eqb (a b : str) : bool :=
  match a, b with
  | [], [] => true
  | x :: a', y :: b' => (x =? y) && str_eqb a' b'
  | _, _ => false
  end.

Definition is_empty {A} (l : list A) : bool := match l with [] => true | _ => false end.

(** s.contains(c), s.matches(c).count() *)
Definition contains (c : N) (s : str) : bool := existsb (N.eqb c) s.
Fixpoint count (c : N) (s : str) : nat :=
  match s with [] => 0%nat | x :: s' => ((if N.eqb c x then 1 else 0) + count c s')%nat end.

(** Splitting a string at a byte offset; [None] when the offset is out of range or not on a
    character boundary (Rust panics in slice indexing). *)
Fixpoint split_at (s : str) (n : nat) : option (str * str) :=
  match n with
  | O => Some ([], s)
  | _ =>
    match s with
    | [] => None
    | c :: s' =>
      if (utf8_len c <=? n)%nat then
        match split_at s' (n - utf8_len c) with
        | Some (a, b) => Some (c :: a, b)
        | None => None
        end
      else None
    end
  end.

(** &s[a..b] *)
Definition slice (s : str) (a b : nat) : res str :=
  match split_at s b with
  | None => Panic
  | Some (p, _) =>
    match split_at p a with
    | None => Panic
    | Some (_, m) => Ok m
    end
  end.

(** &s[a..] *)
Definition slice_from (s : str) (a : nat) : res str :=
  match split_at s a with None => Panic | Some (_, m) => Ok m end.

(** Splitting before the [k]-th (0-based) occurrence of [c]:
    [let idx = s.match_indices(c).collect::<Vec<_>>()[k].0; (&s[..idx], &s[idx..])].
    [None]: fewer than [k+1] occurrences (index panic). Match offsets are character
    boundaries, so the slices themselves never panic. *)
Fixpoint split_before (c : N) (k : nat) (s : str) : option (str * str) :=
  match s with
  | [] => None
  | x :: s' =>
    if N.eqb c x then
      match k with
      | O => Some ([], s)
      | S k' => match split_before c k' s' with
                | Some (a, b) => Some (x :: a, b)
                | None => None
                end
      end
    else match split_before c k s' with
         | Some (a, b) => Some (x :: a, b)
         | None => None
         end
  end.

(** s.split(c): always at least one piece. *)
Fixpoint split_on (c : N) (s : str) : list str :=
  match s with
  | [] => [[]]
  | x :: s' =>
    if N.eqb c x then [] :: split_on c s'
    else match split_on c s' with
         | [] => [[x]] (* not reachable *)
         | p :: ps => (x :: p) :: ps
         end
  end.

(** s.split(c).last().unwrap() *)
Definition last_segment (c : N) (s : str) : str := last (split_on c s) [].

(** s.strip_prefix(c), s.strip_suffix(c) *)
Definition strip_prefix (c : N) (s : str) : option str :=
  match s with x :: s' => if N.eqb c x then Some s' else None | [] => None end.
Fixpoint strip_suffix (c : N) (s : str) : option str :=
  match s with
  | [] => None
  | [x] => if N.eqb c x then Some [] else None
  | x :: s' => match strip_suffix c s' with Some p => Some (x :: p) | None => None end
  end.

(** s.starts_with(p), s.ends_with(p) for string patterns *)
Fixpoint starts_with (p s : str) : bool :=
  match p, s with
  | [], _ => true
  | a :: p', b :: s' => (a =? b) && starts_with p' s'
  | _ :: _, [] => false
  end.
Definition ends_with (p s : str) : bool := starts_with (rev p) (rev s).

(** s.split_whitespace(): maximal runs of non-whitespace characters. *)
Fixpoint split_whitespace_aux (s : str) (cur : str) : list str :=
  match s with
  | [] => match cur with [] => [] | _ => [rev cur] end
  | c :: s' =>
    if is_whitespace c then
      match cur with
      | [] => split_whitespace_aux s' []
      | _ => rev cur :: split_whitespace_aux s' []
      end
    else split_whitespace_aux s' (c :: cur)
  end.
Definition split_whitespace (s : str) : list str := split_whitespace_aux s [].

(** s.trim() *)
Fixpoint trim_start (s : str) : str :=
  match s with [] => [] | c :: s' => if is_whitespace c then trim_start s' else s end.
Definition trim_end (s : str) : str := rev (trim_start (rev s)).
Definition trim (s : str) : str := trim_end (trim_start s).

(** s.lines(): split at '\n' (the piece after a final '\n' is dropped when empty), with one
    trailing '\r' removed from each line that was ended by '\n'.  (Rust also keeps a bare
    trailing '\r' on a last line without '\n'.) *)
Definition strip_cr (s : str) : str :=
  match strip_suffix 13 s with Some p => p | None => s end.
Fixpoint lines_aux (s : str) (cur : str) : list str :=
  match s with
  | [] => match cur with [] => [] | _ => [rev cur] end
  | c :: s' => if c =? 10 then strip_cr (rev cur) :: lines_aux s' []
               else lines_aux s' (c :: cur)
  end.
Definition lines (s : str) : list str := lines_aux s [].

(** [str.join(sep)] *)
Fixpoint join (sep : str) (l : list str) : str :=
  match l with
  | [] => []
  | [x] => x
  | x :: l' => x ++ sep ++ join sep l'
  end.

(** ** Integer parsing and formatting (core::num) *)

Definition digit_val (c : N) : N := c - 48.

(** Value of a digit string read left to right. *)
Definition digits_acc (acc : N) (s : str) : N :=
  fold_left (fun a c => a * 10 + digit_val c) s acc.
Definition digits_val (s : str) : N := digits_acc 0 s.

(** {u32,u64,usize}::from_str: optional '+', at least one digit, value at most [max]. *)
Definition parse_unsigned (max : N) (s : str) : option N :=
  let ds := match strip_prefix 43 s with Some t => t | None => s end in
  match ds with
  | [] => None
  | _ => if forallb is_ascii_digit ds then
           if digits_val ds <=? max then Some (digits_val ds) else None
         else None
  end.

Definition u32_max : N := 4294967295.
Definition u64_max : N := 18446744073709551615.
Definition i32_max : Z := 2147483647.
Definition i32_min : Z := (-2147483648).

(** i32::from_str: optional sign, at least one digit, value in range. *)
Definition parse_i32 (s : str) : option Z :=
  let '(neg, ds) := match strip_prefix 45 s with
                    | Some t => (true, t)
                    | None => match strip_prefix 43 s with
                              | Some t => (false, t)
                              | None => (false, s)
                              end
                    end in
  match ds with
  | [] => None
  | _ => if forallb is_ascii_digit ds then
           let v := Z.of_N (digits_val ds) in
           let z := if (neg : bool) then Z.opp v else v in
           if (i32_min <=? z)%Z && (z <=? i32_max)%Z then Some z else None
         else None
  end.

(** Decimal digits of a number, most significant first, no leading zero except "0". *)
Fixpoint dec_aux (fuel : nat) (n : N) (acc : str) : str :=
  match fuel with
  | O => acc
  | S f => let acc' := (48 + n mod 10) :: acc in
           if n / 10 =? 0 then acc' else dec_aux f (n / 10) acc'
  end.
Definition dec (n : N) : str := dec_aux (S (N.size_nat n)) n [].

Fixpoint zeros (n : nat) : str := match n with O => [] | S k => 48 :: zeros k end.

(** format!("{:0w$}", n) for an unsigned number *)
Definition pad (w : nat) (n : N) : str :=
  let d := dec n in zeros (w - List.length d) ++ d.

(** format!("{:0w$}", z) for a signed number: the sign counts towards the width and comes
    before the zeros. *)
Definition pad_signed (w : nat) (z : Z) : str :=
  if (z <? 0)%Z then
    let d := dec (Z.abs_N z) in 45 :: zeros (w - 1 - List.length d) ++ d
  else pad w (Z.abs_N z).
