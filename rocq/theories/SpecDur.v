(** Independent specification of the xs:duration lexical space: -?PnYnMnDTnHnMnS.
    Only the type of strings and the IEEE binary64 operations are shared with the model. *)
From Coq Require Import List NArith ZArith Bool Ascii String.
From Coq Require Import Floats.SpecFloat.
From Verif Require Import Str SpecLex.
Import ListNotations.
Local Open Scope N_scope.

(** [opt_comp c s v]: [s] is empty, or digits followed by the designator [c]. *)
Inductive opt_comp (c : N) : str -> option N -> Prop :=
| oc_none : opt_comp c [] None
| oc_some s n : num s n -> opt_comp c (s ++ [c]) (Some n).

(** Seconds: whole part, numerator of the fraction, number of fraction digits. *)
Inductive opt_sec : str -> option (N * N * nat) -> Prop :=
| os_none : opt_sec [] None
| os_int s n : num s n -> opt_sec (s ++ lit "S") (Some (n, 0, 0%nat))
| os_frac s n f m : num s n -> num f m ->
    opt_sec (s ++ lit "." ++ f ++ lit "S") (Some (n, m, List.length f)).

Record dlit := {
  l_neg : bool;
  l_years : option N; l_months : option N; l_days : option N;
  l_hours : option N; l_minutes : option N; l_sec : option (N * N * nat) }.

Definition no_time (l : dlit) : Prop := l_hours l = None /\ l_minutes l = None /\ l_sec l = None.
Definition no_date (l : dlit) : Prop := l_years l = None /\ l_months l = None /\ l_days l = None.

Inductive time_lex : str -> dlit -> Prop :=
| time_absent l : no_time l -> ~ no_date l -> time_lex [] l
| time_present l h m s : ~ no_time l ->
    opt_comp (chr "H") h (l_hours l) -> opt_comp (chr "M") m (l_minutes l) ->
    opt_sec s (l_sec l) -> time_lex (lit "T" ++ h ++ m ++ s) l.

(** [dur_lex s l]: [s] is an xs:duration literal with components [l]. *)
Definition dur_lex (s : str) (l : dlit) : Prop :=
  exists y mo d t,
    s = (if l_neg l then lit "-" else []) ++ lit "P" ++ y ++ mo ++ d ++ t /\
    opt_comp (chr "Y") y (l_years l) /\ opt_comp (chr "M") mo (l_months l) /\
    opt_comp (chr "D") d (l_days l) /\ time_lex t l.

Definition comp (o : option N) : N := match o with Some n => n | None => 0 end.

(** Everything fits in 64 bits. *)
Definition in_range (l : dlit) : Prop :=
  comp (l_years l) < 2 ^ 64 /\ comp (l_months l) < 2 ^ 64 /\ comp (l_days l) < 2 ^ 64 /\
  comp (l_hours l) < 2 ^ 64 /\ comp (l_minutes l) < 2 ^ 64 /\
  match l_sec l with
  | None => True
  | Some (n, m, k) => n < 2 ^ 64 /\ (k < 20)%nat
  end.

(** IEEE 754 binary64, round to nearest even. *)
Definition b64_of_N (n : N) : spec_float := binary_normalize 53 1024 (Z.of_N n) 0 false.
Definition b64_plus := SFadd 53 1024.
Definition b64_div := SFdiv 53 1024.

(** Seconds as computed in binary64: n + m / 10^k, each operation rounded. *)
Definition sec_value (o : option (N * N * nat)) : spec_float :=
  match o with
  | None => S754_zero false
  | Some (n, m, k) =>
    match k with
    | O => b64_of_N n
    | _ => b64_plus (b64_of_N n) (b64_div (b64_of_N m) (b64_of_N (10 ^ N.of_nat k)))
    end
  end.

(** ** Non-standard spellings that the parser also accepts *)

(** zeros, or zeros with a fraction (in which any digits may appear) *)
Inductive idle : str -> Prop :=
| idle_zeros z : num z 0 -> idle z
| idle_dot z f : num z 0 -> forallb is_ascii_digit f = true -> idle (z ++ lit "." ++ f).

(** Text that may follow a literal unnoticed. *)
Inductive junk (s : str) : str -> Prop :=
| junk_none : junk s []
| junk_idle x : ~ In (chr ".") s -> idle x -> junk s x
| junk_digits f : In (chr ".") s -> forallb is_ascii_digit f = true -> junk s f.

(** The 'T' may be moved to the right over zeros at the head of the time part. *)
Inductive t_moved : str -> str -> Prop :=
| tm_same s : t_moved s s
| tm_right a x b : idle x -> t_moved (a ++ x ++ lit "T" ++ b) (a ++ lit "T" ++ x ++ b).

(** Number of digits after the first point. *)
Fixpoint after_point (s : str) : nat :=
  match s with
  | [] => 0%nat
  | c :: s' => if c =? chr "." then List.length (filter is_ascii_digit s') else after_point s'
  end.

(** [accepted s' l]: the spelling [s'] stands for the literal components [l]. *)
Definition accepted (s' : str) (l : dlit) : Prop :=
  exists s core j, s' = core ++ j /\ t_moved core s /\ dur_lex s l /\ junk s j.
