(** Model of xsd-types/src/types/duration.rs.  u64 values are N; [chk] is the
    overflow-checks build mode (true: overflow panics, false: wraps modulo 2^64).
    f64 is [spec_float] with precision 53 and emax 1024 (round to nearest even). *)
From Coq Require Import List NArith ZArith Bool Ascii String.
From Coq Require Import Floats.SpecFloat.
From Verif Require Import Str.
Import ListNotations.
Local Open Scope N_scope.

(** ** u64 and f64 primitives *)
Definition two64 : N := 18446744073709551616.

(** result of an arithmetic operation whose exact value is [n] *)
Definition u64_wrap (chk : bool) (n : N) : res N :=
  if n <? two64 then Ok n else if chk then Panic else Ok (n mod two64).
Definition u64_mul (chk : bool) (a b : N) : res N := u64_wrap chk (a * b).
Definition u64_add (chk : bool) (a b : N) : res N := u64_wrap chk (a + b).

Definition f64 := spec_float.
Definition f64_zero : f64 := S754_zero false.
(** [n as f64] for an unsigned integer *)
Definition f64_of_N (n : N) : f64 := binary_normalize 53 1024 (Z.of_N n) 0 false.
Definition f64_add : f64 -> f64 -> f64 := SFadd 53 1024.
Definition f64_sub : f64 -> f64 -> f64 := SFsub 53 1024.
Definition f64_mul : f64 -> f64 -> f64 := SFmul 53 1024.
Definition f64_div : f64 -> f64 -> f64 := SFdiv 53 1024.
Definition f64_gtb (a b : f64) : bool := SFltb b a.

(** [x as uN]: truncation towards zero, saturating, NaN and negative numbers give 0. *)
Definition f64_to_uint (max : N) (x : f64) : N :=
  match x with
  | S754_zero _ => 0
  | S754_nan => 0
  | S754_infinity s => if s then 0 else max
  | S754_finite true _ _ => 0
  | S754_finite false m e =>
    let v := match e with
             | Z0 => N.pos m
             | Zpos p => N.pos m * 2 ^ N.pos p
             | Zneg p => N.pos m / 2 ^ N.pos p
             end in
    N.min v max
  end.

(** ** The Duration type (l.5-16) and its [Default] *)
Record duration := {
  d_neg : bool;
  d_years : N; d_months : N; d_days : N;
  d_hours : N; d_minutes : N; d_seconds : f64 }.

Definition dur_default : duration :=
  {| d_neg := false; d_years := 0; d_months := 0; d_days := 0;
     d_hours := 0; d_minutes := 0; d_seconds := f64_zero |}.

(** ParsingContext, l.255-283.  [lastf] (last_filled_component) is one of 0..6. *)
Record ctx := {
  is_p : bool; is_t : bool; lastf : N;
  number : N; is_empty_n : bool;
  is_dot : bool; numer : N; denom : N }.

Definition ctx_new : ctx :=
  {| is_p := false; is_t := false; lastf := 0; number := 0; is_empty_n := true;
     is_dot := false; numer := 0; denom := 1 |}.

(** fill_component, l.44-72: checks, then the new context; the caller stores
    [number c] into the component. *)
Definition fill_component (c : ctx) (idx : N) : res ctx :=
  if is_empty_n c then Err
  else if is_dot c then Err
  else if idx <=? lastf c then Err
  else Ok {| is_p := is_p c; is_t := is_t c; lastf := idx; number := 0; is_empty_n := true;
             is_dot := is_dot c; numer := numer c; denom := denom c |}.

(** fill_seconds, l.74-96 *)
Definition fill_seconds (c : ctx) : res (ctx * f64) :=
  if is_empty_n c then Err
  else if is_dot c && (denom c =? 1) then Err
  else if 6 <=? lastf c then Err
  else Ok ({| is_p := is_p c; is_t := is_t c; lastf := 6; number := 0; is_empty_n := true;
              is_dot := is_dot c; numer := numer c; denom := denom c |},
           f64_add (f64_of_N (number c)) (f64_div (f64_of_N (numer c)) (f64_of_N (denom c)))).

Definition set_years (d : duration) (v : N) := {| d_neg := d_neg d; d_years := v;
  d_months := d_months d; d_days := d_days d; d_hours := d_hours d; d_minutes := d_minutes d;
  d_seconds := d_seconds d |}.
Definition set_months (d : duration) (v : N) := {| d_neg := d_neg d; d_years := d_years d;
  d_months := v; d_days := d_days d; d_hours := d_hours d; d_minutes := d_minutes d;
  d_seconds := d_seconds d |}.
Definition set_days (d : duration) (v : N) := {| d_neg := d_neg d; d_years := d_years d;
  d_months := d_months d; d_days := v; d_hours := d_hours d; d_minutes := d_minutes d;
  d_seconds := d_seconds d |}.
Definition set_hours (d : duration) (v : N) := {| d_neg := d_neg d; d_years := d_years d;
  d_months := d_months d; d_days := d_days d; d_hours := v; d_minutes := d_minutes d;
  d_seconds := d_seconds d |}.
Definition set_minutes (d : duration) (v : N) := {| d_neg := d_neg d; d_years := d_years d;
  d_months := d_months d; d_days := d_days d; d_hours := d_hours d; d_minutes := v;
  d_seconds := d_seconds d |}.
Definition set_seconds (d : duration) (v : f64) := {| d_neg := d_neg d; d_years := d_years d;
  d_months := d_months d; d_days := d_days d; d_hours := d_hours d; d_minutes := d_minutes d;
  d_seconds := v |}.
Definition set_neg (d : duration) := {| d_neg := true; d_years := d_years d;
  d_months := d_months d; d_days := d_days d; d_hours := d_hours d; d_minutes := d_minutes d;
  d_seconds := d_seconds d |}.

Definition state := (ctx * duration)%type.

(** a digit, l.170-188 *)
Definition step_digit (chk : bool) (ch : N) (st : state) : res state :=
  let '(c, d) := st in
  if negb (is_ascii_digit ch) then Err
  else if is_dot c then
    bind (u64_mul chk (numer c) 10) (fun n1 =>
    bind (u64_add chk n1 (digit_val ch)) (fun n2 =>
    bind (u64_mul chk (denom c) 10) (fun dn =>
    Ok ({| is_p := is_p c; is_t := is_t c; lastf := lastf c; number := number c;
           is_empty_n := is_empty_n c; is_dot := is_dot c; numer := n2; denom := dn |}, d))))
  else
    bind (u64_mul chk (number c) 10) (fun n1 =>
    bind (u64_add chk n1 (digit_val ch)) (fun n2 =>
    Ok ({| is_p := is_p c; is_t := is_t c; lastf := lastf c; number := n2;
           is_empty_n := false; is_dot := is_dot c; numer := numer c; denom := denom c |}, d))).

(** body of the loop over [s.chars().enumerate()], l.105-190 *)
Definition step (chk : bool) (i : nat) (ch : N) (st : state) : res state :=
  let '(c, d) := st in
  if ch =? chr "-" then
    if (i =? 0)%nat then Ok (c, set_neg d) else Err
  else if ch =? chr "P" then
    if (i =? 0)%nat || ((i =? 1)%nat && d_neg d) then
      Ok ({| is_p := true; is_t := is_t c; lastf := lastf c; number := number c;
             is_empty_n := is_empty_n c; is_dot := is_dot c; numer := numer c;
             denom := denom c |}, d)
    else Err
  else if ch =? chr "T" then
    if is_t c then Err
    else if 0 <? number c then Err
    else Ok ({| is_p := is_p c; is_t := true; lastf := 3; number := number c;
                is_empty_n := is_empty_n c; is_dot := is_dot c; numer := numer c;
                denom := denom c |}, d)
  else if ch =? chr "Y" then
    bind (fill_component c 1) (fun c' => Ok (c', set_years d (number c)))
  else if ch =? chr "M" then
    if is_t c then bind (fill_component c 5) (fun c' => Ok (c', set_minutes d (number c)))
    else bind (fill_component c 2) (fun c' => Ok (c', set_months d (number c)))
  else if ch =? chr "D" then
    bind (fill_component c 3) (fun c' => Ok (c', set_days d (number c)))
  else if ch =? chr "H" then
    if negb (is_t c) then Err
    else bind (fill_component c 4) (fun c' => Ok (c', set_hours d (number c)))
  else if ch =? chr "S" then
    if negb (is_t c) then Err
    else bind (fill_seconds c) (fun '(c', v) => Ok (c', set_seconds d v))
  else if ch =? chr "." then
    if is_dot c then Err
    else if is_empty_n c then Err
    else Ok ({| is_p := is_p c; is_t := is_t c; lastf := lastf c; number := number c;
                is_empty_n := is_empty_n c; is_dot := true; numer := numer c;
                denom := denom c |}, d)
  else step_digit chk ch st.

Fixpoint run (chk : bool) (i : nat) (s : str) (st : state) : res state :=
  match s with
  | [] => Ok st
  | ch :: s' => bind (step chk i ch st) (run chk (S i) s')
  end.

(** the checks after the loop, l.193-209 *)
Definition finish (st : state) : res duration :=
  let '(c, d) := st in
  if 0 <? number c then Err
  else if negb (is_p c) then Err
  else if lastf c =? 0 then Err
  else if (lastf c <=? 3) && is_t c then Err
  else Ok d.

(** Duration::from_str, l.43-210 *)
Definition dur_from_str (chk : bool) (s : str) : res duration :=
  match s with
  | [] => Ok dur_default
  | _ => bind (run chk 0 s (ctx_new, dur_default)) finish
  end.

(** ** Display of f64 (Rust core: shortest digits that round-trip, closest to the value,
    printed without exponent).  Exact integer arithmetic over m * 2^e. *)
Local Open Scope Z_scope.

(** d * 10^q <= / < b * 2^u *)
Definition dec_cmp (d q b u : Z) : comparison :=
  Z.compare (d * 10 ^ Z.max q 0 * 2 ^ Z.max (- u) 0) (b * 2 ^ Z.max u 0 * 10 ^ Z.max (- q) 0).

(** Is d * 10^q inside the rounding interval of m * 2^e (bounds included iff m is even)? *)
Definition in_interval (m e d q : Z) : bool :=
  let lo := if (m =? 2 ^ 52) && negb (e =? -1074) then 4 * m - 1 else 4 * m - 2 in
  let hi := 4 * m + 2 in
  let incl := Z.even m in
  match dec_cmp d q lo (e - 2), dec_cmp d q hi (e - 2) with
  | Gt, Lt => true
  | Eq, Lt | Gt, Eq => incl
  | _, _ => false
  end.

(** floor (m * 2^e / 10^q) and the doubled remainder compared with the divisor *)
Definition floor_scaled (m e q : Z) : Z * comparison :=
  let a := m * 2 ^ Z.max e 0 * 10 ^ Z.max (- q) 0 in
  let b := 2 ^ Z.max (- e) 0 * 10 ^ Z.max q 0 in
  (a / b, Z.compare (2 * (a mod b)) b).

(** floor (log10 (m * 2^e)), by search from the value's number of integer digits or, below
    1, of leading zeros *)
Fixpoint lead_zeros (fuel : nat) (a b j : Z) : Z :=
  match fuel with
  | O => j
  | S f => if b <=? a then j else lead_zeros f (10 * a) b (j + 1)
  end.
Definition log10_floor (m e : Z) : Z :=
  let a := m * 2 ^ Z.max e 0 in
  let b := 2 ^ Z.max (- e) 0 in
  if b <=? a then Z.of_nat (List.length (dec (Z.to_N (a / b)))) - 1
  else - lead_zeros 400 a b 0.

(** the shortest candidates with k = 1, 2, ... significant digits *)
Fixpoint shortest (fuel : nat) (m e E k : Z) : Z * Z :=
  let q := E - k + 1 in
  let '(fl, c) := floor_scaled m e q in
  let near := match c with Gt => fl + 1 | _ => fl end in
  let far := match c with Gt => fl | _ => fl + 1 end in
  if in_interval m e near q then (near, q)
  else if in_interval m e far q then (far, q)
  else match fuel with
       | O => (near, q)
       | S f => shortest f m e E (k + 1)
       end.

Definition strip_zeros (s : str) : str :=
  rev ((fix go l := match l with
                    | c :: t => if N.eqb c 48 then go t else l
                    | [] => []
                    end) (rev s)).

(** decimal text of d * 10^q, no exponent, no trailing fraction zeros *)
Definition print_dec (d q : Z) : str :=
  if 0 <=? q then (dec (Z.to_N d) ++ zeros (Z.to_nat q))%list
  else
    let w := 10 ^ (- q) in
    let frac := strip_zeros (pad (Z.to_nat (- q)) (Z.to_N (d mod w))) in
    match frac with
    | [] => dec (Z.to_N (d / w))
    | _ => (dec (Z.to_N (d / w)) ++ chr "." :: frac)%list
    end.

Definition f64_display (x : f64) : str :=
  match x with
  | S754_zero s => if s then lit "-0" else lit "0"
  | S754_nan => lit "NaN"
  | S754_infinity s => if s then lit "-inf" else lit "inf"
  | S754_finite s m e =>
    let '(d, q) := shortest 16 (Zpos m) e (log10_floor (Zpos m) e) 1 in
    ((if s then lit "-" else []) ++ print_dec d q)%list
  end.

Local Open Scope N_scope.

(** [if v > 0 { write!(.., "{}<c>", v) }] *)
Definition comp_text (v : N) (c : N) : str :=
  if 0 <? v then (dec v ++ [c])%list else [].

(** Display, l.213-253 *)
Definition dur_display (d : duration) : str :=
  let s := if d_neg d then lit "-P" else lit "P" in
  let date_str := (comp_text (d_years d) (chr "Y") ++ comp_text (d_months d) (chr "M")
                   ++ comp_text (d_days d) (chr "D"))%list in
  let sec := if f64_gtb (d_seconds d) f64_zero
             then (f64_display (d_seconds d) ++ lit "S")%list else [] in
  let time_str := (comp_text (d_hours d) (chr "H") ++ comp_text (d_minutes d) (chr "M")
                   ++ sec)%list in
  match time_str with
  | [] => match date_str with
          | [] => (s ++ lit "0Y")%list
          | _ => (s ++ date_str)%list
          end
  | _ => (s ++ date_str ++ lit "T" ++ time_str)%list
  end.

(** ** to_std_duration, l.19-30 *)
Definition nanos_per_sec : N := 1000000000.
(** std::time::Duration::new: carries whole seconds out of [nanos]; panics on overflow in
    every build mode (checked_add + expect). *)
Definition std_duration_new (secs nanos : N) : res (N * N) :=
  if nanos <? nanos_per_sec then Ok (secs, nanos)
  else
    let secs' := secs + nanos / nanos_per_sec in
    if secs' <? two64 then Ok (secs', nanos mod nanos_per_sec) else Panic.

Definition to_std_duration (chk : bool) (d : duration) : res (N * N) :=
  if (0 <? d_years d) || (0 <? d_months d) then Err
  else
    let secs := f64_to_uint u64_max (d_seconds d) in
    let nanos := f64_to_uint u32_max
                   (f64_mul (f64_sub (d_seconds d) (f64_of_N secs)) (f64_of_N nanos_per_sec)) in
    bind (u64_mul chk 24 (d_days d)) (fun t1 =>
    bind (u64_add chk (d_hours d) t1) (fun t2 =>
    bind (u64_mul chk 60 t2) (fun t3 =>
    bind (u64_add chk (d_minutes d) t3) (fun t4 =>
    bind (u64_mul chk 60 t4) (fun t5 =>
    bind (u64_add chk secs t5) (fun t6 =>
    std_duration_new t6 nanos)))))).
