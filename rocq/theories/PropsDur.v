(** Property theorems C13-C18: xs:duration (xsd-types/src/types/duration.rs). *)
From Coq Require Import List NArith ZArith Bool Ascii String.
From Coq Require Import Floats.SpecFloat.
From Verif Require Import Str SpecLex SpecDur Dur DurProofs.
Import ListNotations.
Local Open Scope N_scope.

(** C13: every XSD literal whose numbers fit 64 bits is accepted, in both build modes, with
    the components written ([value_of]: sign and components as written, seconds the IEEE
    value [sec_value]). *)
Theorem C13_duration_complete : forall chk s l, dur_lex s l -> in_range l ->
  dur_from_str chk s = Ok {| d_neg := l_neg l; d_years := comp (l_years l);
    d_months := comp (l_months l); d_days := comp (l_days l); d_hours := comp (l_hours l);
    d_minutes := comp (l_minutes l); d_seconds := sec_value (l_sec l) |}.
Proof. exact from_str_in_range. Qed.
Print Assumptions C13_duration_complete.
Definition ex_lit : dlit := {| l_neg := true; l_years := Some 1; l_months := None;
  l_days := Some 10; l_hours := None; l_minutes := Some 7; l_sec := Some (3, 25, 2%nat) |}.
Example C13_ex : dur_lex (lit "-P1Y10DT7M3.25S") ex_lit /\ in_range ex_lit.
Proof.
  split.
  - exists (lit "1Y"), [], (lit "10D"), (lit "T7M3.25S"). split; [reflexivity|].
    assert (num (lit "1") 1) by (apply (num_one 1); reflexivity).
    assert (num (lit "7") 7) by (apply (num_one 7); reflexivity).
    assert (num (lit "3") 3) by (apply (num_one 3); reflexivity).
    assert (num (lit "10") 10) by (apply (num_snoc (lit "1") 1 0); [assumption|reflexivity]).
    assert (num (lit "25") 25).
    { apply (num_snoc (lit "2") 2 5); [apply (num_one 2)|]; reflexivity. }
    split; [exact (oc_some (chr "Y") (lit "1") 1 H)|].
    split; [constructor|]. split; [exact (oc_some (chr "D") (lit "10") 10 H2)|].
    apply (time_present ex_lit [] (lit "7M") (lit "3.25S")).
    + intros (_ & A & _). discriminate.
    + constructor.
    + exact (oc_some (chr "M") (lit "7") 7 H0).
    + exact (os_frac (lit "3") 3 (lit "25") 25 H1 H3).
  - repeat split; try reflexivity. repeat constructor.
Qed.
Example C13_ex_run : dur_from_str true (lit "-P1Y10DT7M3.25S") =
  Ok {| d_neg := true; d_years := 1; d_months := 0; d_days := 10; d_hours := 0; d_minutes := 7;
        d_seconds := S754_finite false 7318349394477056 (-51) |}.
Proof. vm_compute. reflexivity. Qed.

(** C14: the set of accepted texts, exactly (overflow-checking build): the empty text, and
    literals in which the 'T' may have been moved right over zeros ([t_moved]) and which
    may be followed by zeros or, after a fraction, by digits ([junk]). *)
Theorem C14_duration_accepts_exactly : forall s r, dur_from_str true s = Ok r <->
  (s = [] /\ r = dur_default) \/
  exists l, accepted s l /\ in_range l /\ (after_point s < 20)%nat /\ r = value_of l.
Proof. exact from_str_exact. Qed.
Print Assumptions C14_duration_accepts_exactly.

(** The other build mode differs only where the checked one panics. *)
Theorem C14_duration_build_modes : forall s,
  dur_from_str true s = Panic \/ dur_from_str true s = dur_from_str false s.
Proof. exact from_str_modes. Qed.
Print Assumptions C14_duration_build_modes.

(** "Only XSD literals are accepted" is false. *)
Theorem C14_only_literals_refuted :
  ~ (forall s r, dur_from_str true s = Ok r -> exists l, dur_lex s l).
Proof.
  intros H. destruct (H [] dur_default eq_refl) as (l & y & mo & dd & t & E & _).
  destruct (l_neg l); discriminate.
Qed.
Print Assumptions C14_only_literals_refuted.
Example C14_ex1 : exists r, dur_from_str true (lit "P1Y0") = Ok r. Proof. eexists; reflexivity. Qed.
Example C14_ex2 : exists r, dur_from_str true (lit "P0T1H") = Ok r. Proof. eexists; reflexivity. Qed.
Example C14_ex3 : exists r, dur_from_str true (lit "P0.5T1S") = Ok r. Proof. eexists; vm_compute; reflexivity. Qed.
Example C14_ex4 : exists r, dur_from_str true (lit "PT1.5S7") = Ok r. Proof. eexists; vm_compute; reflexivity. Qed.
Example C14_ex5 : dur_from_str true (lit "P1YT") = Err /\ dur_from_str true (lit "P1H") = Err /\
  dur_from_str true (lit "1Y") = Err /\ dur_from_str true (lit "P1M1Y") = Err /\
  dur_from_str true (lit "P1Y5") = Err.
Proof. repeat split. Qed.

(** C15: literals that do not fit are never reported as errors. *)
Theorem C15_duration_overflow : forall s l, dur_lex s l -> ~ in_range l ->
  dur_from_str true s = Panic /\ dur_from_str false s = Ok (value_mod l).
Proof. exact (fun s l H Hr => conj (from_str_overflow s l H Hr) (from_str_wraps s l H)). Qed.
Print Assumptions C15_duration_overflow.
(** Texts with fewer than 20 digits never panic. *)
Theorem C15_duration_no_panic : forall s, (List.length (filter is_ascii_digit s) < 20)%nat ->
  dur_from_str true s <> Panic.
Proof. exact from_str_no_panic. Qed.
Print Assumptions C15_duration_no_panic.
Example C15_ex1 : dur_from_str true (lit "P18446744073709551616Y") = Panic. Proof. reflexivity. Qed.
Example C15_ex2 : dur_from_str false (lit "P18446744073709551617Y") =
  Ok (set_years dur_default 1). Proof. reflexivity. Qed.

(** C16: display then parse, whole seconds. *)
Theorem C16_duration_round_trip : forall chk d n,
  d_years d < 2 ^ 64 -> d_months d < 2 ^ 64 -> d_days d < 2 ^ 64 -> d_hours d < 2 ^ 64 ->
  d_minutes d < 2 ^ 64 -> n < 2 ^ 53 -> d_seconds d = b64_of_N n ->
  dur_from_str chk (dur_display d) = Ok d.
Proof. exact display_round_trip. Qed.
Print Assumptions C16_duration_round_trip.
(** The text is an XSD literal (also for components that do not fit 64 bits). *)
Theorem C16_duration_display_literal : forall d n, n < 2 ^ 53 -> d_seconds d = b64_of_N n ->
  exists l, dur_lex (dur_display d) l.
Proof. exact (fun d n H1 H2 => ex_intro _ _ (display_lex d n H1 H2)). Qed.
Print Assumptions C16_duration_display_literal.
Example C16_ex1 : dur_display {| d_neg := true; d_years := 0; d_months := 0; d_days := 0;
  d_hours := 0; d_minutes := 0; d_seconds := f64_zero |} = lit "-P0Y". Proof. reflexivity. Qed.
Example C16_ex2 : dur_display {| d_neg := false; d_years := 3; d_months := 0; d_days := 0;
  d_hours := 25; d_minutes := 0; d_seconds := b64_of_N 1200 |} = lit "P3YT25H1200S".
Proof. vm_compute. reflexivity. Qed.

(** C17: with fractional seconds the round trip fails: 1.14 is printed as 1.14 but read as
    1 + 14/100 with two roundings. *)
Definition f114 : f64 := S754_finite false 5134103575202365 (-52).
Definition d114 : duration := set_seconds dur_default f114.
Theorem C17_fraction_round_trip_refuted :
  dur_display d114 = lit "PT1.14S" /\
  dur_from_str true (dur_display d114) = Ok (set_seconds dur_default (S754_finite false 5134103575202366 (-52))) /\
  ~ (forall chk d, d_years d < 2 ^ 64 -> d_months d < 2 ^ 64 -> d_days d < 2 ^ 64 ->
       d_hours d < 2 ^ 64 -> d_minutes d < 2 ^ 64 -> f64_gtb (d_seconds d) f64_zero = true ->
       dur_from_str chk (dur_display d) = Ok d).
Proof.
  assert (dur_display d114 = lit "PT1.14S") as E1 by (vm_compute; reflexivity).
  assert (dur_from_str true (dur_display d114) =
    Ok (set_seconds dur_default (S754_finite false 5134103575202366 (-52)))) as E2
    by (vm_compute; reflexivity).
  split; [exact E1|]. split; [exact E2|].
  intros H. specialize (H true d114 eq_refl eq_refl eq_refl eq_refl eq_refl eq_refl).
  rewrite E2 in H. discriminate H.
Qed.
Print Assumptions C17_fraction_round_trip_refuted.
(** a value whose text has more than 19 fraction digits panics on the way back *)
Example C17_ex : dur_from_str true (dur_display (set_seconds dur_default
  (b64_div (b64_of_N 1) (b64_of_N (10 ^ 20))))) = Panic.
Proof. vm_compute. reflexivity. Qed.

(** C18: conversion to std::time::Duration. *)
Theorem C18_to_std : forall chk d,
  (to_std_duration chk d = Err <-> 0 < d_years d \/ 0 < d_months d) /\
  to_std_duration chk (set_neg d) = to_std_duration chk d /\
  forall n, d_years d = 0 -> d_months d = 0 -> n < 2 ^ 53 -> d_seconds d = b64_of_N n ->
    let total := n + 60 * (d_minutes d + 60 * (d_hours d + 24 * d_days d)) in
    to_std_duration chk d =
      if total <? 2 ^ 64 then Ok (total, 0) else if chk then Panic else Ok (total mod 2 ^ 64, 0).
Proof.
  exact (fun chk d => conj (to_std_err chk d) (conj (to_std_sign chk d)
    (fun n Hy Hm Hn Hs => to_std_integral' chk d n Hy Hm Hn Hs))).
Qed.
Print Assumptions C18_to_std.
Example C18_ex : to_std_duration true {| d_neg := true; d_years := 0; d_months := 0; d_days := 2;
  d_hours := 1; d_minutes := 5; d_seconds := b64_of_N 7 |} = Ok (176707, 0).
Proof. vm_compute. reflexivity. Qed.
