(** Property theorems C18: a duration with any seconds as std::time::Duration
    (xsd-types/src/types/duration.rs l.19-30). The double held by [d_seconds] is read by
    SpecDouble: [units] counts units of 2^-1074, so that [2 ^ 1074] units are one second. *)
From Coq Require Import NArith ZArith Bool Ascii String List Lia.
From Coq Require Import Floats.SpecFloat.
From Verif Require Import Str SpecLex SpecDouble Dur DurProofs Float FloatProofs ArithProofs.
Import ListNotations.
Local Open Scope Z_scope.

(** C18: seconds below 2^64. The whole part is added to the other fields exactly, and the
    nanoseconds are within one of the exact fraction times 10^9. They are below 10^9, so that
    nothing is ever carried. *)
Theorem C18_fraction : forall chk d m e, d_years d = 0%N -> d_months d = 0%N ->
  d_seconds d = S754_finite false m e -> representable binary64 (Zpos m) e ->
  let one := 2 ^ 1074 in let x := units binary64 (Zpos m) e in x < 2 ^ 64 * one ->
  exists k, (k < 10 ^ 9)%N /\ (Z.of_N k - 1) * one < 10 ^ 9 * (x mod one) < (Z.of_N k + 1) * one /\
    let total := (Z.to_N (x / one) + 60 * (d_minutes d + 60 * (d_hours d + 24 * d_days d)))%N in
    to_std_duration chk d = if (total <? 2 ^ 64)%N then Ok (total, k)
      else if chk then Panic else Ok ((total mod 2 ^ 64)%N, k).
Proof. exact std_fraction. Qed.
Print Assumptions C18_fraction.
(** 1.5 s is 3 * 2^-1 s. *)
Example C18_fraction_ex : forall chk, representable binary64 (3 * 2 ^ 51) (-52) /\
  to_std_duration chk {| d_neg := false; d_years := 0; d_months := 0; d_days := 1; d_hours := 0; d_minutes := 2;
    d_seconds := S754_finite false (3 * 2 ^ 51) (-52) |} = Ok (86521, 500000000)%N.
Proof. split; [repeat split; try (left; vm_compute); vm_compute; congruence|destruct chk; vm_compute; reflexivity]. Qed.

(** C18: all other seconds. What is not a positive number counts as no seconds at all. 2^64
    seconds count as 2^64 - 1. More than that, and infinity, panics when overflow is checked,
    and gives a duration that has nothing to do with the value otherwise. *)
Theorem C18_other_seconds : forall chk d, d_years d = 0%N -> d_months d = 0%N ->
  let rest := (60 * (d_minutes d + 60 * (d_hours d + 24 * d_days d)))%N in
  ((forall m e, d_seconds d <> S754_finite false m e) -> d_seconds d <> S754_infinity false ->
    to_std_duration chk d = if (rest <? 2 ^ 64)%N then Ok (rest, 0%N) else if chk then Panic else Ok ((rest mod 2 ^ 64)%N, 0%N)) /\
  ((exists m e, d_seconds d = S754_finite false m e /\ representable binary64 (Zpos m) e /\
      units binary64 (Zpos m) e = 2 ^ 64 * 2 ^ 1074) ->
    let total := (2 ^ 64 - 1 + rest)%N in
    to_std_duration chk d = if (total <? 2 ^ 64)%N then Ok (total, 0%N) else if chk then Panic else Ok ((total mod 2 ^ 64)%N, 0%N)) /\
  (d_seconds d = S754_infinity false \/
    (exists m e, d_seconds d = S754_finite false m e /\ representable binary64 (Zpos m) e /\
      2 ^ 64 * 2 ^ 1074 < units binary64 (Zpos m) e) ->
    to_std_duration chk d = if chk then Panic
      else if ((2 ^ 64 - 1 + rest) mod 2 ^ 64 + 4 <? 2 ^ 64)%N
           then Ok (((2 ^ 64 - 1 + rest) mod 2 ^ 64 + 4)%N, 294967295%N) else Panic).
Proof. exact (fun chk d Y M => conj (std_none chk d Y M) (conj (std_max chk d Y M) (std_beyond chk d Y M))). Qed.
Print Assumptions C18_other_seconds.
Example C18_other_ex1 : forall chk, to_std_duration chk {| d_neg := false; d_years := 0; d_months := 0; d_days := 0; d_hours := 1; d_minutes := 0;
  d_seconds := S754_finite true (3 * 2 ^ 51) (-52) |} = Ok (3600, 0)%N.
Proof. destruct chk; vm_compute; reflexivity. Qed.
(** One minute and infinitely many seconds: 63.294967295 s, without overflow checks. *)
Example C18_other_ex2 : to_std_duration false {| d_neg := false; d_years := 0; d_months := 0; d_days := 0; d_hours := 0; d_minutes := 1;
  d_seconds := S754_infinity false |} = Ok (63, 294967295)%N.
Proof. vm_compute. reflexivity. Qed.

(** C18, as a user reads it: a fraction of at most nine digits gives the nanoseconds written.
    False: PT2.3S is accepted and gives one nanosecond less. *)
Theorem C18_decimal_refuted : forall chk, exists d, dur_from_str chk (lit "PT2.3S") = Ok d /\
  to_std_duration chk d = Ok (2, 299999999)%N.
Proof. intros chk. eexists. split; [destruct chk; vm_compute; reflexivity|destruct chk; vm_compute; reflexivity]. Qed.
Print Assumptions C18_decimal_refuted.
