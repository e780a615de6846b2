(** Floating-point numbers as texts: properties. *)
From Coq Require Import Arith NArith ZArith Bool Ascii String List Lia.
From Coq Require Import Floats.SpecFloat.
From Verif Require Import Str SpecLex TzProofs Dur Float SpecDouble FloatProofs DisplayProofs.
Import ListNotations.
Local Open Scope string_scope.
Local Open Scope list_scope.
Local Open Scope Z_scope.

(** C78: every literal of xs:double is read as the double nearest to the number, of two the even
    one.  Besides literals nothing is read but the words of [lenient_word]. *)
Theorem C78_reads : forall s v, xsd_double s v -> f64_from_str s = Ok v.
Proof. exact read_literal. Qed.
Print Assumptions C78_reads.
Theorem C78_language : forall s v, f64_from_str s = Ok v <-> xsd_double s v \/ lenient_word s v.
Proof. exact from_str_iff. Qed.
Print Assumptions C78_language.
(** Numerals have one value. *)
Theorem C78_one_value :
  (forall sg neg ms n k es z, sign_lex sg neg -> mantissa_lex ms n k -> exponent_lex es z -> exists v, xsd_double (sg ++ ms ++ es) v) /\
  (forall s v w, xsd_double s v -> xsd_double s w -> v = w).
Proof. split; [exact numeral_value|exact literal_unique]. Qed.
Print Assumptions C78_one_value.
(** What is written is read back; whatever is read is a double. *)
Theorem C78_round_trip : forall v, value_of binary64 v -> f64_from_str (f64_display v) = Ok v.
Proof. exact display_read. Qed.
Print Assumptions C78_round_trip.
Theorem C78_values : forall s v, f64_from_str s = Ok v -> value_of binary64 v.
Proof. exact read_value. Qed.
Print Assumptions C78_values.
(** All but the infinities are written as literals of themselves. *)
Theorem C78_written : forall v, value_of binary64 v -> (forall neg, v <> S754_infinity neg) -> xsd_double (f64_display v) v.
Proof. exact display_floating. Qed.
Print Assumptions C78_written.
(** Values compare as XML Schema says. *)
Theorem C78_order : forall v w, value_of binary64 v -> value_of binary64 w -> f64_cmp v w = order binary64 v w.
Proof. exact cmp_order. Qed.
Print Assumptions C78_order.

Definition tenth : f64 := S754_finite false 7205759403792794 (-56).
Example C78_ex1 : xsd_double (lit "-12.5e-1") (S754_finite true 5629499534213120 (-52)) /\ f64_display (S754_finite true 5629499534213120 (-52)) = lit "-1.25".
Proof.
  split; [|vm_compute; reflexivity]. change (lit "-12.5e-1") with (lit "-" ++ (lit "12" ++ lit "." ++ lit "5") ++ (lit "e" ++ lit "-1")).
  apply (fl_number binary64 _ true _ 125 1 _ (-1)); [constructor| | |apply of_decimal_iff; vm_compute; reflexivity].
  - apply (mant_both (lit "12") (lit "5") 12 5); apply num_iff; (split; [discriminate|split; reflexivity]).
  - apply exp_some; [left; reflexivity|]. apply (xsd_int_minus (lit "1") 1). apply num_iff. split; [discriminate|split; reflexivity].
Qed.
Example C78_ex2 : map f64_from_str [lit "0.1"; lit "1e-1"; lit "+.1E0"; lit "0.1000000000000000055"; lit "1."; lit "."; lit "1e"; lit " 1"; lit "0x1"] =
  [Ok tenth; Ok tenth; Ok tenth; Ok tenth; Ok (S754_finite false 4503599627370496 (-52)); Err; Err; Err; Err].
Proof. vm_compute. reflexivity. Qed.
(** The least double, the greatest, the first text that is infinite; halves go to the even one. *)
Example C78_ex3 : map f64_from_str [lit "4.9e-324"; lit "2e-324"; lit "1.7976931348623157e308"; lit "1.7976931348623159e308"; lit "9007199254740993"; lit "9007199254740995"] =
  [Ok (S754_finite false 1 (-1074)); Ok (S754_zero false); Ok (S754_finite false 9007199254740991 971); Ok (S754_infinity false); Ok (S754_finite false 4503599627370496 1); Ok (S754_finite false 4503599627370498 1)].
Proof. vm_compute. reflexivity. Qed.
Example C78_ex4 : map f64_display [tenth; S754_finite false 4503599627370496 1; S754_zero true; S754_nan] =
  [lit "0.1"; lit "9007199254740992"; lit "-0"; lit "NaN"] /\ List.length (f64_display (S754_finite false 1 (-1000))) = 304%nat.
Proof. vm_compute. auto. Qed.

(** ** What fails *)
(** Infinity is written as a text that is no literal of xs:double. *)
Theorem C78_infinity_refuted : exists v, xsd_double (lit "INF") v /\ f64_from_str (lit "INF") = Ok v /\ f64_display v = lit "inf" /\ forall F w, ~ floating F (f64_display v) w.
Proof. exists (S754_infinity false). split; [constructor|]. split; [reflexivity|]. split; [reflexivity|]. intros F w. apply no_literal; reflexivity. Qed.
Print Assumptions C78_infinity_refuted.
(** Texts that are no literals are read. *)
Theorem C78_lenient_refuted : forall s, In s [lit "nan"; lit "Infinity"; lit "+INF"; lit "-NaN"; lit "inf"] -> (exists v, f64_from_str s = Ok v) /\ forall F v, ~ floating F s v.
Proof. intros s [<-|[<-|[<-|[<-|[<-|[]]]]]]; (split; [eexists; reflexivity|]; intros F v; apply no_literal; reflexivity). Qed.
Print Assumptions C78_lenient_refuted.

(** xs:float has the same literals but fewer values; the generated code reads them as doubles. *)
Theorem C78_float_read : forall s w, xsd_float s w -> exists v, f64_from_str s = Ok v /\ xsd_double s v.
Proof. intros s w H. apply same_literals in H as [v H]. exists v. split; [apply read_literal|]; exact H. Qed.
Print Assumptions C78_float_read.
(** So two texts of one value are told apart; and a value may change by being read and written:
    the first text is below the middle of 1 and the float after it, the text written above. *)
Definition one32 : spec_float := S754_finite false 8388608 (-23).
Definition next32 : spec_float := S754_finite false 8388609 (-23).
Definition below_half : str := lit "1.000000059604644775390624".
Theorem C78_float_refuted :
  (exists s t v w, xsd_float s one32 /\ xsd_float t one32 /\ f64_from_str s = Ok v /\ f64_from_str t = Ok w /\ f64_cmp v w = Some Lt) /\
  (exists s v, xsd_float s one32 /\ f64_from_str s = Ok v /\ xsd_float (f64_display v) next32).
Proof.
  assert (L : xsd_float below_half one32).
  { replace below_half with ([] ++ (lit "1" ++ lit "." ++ lit "000000059604644775390624") ++ []) by reflexivity. apply (fl_number binary32 _ false _ 1000000059604644775390624 24 _ 0); [constructor| |constructor|].
    - apply (mant_both (lit "1") (lit "000000059604644775390624") 1 59604644775390624); apply num_iff; (split; [discriminate|split; reflexivity]).
    - apply below_middle; vm_compute; congruence. }
  split.
  - exists (lit "1"), below_half. do 2 eexists. split; [|split; [exact L|]].
    + replace (lit "1") with ([] ++ lit "1" ++ []) by reflexivity. apply (fl_number binary32 _ false _ 1 0 _ 0); [constructor|constructor; apply num_iff; split; [discriminate|split; reflexivity]|constructor|]. apply below_middle; vm_compute; congruence.
    + split; [vm_compute; reflexivity|]. split; [vm_compute; reflexivity|]. vm_compute. reflexivity.
  - exists below_half. eexists. split; [exact L|]. split; [vm_compute; reflexivity|].
    match goal with |- xsd_float ?t _ => replace t with ([] ++ (lit "1" ++ lit "." ++ lit "0000000596046448") ++ []) by (vm_compute; reflexivity) end. apply (fl_number binary32 _ false _ 10000000596046448 16 _ 0); [constructor| |constructor|].
    + apply (mant_both (lit "1") (lit "0000000596046448") 1 596046448); apply num_iff; (split; [discriminate|split; reflexivity]).
    + apply above_middle; vm_compute; congruence.
Qed.
Print Assumptions C78_float_refuted.
