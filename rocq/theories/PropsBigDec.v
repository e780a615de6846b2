(** Property theorems C61: xs:decimal. *)
From Coq Require Import NArith ZArith QArith Bool Ascii String List Lia.
From Verif Require Import Str StrFacts SpecLex TzProofs Ints BigDec SpecBigDec BigDecProofs Serde SpecSerde SerdeProofs.
Import ListNotations.
Local Open Scope N_scope.

(** C61: every literal of xs:decimal is read with its exact value. *)
Theorem C61_literals : forall s q, xsd_decimal s q -> (Z.of_nat (List.length s) < 2 ^ 63)%Z ->
  exists d, decimal_from_str s = Ok d /\ (decimal_value (mantissa d) (scale d) == q)%Q.
Proof. exact decimal_literals. Qed.
Print Assumptions C61_literals.
(** The texts that are read, with mantissa and scale; nothing panics. *)
Theorem C61_accepted : forall s i k,
  (decimal_from_str s = Ok {| mantissa := i; scale := k |} <-> lenient_decimal s i k /\ (- 2 ^ 63 <= k < 2 ^ 63)%Z) /\
  decimal_from_str s <> Panic.
Proof. exact (fun s i k => conj (decimal_ok s i k) (decimal_no_panic s)). Qed.
Print Assumptions C61_accepted.
(** More than the literals are read: exponents, underscores, a sign after the point. *)
Theorem C61_only_literals_refuted : forall s, In s [lit "1e5"; lit "1_0.5"; lit ".-5"] ->
  (exists d, decimal_from_str s = Ok d) /\ forall q, ~ xsd_decimal s q.
Proof.
  intros s I. split.
  - destruct I as [<-|[<-|[<-|[]]]]; eexists; vm_compute; reflexivity.
  - intros q H. destruct I as [<-|[<-|[<-|[]]]].
    + specialize (xsd_decimal_chars _ _ H 101 ltac:(vm_compute; auto 10)). discriminate.
    + specialize (xsd_decimal_chars _ _ H 95 ltac:(vm_compute; auto 10)). discriminate.
    + assert (U : forall a q, unsigned_decimal a q -> ~ In 45 a).
      { intros a q' Ha J. assert (A : forall b n, num b n -> ~ In 45 b).
        { intros b n Hn Jn. apply num_digits in Hn. rewrite forallb_forall in Hn. specialize (Hn 45 Jn). discriminate. }
        inversion Ha; subst; try ((eapply A; [|exact J]; eassumption)).
        - apply in_app_or in J as [J|[J|[]]]; [(eapply A; [|exact J]; eassumption)|discriminate].
        - apply in_app_or in J as [J|[J|J]]; try discriminate; (eapply A; [|exact J]; eassumption).
        - destruct J as [J|J]; [discriminate|(eapply A; [|exact J]; eassumption)]. }
      inversion H as [a q' Ua E|a q' Ua E|a q' Ua E]; try discriminate. subst. apply (U _ _ Ua). vm_compute. auto.
Qed.
Print Assumptions C61_only_literals_refuted.

(** C61: what is written is read back as it was, mantissa and scale, in elements too; for
    every number of zeros at which the exponential form sets in. *)
Theorem C61_round_trip : forall t i k, (- 2 ^ 63 <= k < 2 ^ 63)%Z -> (Z.of_nat (List.length (dec (Z.abs_N i))) < 2 ^ 64)%Z ->
  decimal_from_str (decimal_display t {| mantissa := i; scale := k |}) = Ok {| mantissa := i; scale := k |}.
Proof. exact decimal_round. Qed.
Print Assumptions C61_round_trip.
Theorem C61_element_round_trip : forall t d name start_name more,
  fst (default_deserialize decimal_from_str (channel (default_serialize (decimal_display t) name start_name false d) ++ more)) =
    decimal_from_str (decimal_display t d).
Proof.
  intros. rewrite serde_round. rewrite xml_trim_id; [reflexivity|]. apply display_untrimmed.
Qed.
Print Assumptions C61_element_round_trip.
(** What is written is a literal of xs:decimal, and of the right value, exactly if the scale is
    neither negative nor more than the number of digits plus the threshold. *)
Theorem C61_written_literal : forall t i k,
  let text := decimal_display t {| mantissa := i; scale := k |} in
  let plain := (0 <= k <= Z.of_nat (List.length (dec (Z.abs_N i))) + Z.of_N t)%Z in
  (plain <-> exists q, xsd_decimal text q) /\
  (plain -> exists q, xsd_decimal text q /\ (q == decimal_value i k)%Q).
Proof. exact display_lexical. Qed.
Print Assumptions C61_written_literal.
(** Hence a literal may be written back as a text that is none; the threshold is 5 by default. *)
Theorem C61_written_literal_refuted : exists s d q, xsd_decimal s q /\ decimal_from_str s = Ok d /\
  decimal_display 5 d = lit "1E-7" /\ forall q', ~ xsd_decimal (decimal_display 5 d) q'.
Proof.
  exists (lit "0.0000001"), {| mantissa := 1; scale := 7 |}. eexists. split; [|split; [vm_compute; reflexivity|split; [vm_compute; reflexivity|]]].
  - apply decimal_plain. apply (decimal_both (lit "0") 0 (lit "0000001") 1); apply num_iff; repeat split; discriminate.
  - intros q' H. assert (X : exists q, xsd_decimal (decimal_display 5 {| mantissa := 1; scale := 7 |}) q) by eauto.
    apply (proj1 (C61_written_literal 5 1 7)) in X. vm_compute in X. destruct X as [_ X]. apply X. reflexivity.
Qed.
Print Assumptions C61_written_literal_refuted.
Example C61_ex1 : map decimal_from_str [lit "+0.01234"; lit "-12.34"; lit "12."; lit "."; lit ""; lit "-"; lit "1.5e-3"; lit "1e"; lit "0x1"] =
  [Ok {| mantissa := 1234; scale := 5 |}; Ok {| mantissa := -1234; scale := 2 |}; Ok {| mantissa := 12; scale := 0 |}; Err; Err; Err;
   Ok {| mantissa := 15; scale := 4 |}; Err; Err].
Proof. vm_compute. reflexivity. Qed.
Example C61_ex2 : map (decimal_display 5) [{| mantissa := 1234; scale := 5 |}; {| mantissa := -1234; scale := 2 |}; {| mantissa := 0; scale := 2 |};
    {| mantissa := 12; scale := -3 |}; {| mantissa := -1; scale := 6 |}; {| mantissa := 123; scale := 9 |}] =
  [lit "0.01234"; lit "-12.34"; lit "0.00"; lit "1.2E+4"; lit "-0.000001"; lit "1.23E-7"].
Proof. vm_compute. reflexivity. Qed.
