(** The library types and the built-in types they stand for: properties. *)
From Coq Require Import Arith NArith ZArith QArith Bool Ascii String List Permutation Lia.
From Coq Require Import Floats.SpecFloat.
From Verif Require Import Str SpecLex SpecDate SpecDur SpecBigDec SpecNames SpecBuiltin Serde SpecSerde SerdeProofs Ints Prim Tz GTypes GProofs DateTime DateProofs Dur DurProofs Order OrderProofs BigDec BigDecProofs Xml Names NamesProofs Entity Parser SpecSchema SpecLink Link Gen SpecRust SpecGen SpecCheck SpecDoc SpecScope SpecTraits SpecSize SpecDistinct SpecFit SpecValue SpecLibrary DistinctProofs2 ValueProofs ValueLib LibraryProofs PropsParser PropsLink PropsGen PropsDoc PropsScope PropsTraits PropsSize PropsDistinct PropsMembers PropsFit PropsWrite PropsValue.
From Verif Require StrFacts ParserProofs GenProofs SpecDouble Float DisplayProofs.
Import ListNotations.
Local Open Scope string_scope.
Local Open Scope list_scope.
Local Open Scope N_scope.
Notation concat := List.concat.
Notation atom := SpecLibrary.atom.

(** The years chrono supports. *)
Definition chrono_years (lo hi : Z) : Prop := (lo <= 0 /\ 9999 <= hi /\ - (2 ^ 63 - 1) <= lo /\ hi <= 2 ^ 63 - 1)%Z.

(** C73: the library types read every text of the built-in types but for the exceptions stated
    (SpecLibrary.faithful) with its value, and write every value as such a text. *)
Theorem C73_complete : forall lo hi chk words l, chrono_years lo hi -> In l texted ->
  complete atom (text words) (library_read lo hi chk) (library_show chk) (lit l).
Proof. intros lo hi chk words l (A & B & C & D) I. apply library_complete; auto. Qed.
Print Assumptions C73_complete.
(** Of these types they read nothing else. *)
Theorem C73_exact : forall lo hi chk words l, In l exacted -> exact atom (text words) (library_read lo hi chk) (lit l).
Proof. exact library_exact. Qed.
Print Assumptions C73_exact.

(** How Rust compares: numbers and decimals by value (BigInt and BigDecimal are not modelled),
    moments and durations as in Order.v, texts in some way. *)
Definition library_cmp (text_cmp : str -> str -> option comparison) (a b : atom) : option comparison :=
  match a, b with
  | VText s, VText t => text_cmp s t
  | VDuration n y mo d h m s, VDuration n' y' mo' d' h' m' s' =>
      dur_cmp {| d_neg := n; d_years := y; d_months := mo; d_days := d; d_hours := h; d_minutes := m; d_seconds := s |}
              {| d_neg := n'; d_years := y'; d_months := mo'; d_days := d'; d_hours := h'; d_minutes := m'; d_seconds := s' |}
  | VDateTime y mo d h m s n (Some z), VDateTime y' mo' d' h' m' s' n' (Some z') =>
      dt_cmp {| dt_date := {| n_year := y; n_month := mo; n_day := d |}; dt_time := {| n_hour := h; n_min := m; n_sec := s; n_nano := n |}; dt_off := z |}
             {| dt_date := {| n_year := y'; n_month := mo'; n_day := d' |}; dt_time := {| n_hour := h'; n_min := m'; n_sec := s'; n_nano := n' |}; dt_off := z' |}
  | VDouble v, VDouble w => Float.f64_cmp v w
  | _, _ => atom_order a b
  end.
Lemma library_cmp_order text_cmp a b c : atom_order a b = Some c -> library_cmp text_cmp a b = Some c.
Proof.
  destruct a, b; cbn [atom_order library_cmp]; try discriminate; auto;
    try match goal with |- (if SpecDouble.valueb _ ?v && SpecDouble.valueb _ ?w then _ else _) = _ -> _ =>
      destruct (SpecDouble.valueb SpecDouble.binary64 v) eqn:A; [|discriminate]; destruct (SpecDouble.valueb SpecDouble.binary64 w) eqn:B; [|discriminate]; intros E; rewrite <- E; apply DisplayProofs.cmp_order; apply DisplayProofs.valueb_iff; auto end;
    destruct tz as [z1|]; try discriminate. destruct tz0 as [z2|]; [|discriminate].
  destruct (proper_moment _ _ _ _ _ _ _ z1) eqn:A; [|discriminate]. destruct (proper_moment _ _ _ _ _ _ _ z2) eqn:B; [|discriminate]. intros E. rewrite <- E.
  rewrite moment_order; unfold proper, when; cbn [dt_date dt_time dt_off n_year n_month n_day n_hour n_min n_sec n_nano andb]; [reflexivity|exact A|exact B].
Qed.
Lemma strict_ok lo hi chk words T : plain_strict T -> strict atom (text words) (library_read lo hi chk) T.
Proof. induction T as [l|B IH fs|nm E _|Ts]; cbn; auto; [intros (n & -> & I); apply library_exact; auto|intros [H ->]; auto]. Qed.
Lemma text_one words pattern digits l : In (l, SText) xsd_builtins -> one_text atom (text words) atom_order atom_size pattern digits (TBuiltin l).
Proof.
  intros I s s' x (a & [A _] & ->) (b & [B _] & E). injection E as <-.
  assert (X : forall s a, literal words l s a -> a = VText s).
  { intros r c C. assert (N : forall n, In n ["boolean"; "decimal"; "date"; "time"; "dateTime"; "dateTimeStamp"; "duration"; "gDay"; "gMonth"; "gMonthDay"; "gYear"; "gYearMonth"; "double"] -> l <> lit n).
    { intros n J ->. assert (X : forallb (fun l => forallb (fun x => match snd x with SText => negb (str_eqb (fst x) (lit l)) | _ => true end) xsd_builtins) ["boolean"; "decimal"; "date"; "time"; "dateTime"; "dateTimeStamp"; "duration"; "gDay"; "gMonth"; "gMonthDay"; "gYear"; "gYearMonth"; "double"] = true) by (vm_compute; reflexivity).
      rewrite forallb_forall in X. specialize (X n J). rewrite forallb_forall in X. specialize (X _ I). cbn [fst snd] in X. rewrite StrFacts.str_eqb_refl in X. discriminate X. }
    destruct C as [K W|lo2 hi2 z J X R|b0 E J|i k E X|y m d tz E X|h m sec tz E X|y mo d h m sec nano tz E X|y mo d h m sec nano z E X|w E X|ds n t tz E E2 D B0 Z0|ds n t tz E E2 D B0 Z0|ms ds m d t tz E E2 M D B1 B2 Dm Z0|ys y t tz E E2 Y Z0|ys y ms m t tz E E2 Y M B0 Z0|v E X]; auto; exfalso;
      try (assert (Q := one_space _ _ _ I J); discriminate Q); (eapply N; [|exact E]; cbn; tauto). }
  rewrite (X _ _ A) in B. specialize (X _ _ B). congruence.
Qed.
Lemma plain_regular lo hi chk words pattern digits u T : chrono_years lo hi -> plain_simple u T ->
  regular_simple atom (text words) atom_order atom_size pattern digits u (library_read lo hi chk) (library_show chk) T.
Proof.
  intros C. induction T as [l|B IH fs|nm E IH|Ts IH] using stype_ind'; intros P.
  - destruct P as (n & -> & I). apply C73_complete; auto.
  - destruct P as [(En & l & -> & I)|(En & P & Q & R)]; [left|right]; [split; auto; apply text_one; auto|auto].
  - destruct P as (P & Q & R & S). cbn. auto.
  - revert IH P. induction Ts as [|U r IHr]; intros IH P; [exact P|]. inversion IH; subst. destruct P as (P1 & P2 & P3 & P4). split; [auto|]. split; [auto|]. split; [intros Hr; apply strict_ok; auto|]. apply IHr; auto.
Qed.

(** With these library types C70 holds without premises about the library: take a simple type
    made of built-in types other than xs:float and lists. *)
Theorem C73_values : forall lo hi chk words text_cmp pattern digits u roots schema f its, chrono_years lo hi ->
  document roots schema -> ok_schema schema -> tidy schema -> parse u roots = Ok f ->
  (forall x, part x schema -> orderly u schema (ns_prefix (rf_target_ns f)) (ns_prefix (rf_xsd_ns f)) x) ->
  separate_types schema (type_name_of u f) (format_name u) -> file_items u f (rf_types f) its ->
  forall T path q, plain_simple u T -> refers schema (ns_prefix (rf_target_ns f)) (ns_prefix (rf_xsd_ns f)) q T ->
    handles atom (text words) atom_order atom_size pattern digits u (library_read lo hi chk) (library_show chk) (library_cmp text_cmp) library_len (concat (map (placed []) its)) path (type_name_of u f q) T.
Proof.
  intros lo hi chk words text_cmp pattern digits u roots schema f its Y Do O T H Or Sep It Ty path q Rg Re.
  exact (proj1 (C70_values _ _ _ _ _ _ _ _ _ _ (library_cmp_order text_cmp) u roots schema f its Do O T H Or Sep It Ty path (plain_regular _ _ _ _ _ _ _ _ Y Rg)) q Re).
Qed.
Print Assumptions C73_values.

(** ** The exceptions are needed *)
Lemma num_ok s n : forallb is_ascii_digit s = true -> s <> [] -> digits_val s = n -> num s n.
Proof. intros A B C. apply TzProofs.num_iff. auto. Qed.
Ltac number := apply num_ok; [reflexivity|discriminate|reflexivity].
Ltac two_digits := split; [number|reflexivity].
Ltac year := constructor; [number|apply Nat.leb_le; reflexivity|lia].
(** A literal of the type that is not read, or not with its value, or whose value is written as
    no literal of it. *)
Definition misread (lo hi : Z) (chk : bool) (words : str -> str -> Prop) (l : str) (t : string) : Prop :=
  assoc l built_in_table = Some (lit t) /\
  exists s a, literal words l s a /\
    (library_read lo hi chk t s <> Some a \/ forall b, ~ literal words l (library_show chk t a) b).
Theorem C73_exceptions_refuted : forall lo hi chk words, let misread := misread lo hi chk words in
  misread (lit "boolean") "bool" /\ misread (lit "unsignedInt") "u32" /\ misread (lit "decimal") "xs::Decimal" /\
  misread (lit "date") "xs::Date" /\ misread (lit "time") "xs::Time" /\ misread (lit "dateTime") "xs::DateTime" /\
  misread (lit "duration") "xs::Duration" /\ misread (lit "gYear") "xs::GYear" /\ misread (lit "gYearMonth") "xs::GYearMonth" /\ misread (lit "double") "f64".
Proof.
  intros lo hi chk words m. subst m. repeat match goal with |- misread _ _ _ _ _ _ /\ _ => split end; unfold misread; (split; [reflexivity|]).
  - exists (lit "1"), (VBool true). split; [constructor; [reflexivity|right; left; reflexivity]|left; discriminate].
  - exists (lit "-0"), (VNumber 0). split; [|left; vm_compute; discriminate].
    apply (l_integer words _ _ (Some 0%Z) (Some 4294967295%Z)); [vm_compute; tauto|apply (xsd_int_minus (lit "0") 0); number|split; lia].
  - exists (lit "0.0000001"), (VDecimal 1 7). split.
    + constructor; [reflexivity|]. eexists. split; [|split].
      * apply decimal_plain. apply (decimal_both (lit "0") 0 (lit "0000001") 1); number.
      * reflexivity.
      * right. exists (lit "0"), (lit "0000001"). split; [reflexivity|]. split; [intros [E|[]]; discriminate E|reflexivity].
    + right. intros b L. assert (X : exists q, xsd_decimal (decimal_display 5 {| mantissa := 1; scale := 7 |}) q).
      { remember (lit "decimal") as l eqn:El. change (library_show chk "xs::Decimal" (VDecimal 1 7)) with (decimal_display 5 {| mantissa := 1; scale := 7 |}) in L.
        destruct L as [K W|lo2 hi2 z J X R|b0 E J|i k E X|y m d tz E X|h m sec tz E X|y mo d h m sec nano tz E X|y mo d h m sec nano z E X|w E X|ds n t tz E E2 D B0 Z0|ds n t tz E E2 D B0 Z0|ms ds m d t tz E E2 M D B1 B2 Dm Z0|ys y t tz E E2 Y Z0|ys y ms m t tz E E2 Y M B0 Z0|v E X];
          subst l; try discriminate E.
        - exfalso. destruct K as [K|K]; assert (Q := one_space _ _ _ K ltac:(right; right; left; reflexivity)); discriminate Q.
        - exfalso. assert (Q := one_space _ _ _ J ltac:(right; right; left; reflexivity)); discriminate Q.
        - destruct X as (q & X & _). eauto. }
      apply (proj1 (display_lexical 5 1 7)) in X. unfold plain_scale in X. replace (List.length (dec (Z.abs_N 1))) with 1%nat in X by reflexivity. lia.
  - exists (lit "12020-03-15"), (VDate 12020 3 15 None). split; [|left; vm_compute; discriminate].
    constructor; [reflexivity|]. exists (lit "12020"), (lit "03"), (lit "15"), [], 3, 15. split; [reflexivity|]. split; [apply (year_pos (lit "12020") 12020); [number|apply Nat.leb_le; reflexivity|lia]|].
    split; [two_digits|]. split; [two_digits|]. split; [reflexivity|]. split; [reflexivity|]. split; [vm_compute; repeat split; discriminate|constructor].
  - exists (lit "24:00:00"), (VTime 24 0 0 None). split; [|left; vm_compute; discriminate].
    constructor; [reflexivity|]. exists (lit "24"), (lit "00"), (lit "00"), [], [], 24, 0, 0. split; [reflexivity|]. split; [two_digits|]. split; [two_digits|]. split; [two_digits|]. split; [constructor|]. split; [constructor|]. cbn. lia.
  - exists (lit "2020-01-01T00:00:00"), (VDateTime 2020 1 1 0 0 0 0 None). split.
    + constructor; [reflexivity|]. exists (lit "2020-01-01"), (lit "00:00:00"). split; [reflexivity|]. split.
      * exists (lit "2020"), (lit "01"), (lit "01"), [], 1, 1. split; [reflexivity|]. split; [apply (year_pos (lit "2020") 2020); [number|apply Nat.leb_le; reflexivity|lia]|].
        split; [two_digits|]. split; [two_digits|]. split; [reflexivity|]. split; [reflexivity|]. split; [vm_compute; repeat split; discriminate|constructor].
      * exists (lit "00"), (lit "00"), (lit "00"), [], [], 0, 0, 0. split; [reflexivity|]. split; [two_digits|]. split; [two_digits|]. split; [two_digits|]. split; [constructor|]. split; [constructor|]. cbn. lia.
    + left. change (outcome (datetime_from_str lo hi (lit "2020-01-01T00:00:00")) datetime_atom <> Some (VDateTime 2020 1 1 0 0 0 0 None)). destruct (datetime_from_str _ _ _); discriminate.
  - set (w := {| l_neg := false; l_years := Some 18446744073709551616; l_months := None; l_days := None; l_hours := None; l_minutes := None; l_sec := None |}).
    exists (lit "P18446744073709551616Y"), (VDuration (l_neg w) (comp (l_years w)) (comp (l_months w)) (comp (l_days w)) (comp (l_hours w)) (comp (l_minutes w)) (sec_value (l_sec w))). split.
    + constructor; [reflexivity|]. exists (lit "18446744073709551616Y"), [], [], []. split; [reflexivity|]. split; [apply (oc_some _ (lit "18446744073709551616")); number|]. do 2 (split; [constructor|]). apply time_absent; [repeat split|intros (E & _); discriminate E].
    + left. destruct chk; vm_compute; discriminate.
  - exists (lit "2147483648"), (VGYear 2147483648 None). split; [|left; vm_compute; discriminate].
    apply (l_gyear words _ _ (lit "2147483648") _ []); [reflexivity|rewrite app_nil_r; reflexivity| |constructor]. apply (any_year_pos (lit "2147483648") 2147483648); [number|apply Nat.leb_le; reflexivity|lia].
  - exists (lit "2147483648-05"), (VGYearMonth 2147483648 5 None). split; [|left; vm_compute; discriminate].
    apply (l_gyearmonth words _ _ (lit "2147483648") _ (lit "05") 5 []); [reflexivity|reflexivity| |two_digits|lia|constructor]. apply (any_year_pos (lit "2147483648") 2147483648); [number|apply Nat.leb_le; reflexivity|lia].
  - exists (lit "INF"), (VDouble (S754_infinity false)). split; [apply l_double; [reflexivity|constructor]|right]. intros b L. change (library_show chk "f64" (VDouble (S754_infinity false))) with (lit "inf") in L.
    assert (X : exists v, SpecDouble.xsd_double (lit "inf") v); [|destruct X as [v X]; revert X; apply DisplayProofs.no_literal; reflexivity].
    remember (lit "double") as l eqn:El.
    destruct L as [K W|lo2 hi2 z J X R|b0 E J|i k E X|y m d tz E X|h m sec tz E X|y mo d h m sec nano tz E X|y mo d h m sec nano z E X|w E X|ds n t tz E E2 D B0 Z0|ds n t tz E E2 D B0 Z0|ms ds m d t tz E E2 M D B1 B2 Dm Z0|ys y t tz E E2 Y Z0|ys y ms m t tz E E2 Y M B0 Z0|v E X];
      subst l; try discriminate E.
    + exfalso. destruct K as [K|K]; assert (Q := one_space _ _ _ K ltac:(do 4 right; left; reflexivity)); discriminate Q.
    + exfalso. assert (Q := one_space _ _ _ J ltac:(do 4 right; left; reflexivity)); discriminate Q.
    + eauto.
Qed.
Print Assumptions C73_exceptions_refuted.

(** ** C74: the order of durations *)
(** Durations without sign, in normal form (months below 12, days below 28, hours below 24, and
    so on, whole seconds), are compared as XML Schema says. *)
Theorem C74_order : forall a b s t, normal a s -> normal b t ->
  (dur_cmp a b = Some Lt <-> shorter (dspan a s) (dspan b t)) /\ (dur_cmp a b = Some Gt <-> shorter (dspan b t) (dspan a s)) /\
  (dur_cmp a b = Some Eq <-> dspan a s = dspan b t).
Proof. exact duration_order. Qed.
Print Assumptions C74_order.
(** Comparing any two durations the other way round gives the opposite. *)
Theorem C74_antisymmetric : forall a b, dur_cmp b a = option_map CompOpp (dur_cmp a b).
Proof. exact dur_antisym. Qed.
Print Assumptions C74_antisymmetric.
(** Moments with time zones are compared as such. *)
Theorem C74_moments : forall a b, OrderProofs.proper a -> OrderProofs.proper b -> dt_cmp a b = Some (Z.compare (OrderProofs.when a) (OrderProofs.when b)).
Proof. exact moment_order. Qed.
Print Assumptions C74_moments.

(** One field of a duration. *)
Definition part_of (neg : bool) (y mo d h : N) : duration := {| d_neg := neg; d_years := y; d_months := mo; d_days := d; d_hours := h; d_minutes := 0; d_seconds := b64_of_N 0 |}.
Ltac shorter_check := intros r I; cbn [references In] in I; repeat (destruct I as [<-|I]; [vm_compute; reflexivity|]); destruct I.
(** Not so with a sign, and not if a field is too large: -P1D is shorter than P1D, P1D than PT36H,
    P1M than P40D, P1Y is P12M. *)
Theorem C74_refuted :
  (shorter (dspan (part_of true 0 0 1 0) 0) (dspan (part_of false 0 0 1 0) 0) /\ dur_cmp (part_of true 0 0 1 0) (part_of false 0 0 1 0) = Some Gt) /\
  (shorter (dspan (part_of true 0 0 2 0) 0) (dspan (part_of true 0 0 1 0) 0) /\ dur_cmp (part_of true 0 0 2 0) (part_of true 0 0 1 0) = Some Gt) /\
  (shorter (dspan (part_of false 0 0 1 0) 0) (dspan (part_of false 0 0 0 36) 0) /\ dur_cmp (part_of false 0 0 1 0) (part_of false 0 0 0 36) = Some Gt) /\
  (shorter (dspan (part_of false 0 1 0 0) 0) (dspan (part_of false 0 0 40 0) 0) /\ dur_cmp (part_of false 0 1 0 0) (part_of false 0 0 40 0) = Some Gt) /\
  (dspan (part_of false 1 0 0 0) 0 = dspan (part_of false 0 12 0 0) 0 /\ dur_cmp (part_of false 1 0 0 0) (part_of false 0 12 0 0) = Some Gt).
Proof. repeat split; try shorter_check; reflexivity. Qed.
Print Assumptions C74_refuted.
(** In fact every duration with a sign is taken to be longer than every duration without. *)
Theorem C74_signs_refuted : forall a b, d_neg a = true -> d_neg b = false -> dur_cmp a b = Some Gt /\ dur_cmp b a = Some Lt.
Proof. exact dur_signs. Qed.
Print Assumptions C74_signs_refuted.

(** ** Documents *)
Section Told.
Context (lo hi : Z) (chk : bool) (text_cmp : str -> str -> option comparison) (u : uni).
Definition lib_read_as (P : list (list str * item)) : list token -> str -> rval atom -> Prop := reads atom u P (library_read lo hi chk) [].
Definition lib_accepted (P : list (list str * item)) : list token -> rval atom -> Prop := accepts atom u P (library_read lo hi chk) (library_cmp text_cmp) library_len [].
Definition lib_written : rval atom -> str := shown atom (library_show chk).
End Told.
(** A bound on durations: what is longer is accepted, what is shorter is rejected. *)
Definition shift : node := sch [restricted "Shift" "xs:duration" [facet_node "maxInclusive" "P1D"]].
Theorem C74_bound_refuted : forall lo hi chk text_cmp u,
  told u shift "tt:Shift" (TRestriction (TBuiltin (lit "duration")) [FMaxInclusive (lit "P1D")]) (fun P t =>
    shorter (span_of false 0 0 1 0 0 0) (span_of false 0 0 0 36 0 0) /\ shorter (span_of true 0 0 1 0 0 0) (span_of false 0 0 1 0 0 0) /\
    (exists v, lib_read_as lo hi chk u P t (lit "PT36H") v /\ lib_accepted lo hi chk text_cmp u P t v) /\
    (exists v, lib_read_as lo hi chk u P t (lit "-P1D") v /\ ~ lib_accepted lo hi chk text_cmp u P t v)).
Proof.
  intros lo hi chk text_cmp u. tell shift.
  - refers_declared ltac:(left; reflexivity). restricts ltac:(refers_builtin "duration").
  - split; [shorter_check|]. split; [shorter_check|]. split.
    + exists (RNew atom (RLib atom "xs::Duration" (VDuration false 0 0 0 36 0 (b64_of_N 0)))). split.
      * read_tuple ltac:(tuple_of ltac:(is_library "xs::Duration")).
      * eapply accepts_tuple; [names_item|right; left; reflexivity| |reflexivity]. intros k op x ty I Ec. cbn [In] in I. repeat (destruct I as [<-|I]; [try discriminate Ec; injection Ec as <- <- <-; reflexivity|]). destruct I.
    + exists (RNew atom (RLib atom "xs::Duration" (VDuration true 0 0 1 0 0 (b64_of_N 0)))). split.
      * read_tuple ltac:(tuple_of ltac:(is_library "xs::Duration")).
      * intros A. eapply tuple_checked in A; [|apply unshadowed_check; vm_compute; reflexivity|lone|names_item|right; left; reflexivity]. vm_compute in A. discriminate A.
Qed.
Print Assumptions C74_bound_refuted.

(** Prices, days, and years or days: a document under the conditions of C73. *)
Definition shop : node := sch
  [ restricted "Price" "xs:decimal" [facet_node "minInclusive" "0"; facet_node "maxInclusive" "99.90"];
    list_type "Days" "xs:date";
    union_type "When" "xs:gYear xs:date";
    restricted "Since" "xs:dateTime" [facet_node "minInclusive" "2020-01-01T00:00:00Z"] ].
Definition price : stype := TRestriction (TBuiltin (lit "decimal")) [FMinInclusive (lit "0"); FMaxInclusive (lit "99.90")].
Definition since : stype := TRestriction (TBuiltin (lit "dateTime")) [FMinInclusive (lit "2020-01-01T00:00:00Z")].
Ltac plain n := exists n; split; [reflexivity|cbn; tauto].
Example C73_ex1 : forall u, plain_simple u price /\ plain_simple u (TList true (TBuiltin (lit "date"))) /\ plain_simple u (TUnion [TBuiltin (lit "gYear"); TBuiltin (lit "date")]) /\ plain_simple u since.
Proof.
  intros u. split; [|split; [|split]].
  - right. split; [apply unlisted; reflexivity|]. split; [plain "decimal"|]. split; [exact I|]. intros _. eexists. reflexivity.
  - split; [plain "date"|]. split; [exact I|]. split; [exact I|discriminate].
  - split; [plain "gYear"|]. split; [exact I|]. split; [intros _; plain "gYear"|]. split; [plain "date"|]. split; [exact I|]. split; [congruence|exact I].
  - right. split; [apply unlisted; reflexivity|]. split; [plain "dateTime"|]. split; [exact I|]. intros _. eexists. reflexivity.
Qed.
Ltac check_bounds := let k := fresh in let op := fresh in let x := fresh in let ty := fresh in let I := fresh in let Ec := fresh in
  intros k op x ty I Ec; cbn [In] in I; repeat (destruct I as [<-|I]; [try discriminate Ec; injection Ec as <- <- <-; reflexivity|]); destruct I.
(** "10.50" is a price, read, accepted and written "10.50"; "100" is rejected; "2020-02-29Z  2021-01-01"
    is written "2020-02-29+00:00 2021-01-01"; "2021-12-24" is no year, and read as a day; midnight
    in Berlin is before midnight in UTC. *)
Example C73_ex2 : forall chk text_cmp,
  told u2 shop "tt:Price" price (fun P t =>
    (exists v, lib_read_as (-9999) 9999 chk u2 P t (lit "10.50") v /\ lib_accepted (-9999) 9999 chk text_cmp u2 P t v /\ lib_written chk v = lit "10.50") /\
    exists v, lib_read_as (-9999) 9999 chk u2 P t (lit "100") v /\ ~ lib_accepted (-9999) 9999 chk text_cmp u2 P t v) /\
  told u2 shop "tt:Days" (TList true (TBuiltin (lit "date"))) (fun P t =>
    exists v, lib_read_as (-9999) 9999 chk u2 P t (lit "2020-02-29Z  2021-01-01") v /\ lib_written chk v = lit "2020-02-29+00:00 2021-01-01") /\
  told u2 shop "tt:When" (TUnion [TBuiltin (lit "gYear"); TBuiltin (lit "date")]) (fun P t =>
    lib_read_as (-9999) 9999 chk u2 P t (lit "2021-12-24") (RCase atom (RLib atom "xs::Date" (VDate 2021 12 24 None)))) /\
  told u2 shop "tt:Since" since (fun P t =>
    exists v, lib_read_as (-9999) 9999 chk u2 P t (lit "2020-01-01T00:00:00+01:00") v /\ ~ lib_accepted (-9999) 9999 chk text_cmp u2 P t v).
Proof.
  intros chk text_cmp. split; [|split; [|split]]; tell shop.
  - refers_declared ltac:(left; reflexivity). restricts ltac:(refers_builtin "decimal").
  - split.
    + exists (RNew atom (RLib atom "xs::Decimal" (VDecimal 1050 2))). split; [read_tuple ltac:(tuple_of ltac:(is_library "xs::Decimal"))|]. split; [|reflexivity].
      eapply accepts_tuple; [names_item|right; left; reflexivity|check_bounds|reflexivity].
    + exists (RNew atom (RLib atom "xs::Decimal" (VDecimal 100 0))). split; [read_tuple ltac:(tuple_of ltac:(is_library "xs::Decimal"))|].
      intros A. eapply tuple_checked in A; [|apply unshadowed_check; vm_compute; reflexivity|lone|names_item|right; left; reflexivity]. vm_compute in A. discriminate A.
  - refers_declared ltac:(right; left; reflexivity). eapply de_list; [only_here|reflexivity|reflexivity|refers_builtin "date"].
  - set (a := RLib atom "xs::Date" (VDate 2020 2 29 (Some 0%Z))). set (b := RLib atom "xs::Date" (VDate 2021 1 1 None)).
    exists (RNew atom (RVec atom [a; b])). split; [|reflexivity].
    read_tuple idtac. eapply (from_vector _ _ _ _ _ _ _ _ _ _ (rust u2 "xs::Date") _ _ [Some a; Some b]); [names_item|derived_tuple|apply (tokens_total (lit "2020-02-29Z  2021-01-01"))|].
    constructor; [is_library "xs::Date"|]. constructor; [is_library "xs::Date"|constructor].
  - refers_declared ltac:(do 2 right; left; reflexivity). eapply (de_union _ _ _ _ _ [lit "xs:gYear"; lit "xs:date"] [_; _] []); [only_here|reflexivity|apply (ParserProofs.blank_tokens_ok (lit "xs:gYear xs:date"))| |constructor].
    constructor; [refers_builtin "gYear"|]. constructor; [refers_builtin "date"|constructor].
  - eapply (reads_union _ _ _ _ _ _ _ _ _ _ _ [_]); [names_item|eexists; split; [left; reflexivity|cbn; tauto]|reflexivity| |discriminate|reflexivity|is_library "xs::Date"].
    intros w [<-|[]]. right. eexists. split; [reflexivity|is_library "xs::GYear"].
  - refers_declared ltac:(do 3 right; left; reflexivity). restricts ltac:(refers_builtin "dateTime").
  - exists (RNew atom (RLib atom "xs::DateTime" (VDateTime 2020 1 1 0 0 0 0 (Some 3600%Z)))). split; [read_tuple ltac:(tuple_of ltac:(is_library "xs::DateTime"))|].
    intros A. eapply tuple_checked in A; [|apply unshadowed_check; vm_compute; reflexivity|lone|names_item|do 8 right; left; reflexivity]. vm_compute in A. discriminate A.
Qed.
(** P1Y2M3DT4H5M6S is longer than P1Y2M3DT4H5M5S. *)
Example C74_ex1 : let a := {| d_neg := false; d_years := 1; d_months := 2; d_days := 3; d_hours := 4; d_minutes := 5; d_seconds := b64_of_N 6 |} in
  let b := {| d_neg := false; d_years := 1; d_months := 2; d_days := 3; d_hours := 4; d_minutes := 5; d_seconds := b64_of_N 5 |} in
  normal a 6 /\ normal b 5 /\ dur_cmp a b = Some Gt.
Proof. cbv zeta. unfold normal. cbn [d_neg d_months d_days d_hours d_minutes d_seconds]. repeat split; try lia. Qed.
(** 2020-03-01T00:30 at +01:00 is before 2020-02-29T23:45 at UTC. *)
Example C74_ex2 : let a := {| dt_date := {| n_year := 2020; n_month := 3; n_day := 1 |}; dt_time := {| n_hour := 0; n_min := 30; n_sec := 0; n_nano := 0 |}; dt_off := 3600 |} in
  let b := {| dt_date := {| n_year := 2020; n_month := 2; n_day := 29 |}; dt_time := {| n_hour := 23; n_min := 45; n_sec := 0; n_nano := 0 |}; dt_off := 0 |} in
  OrderProofs.proper a /\ OrderProofs.proper b /\ dt_cmp a b = Some Lt.
Proof. repeat split; reflexivity. Qed.
