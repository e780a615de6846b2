(** Property theorems C75: instances with their values, from the text to the text. *)
From Coq Require Import Arith NArith ZArith QArith Bool Ascii String List Permutation Lia.
From Coq Require Import Floats.SpecFloat.
From Verif Require Import Str SpecLex SpecDate SpecDur SpecBigDec SpecNames SpecBuiltin Serde SpecSerde SerdeProofs Ints Prim Tz GTypes GProofs DateTime DateProofs Dur DurProofs Order OrderProofs BigDec BigDecProofs Xml Names NamesProofs Entity Parser SpecSchema SpecLink Link Gen SpecRust SpecGen SpecCheck SpecDoc SpecScope SpecTraits SpecSize SpecDistinct SpecFit SpecWrite SpecValue SpecTrip SpecLibrary DistinctProofs2 FitProofs2 ValueProofs TripProofs ValueLib LibraryProofs PropsParser PropsLink PropsGen PropsDoc PropsScope PropsTraits PropsSize PropsDistinct PropsMembers PropsFit PropsWrite PropsValue PropsLibrary.
From Verif Require StrFacts ParserProofs GenProofs TraitProofs.
Import ListNotations.
Local Open Scope string_scope.
Local Open Scope list_scope.
Local Open Scope N_scope.
Notation concat := List.concat.
Notation atom := SpecLibrary.atom.
Notation tt := (Some (lit "tt")).
Notation xs := (Some (lit "xs")).
Notation letter := PropsWrite.letter.

(** C75: take an instance that is valid after XML Schema, its complex types being regular (C68)
    and its texts literals of simple types the generated code is right about (C70).  Then the
    instance fits the generated type, each text being read as exactly one value which passes the
    checks of its type; what was read can be written; whatever is written has for every name the
    same attributes and child elements, with texts of the same values; and if at most one group of
    each type has elements, it is a valid instance of the same type. *)
Theorem C75_round_trip : forall A lexical order size pattern digits lib_read lib_show lib_cmp lib_len,
  (forall a b c, order a b = Some c -> lib_cmp a b = Some c) ->
  (forall x, exists a, lib_read "String" x = Some a /\ lib_show "String" a = x) ->
  forall u roots schema f its, document roots schema -> ok_schema schema -> tidy schema -> parse u roots = Ok f ->
  (forall x, part x schema -> orderly u schema (ns_prefix (rf_target_ns f)) (ns_prefix (rf_xsd_ns f)) x) ->
  separate_types schema (type_name_of u f) (format_name u) -> file_items u f (rf_types f) its ->
  let own := ns_prefix (rf_target_ns f) in let xsd := ns_prefix (rf_xsd_ns f) in
  let P := concat (map (placed []) its) in
  let handled := handled A lexical order size pattern digits u lib_read lib_show lib_len schema own xsd in
  let allowed := allowed A lexical order size pattern digits schema own xsd in
  let same_value := same_value A lexical order size pattern digits schema own xsd in
  let fits := fits u P (understood A u lib_read lib_cmp lib_len P) in
  let written := written u P (shown_again A u lib_read lib_show P) in
  let R := fun t => regular schema own xsd t /\ own_attributes schema own xsd t in
  let R1 := fun t => regular schema own xsd t /\ own_attributes schema own xsd t /\ SpecWrite.one_content schema own xsd t in
  forall T i path t, valid schema own xsd R handled T i ->
    (exists q, type_named schema own xsd q T /\ regular_type xsd q /\ t = type_name_of u f q) \/
    (exists l d, SpecFit.declared schema "element" l d /\ absent d "ref" /\ absent d "type" /\ type_of schema own xsd d T /\ t = type_name_of u f l) ->
    fits path t i /\
    (exists o, written path t i o) /\
    (forall o, written path t i o -> same schema own xsd same_value T i o) /\
    (valid schema own xsd R1 handled T i -> forall o, written path t i o -> valid schema own xsd R1 allowed T o).
Proof. exact document_trip. Qed.
Print Assumptions C75_round_trip.

(** ** With the library types of the repository *)
Lemma library_string lo hi chk x : exists a, library_read lo hi chk "String" x = Some a /\ library_show chk "String" a = x.
Proof. exists (VText x). split; reflexivity. Qed.
(** A text of a simple type that is made of built-in types other than xs:float and lists. *)
Definition plain_text (words : str -> str -> Prop) (pattern : str -> str -> Prop) (digits : facet_type -> atom -> Prop) (u : uni) (schema : node) (own xsd : option str) (s : sref) (x : str) : Prop :=
  exists T v, simple_is schema own xsd s T /\ plain_simple u T /\ patternless T /\ denotes atom (text words) atom_order atom_size pattern digits T x v /\
    (listy T -> xml_spaced x) /\ alike_in_length atom atom_size library_len T v.
Theorem C75_library : forall lo hi chk words text_cmp pattern digits u roots schema f its, chrono_years lo hi ->
  document roots schema -> ok_schema schema -> tidy schema -> parse u roots = Ok f ->
  (forall x, part x schema -> orderly u schema (ns_prefix (rf_target_ns f)) (ns_prefix (rf_xsd_ns f)) x) ->
  separate_types schema (type_name_of u f) (format_name u) -> file_items u f (rf_types f) its ->
  let own := ns_prefix (rf_target_ns f) in let xsd := ns_prefix (rf_xsd_ns f) in
  let P := concat (map (placed []) its) in
  let plain_text := plain_text words pattern digits u schema own xsd in
  let allowed := allowed atom (text words) atom_order atom_size pattern digits schema own xsd in
  let same_value := same_value atom (text words) atom_order atom_size pattern digits schema own xsd in
  let fits := fits u P (understood atom u (library_read lo hi chk) (library_cmp text_cmp) library_len P) in
  let written := written u P (shown_again atom u (library_read lo hi chk) (library_show chk) P) in
  let R := fun t => regular schema own xsd t /\ own_attributes schema own xsd t in
  let R1 := fun t => regular schema own xsd t /\ own_attributes schema own xsd t /\ SpecWrite.one_content schema own xsd t in
  forall T i path t, valid schema own xsd R plain_text T i ->
    (exists q, type_named schema own xsd q T /\ regular_type xsd q /\ t = type_name_of u f q) \/
    (exists l d, SpecFit.declared schema "element" l d /\ absent d "ref" /\ absent d "type" /\ type_of schema own xsd d T /\ t = type_name_of u f l) ->
    fits path t i /\
    (exists o, written path t i o) /\
    (forall o, written path t i o -> same schema own xsd same_value T i o) /\
    (valid schema own xsd R1 plain_text T i -> forall o, written path t i o -> valid schema own xsd R1 allowed T o).
Proof.
  intros lo hi chk words text_cmp pattern digits u roots schema f its Y Do O Td H Or Sep It own xsd P pt al sv ft wr R R1 T i path t V Ht.
  assert (Mono : forall S V', valid schema own xsd S pt V' i -> valid schema own xsd S (handled atom (text words) atom_order atom_size pattern digits u (library_read lo hi chk) (library_show chk) library_len schema own xsd) V' i).
  { intros S V' X. eapply (valid_mono schema f); [| |exact X]; auto. intros s x (T0 & v & A & B & C & D & E & F). exists T0, v. split; [exact A|]. split; [apply plain_regular; auto|]. auto. }
  destruct (C75_round_trip atom (text words) atom_order atom_size pattern digits (library_read lo hi chk) (library_show chk) (library_cmp text_cmp) library_len
    (library_cmp_order text_cmp) (library_string lo hi chk) u roots schema f its Do O Td H Or Sep It T i path t (Mono R T V) Ht) as (G1 & G2 & G3 & G4).
  split; [exact G1|]. split; [exact G2|]. split; [exact G3|]. intros V1. apply G4. apply Mono. exact V1.
Qed.
Print Assumptions C75_library.

(** ** A letter, with its values *)
Definition every (_ _ : str) : Prop := True.
Definition no_digits (_ : facet_type) (_ : atom) : Prop := True.
Notation plain_letters := (plain_text all_texts every no_digits u2 letters tt xs).
Notation trip_here := (fun t => regular letters tt xs t /\ own_attributes letters tt xs t /\ SpecWrite.one_content letters tt xs t).
Lemma own_attributes_ok schema own xsd t gs r : compose schema own xsd 9 t = Some (gs, r) -> forallb (fun a => is_present a "type" || negb (is_present a "ref")) r = true -> own_attributes schema own xsd t.
Proof.
  intros E F s gs' r' C. destruct (compose_ok schema own xsd _ _ _ _ _ C 9 _ _ E) as [_ ->]. apply Forall_forall. intros a I. rewrite forallb_forall in F. specialize (F a I).
  apply orb_true_iff in F as [F|F]; [left; apply is_present_iff; auto|right; apply not_present, negb_true_iff; auto].
Qed.
Ltac own_attributes_check := eapply own_attributes_ok; [vm_compute; reflexivity|vm_compute; reflexivity].
Ltac plain_builtin b := let E := fresh in eexists; eexists; split; [refers_builtin b|]; split; [plain b|]; split; [exact Logic.I|]; split; [|split; [intros []|intros ? ? ? ? E; discriminate E]].
Lemma letter_string x : plain_letters (Named (lit "xs:string")) (lit x).
Proof. plain_builtin "string". exists (VText (lit x)). split; [|reflexivity]. split; [|exact Logic.I]. apply l_text; [left; vm_compute; tauto|exact Logic.I]. Qed.
Lemma letter_int x n z : (x = n \/ x = lit "+" ++ n) -> num n z -> z <= 2147483647 -> plain_letters (Named (lit "xs:int")) x.
Proof.
  intros E Hn L. plain_builtin "int". eexists. split; [|reflexivity]. split.
  - apply (l_integer _ _ _ (Some (-2147483648)%Z) (Some 2147483647%Z) (Z.of_N z)); [vm_compute; tauto| |split; lia]. destruct E as [-> | ->]; [apply xsd_int_plain|apply xsd_int_plus]; auto.
  - intros lo hi t I _. cbn [In xsd_builtins] in I. vm_compute in I. repeat (destruct I as [I|I]; [try discriminate I; injection I as <- <-; exact eq_refl|]). destruct I.
Qed.
Lemma letter_date : plain_letters (Named (lit "xs:date")) (lit "2020-02-29Z").
Proof.
  plain_builtin "date". eexists. split; [|reflexivity]. split.
  - apply (l_date _ _ _ 2020 2 29 (Some 0%Z)); [reflexivity|]. exists (lit "2020"), (lit "02"), (lit "29"), (lit "Z"), 2, 29. split; [reflexivity|]. split; [apply (year_pos (lit "2020") 2020); [number|apply Nat.leb_le; reflexivity|lia]|].
    split; [two_digits|]. split; [two_digits|]. split; [reflexivity|]. split; [reflexivity|]. split; [vm_compute; repeat split; discriminate|apply tz_present; constructor].
  - exists (lit "2020"), (lit "02-29Z"), 2020. split; [reflexivity|]. split; [number|reflexivity].
Qed.
Lemma letter_code x : In x ["red"; "blue"] -> plain_letters (Named (lit "tt:Code")) (lit x).
Proof.
  intros I. exists (TRestriction (TBuiltin (lit "string")) [FEnumeration (lit "red"); FEnumeration (lit "blue")]), (Atom atom (VText (lit x))).
  assert (D : forall y, denotes atom (text all_texts) atom_order atom_size every no_digits (TBuiltin (lit "string")) (lit y) (Atom atom (VText (lit y)))).
  { intros y. exists (VText (lit y)). split; [|reflexivity]. split; [|exact Logic.I]. apply l_text; [left; vm_compute; tauto|exact Logic.I]. }
  split; [|split; [|split; [|split; [|split]]]].
  - refers_declared ltac:(do 2 right; left; reflexivity). restricts ltac:(refers_builtin "string").
  - left. split; [|eexists; split; [reflexivity|vm_compute; tauto]]. split; [discriminate|]. intros v J. cbn in J. repeat (destruct J as [<-|J]; [apply TraitProofs.plain_valueb_iff; vm_compute; reflexivity|]). destruct J.
  - split; [exact Logic.I|]. intros v [J|[J|[]]]; discriminate J.
  - split; [apply D|]. split; [intros f [<-|[<-|[]]]; exact Logic.I|]. right. exists (lit x). split; [|apply D]. destruct I as [<-|[<-|[]]]; cbn; auto.
  - intros [].
  - intros B fs f a E J M. injection E as <- <-. destruct J as [<-|[<-|[]]]; destruct M.
Qed.
Notation valid_trip := (valid letters tt xs trip_here plain_letters).
Lemma trip_line kids : In kids [[leaf "code" "red"; leaf "count" "02"]; [leaf "count" "+1"; leaf "code" "blue"]] -> valid_trip (Complex line) (a_line kids).
Proof.
  assert (Code : type_of letters tt xs (typed "code" "tt:Code") (Simple (Named (lit "tt:Code")))) by (eapply to_named; [reflexivity|]; eapply tn_simple; [apply own_local_iff; reflexivity|]; split; [do 2 right; left; reflexivity|split; reflexivity]).
  assert (Or : trip_here line) by (split; [apply regular_plain; vm_compute; reflexivity|split; [own_attributes_check|one_content_check]]).
  assert (Int : forall x n z, (lit x = n \/ lit x = lit "+" ++ n) -> num n z -> z <= 2147483647 -> valid_trip (Simple (Named (lit "xs:int"))) (leaf "count" x)) by (intros; apply valid_simple; eapply letter_int; eauto).
  assert (C : forall x, In x ["red"; "blue"] -> valid_trip (Simple (Named (lit "tt:Code"))) (leaf "code" x)) by (intros; apply valid_simple; apply letter_code; auto).
  intros [<-|[<-|[]]].
  - eapply (valid_all _ _ _ _ _ plain _ _ _ _ _ _ [[_]; [_]]); [apply Or|reflexivity|reflexivity|reflexivity|apply attributes_fitb_ok; [vm_compute; reflexivity|intros ? ? ? ? []]|reflexivity|occurrence|reflexivity| |apply Permutation_refl].
    fill ltac:(first [apply Code|builtin_type]) ltac:(first [apply C; cbn; tauto|apply (Int "02" (lit "02") 2); [left; reflexivity|number|lia]]).
  - eapply (valid_all _ _ _ _ _ plain _ _ _ _ _ _ [[leaf "code" "blue"]; [leaf "count" "+1"]]); [apply Or|reflexivity|reflexivity|reflexivity|apply attributes_fitb_ok; [vm_compute; reflexivity|intros ? ? ? ? []]|reflexivity|occurrence|reflexivity| |apply perm_swap].
    fill ltac:(first [apply Code|builtin_type]) ltac:(first [apply C; cbn; tauto|apply (Int "+1" (lit "1") 1); [right; reflexivity|number|lia]]).
Qed.
(** A letter whose number is written 012, whose day has a time zone, and with +1 and 02 among the
    counts: it meets the premises of C75. *)
Definition our_letter : inst := Inst (q "letter") [av "id" "012"; av "since" "2020-02-29Z"] [leaf "subject" "Paint"; a_line [leaf "count" "+1"; leaf "code" "blue"]; a_line [leaf "code" "red"; leaf "count" "02"]] [].
Example C75_ex1 : valid_trip (Complex letter) our_letter.
Proof.
  set (g := seq [typed "subject" "xs:string"; many_typed "line" "tt:Line"]). set (kss := [[leaf "subject" "Paint"]; [a_line [leaf "count" "+1"; leaf "code" "blue"]; a_line [leaf "code" "red"; leaf "count" "02"]]]).
  apply (valid_content _ _ _ _ _ (fun e => match attribute e (lit "maxOccurs") with Some _ => Complex line | None => plain e end) _ false ([] ++ [g]) ([required_att "id" "xs:int"; att "lang" "xs:string"] ++ [att "since" "xs:date"]) _ _ [assigned (particles g) kss] kss).
  - change [g] with (groups_of (el "extension" [("base", "tt:Marked")] [g; att "since" "xs:date"])).
    eapply composed_extension with (b := marked); [split; [apply letter_regular|split; [own_attributes_check|one_content_check]]|reflexivity|reflexivity|solve_ok|reflexivity|reflexivity|apply own_local_iff; reflexivity|split; [left; reflexivity|split; reflexivity]| |apply simple_attributed; reflexivity].
    apply (composed_plain _ _ _ _ marked); [split; [apply regular_plain; vm_compute; reflexivity|split; [own_attributes_check|one_content_check]]|reflexivity|apply simple_attributed; reflexivity].
  - apply attributes_fitb_ok; [vm_compute; reflexivity|]. intros n v a s I Ia En At.
    destruct I as [I|[I|[]]]; injection I as <- <-; (destruct Ia as [<-|[<-|[<-|[]]]]; vm_compute in En; try discriminate En; inversion At as [? q' Hq|? ? Hq|? ? ? ? ? Hq]; subst; try discriminate Hq; injection Hq as <-).
    + apply (letter_int _ (lit "012") 12); [left; reflexivity|number|lia].
    + apply letter_date.
  - constructor; [|constructor]. apply arranged_sequence; [reflexivity|occurrence|]. constructor; [split; [reflexivity|occurrence]|constructor; [split; [reflexivity|occurrence]|constructor]].
  - exists (particles g). split; [|cbn [List.concat]; rewrite app_nil_r; apply Permutation_refl].
    fill ltac:(first [builtin_type|eapply to_named; [reflexivity|eapply tn_complex; [apply own_local_iff; reflexivity|split; [do 3 right; left; reflexivity|split; reflexivity]]]])
      ltac:(first [apply trip_line; first [left; reflexivity|right; left; reflexivity]|apply valid_simple; apply letter_string]).
  - reflexivity.
  - auto.
Qed.
(** What is written for it: 12, 2020-02-29+00:00, 1 and 2. *)
Definition our_answer : inst := Inst (q "letter") [av "since" "2020-02-29+00:00"; av "id" "12"] [leaf "subject" "Paint"; a_line [leaf "code" "blue"; leaf "count" "1"]; a_line [leaf "code" "red"; leaf "count" "2"]] [].
Ltac shown_library t := eexists; split; [apply (reads_library _ _ _ _ _ t); [cbn; tauto|reflexivity]|reflexivity].
Ltac unit_variant pre := eapply (reads_unit _ _ _ _ _ _ _ _ _ _ _ pre); [names_item|eexists; split; [left; reflexivity|cbn; tauto]| |reflexivity| |reflexivity|left; eexists; split; [left; reflexivity|vm_compute; tauto]];
  [ let ds := fresh in let I := fresh in let J := fresh in intros (ds & I & J); cbn [In] in I; destruct I as [I|[I|[]]]; [|discriminate I]; injection I as <-; cbn in J; repeat (destruct J as [J|J]; [discriminate J|]); destruct J
  | let w := fresh in let Iw := fresh in intros w Iw; first [destruct Iw; fail|destruct Iw as [<-|[]]; let l := fresh in let Il := fresh in let Ir := fresh in let N := fresh in let E := fresh in
    intros [(l & [Il|[]] & Ir)|[N E]]; [injection Il as <-; vm_compute in Ir; repeat (destruct Ir as [Ir|Ir]; [discriminate Ir|]); destruct Ir|vm_compute in E; discriminate E]] ].
Example C75_ex2 : forall chk, exists f its, parse u2 [letters] = Ok f /\ ns_prefix (rf_target_ns f) = tt /\ ns_prefix (rf_xsd_ns f) = xs /\
  separate_types letters (type_name_of u2 f) (format_name u2) /\ file_items u2 f (rf_types f) its /\
  let P := concat (map (placed []) its) in
  written u2 P (shown_again atom u2 (library_read (-9999) 9999 chk) (library_show chk) P) [] (rust u2 "Letter") our_letter our_answer.
Proof.
  intros chk. eexists. eexists. split; [vm_compute; reflexivity|]. split; [reflexivity|]. split; [reflexivity|]. split; [apply (separate_types_check _ _ _ 3); vm_compute; reflexivity|]. split; [cbn [rf_types]; repeat econstructor|].
  cbv zeta. lazymatch goal with |- written _ ?P (shown_again _ _ ?r ?s _) _ ?t ?i ?o => let P' := eval vm_compute in P in let t' := eval vm_compute in t in change (written u2 P' (shown_again atom u2 r s P') [] t' i o) end.
  set (l1 := [leaf "count" "+1"; leaf "code" "blue"]). set (l2 := [leaf "code" "red"; leaf "count" "02"]).
  lazymatch goal with |- written _ ?P ?X _ _ _ _ =>
    assert (Line : forall c n m k, In c ["red"; "blue"] -> X [] (rust u2 "i32") (lit n) (lit m) -> k = [leaf "code" c; leaf "count" n] \/ k = [leaf "count" n; leaf "code" c] -> written u2 P X [] (rust u2 "Line") (a_line k) (a_line [leaf "code" c; leaf "count" m])) end.
  { intros c n m k Hc Hm K. let t' := eval vm_compute in (rust u2 "Line") in change (rust u2 "Line") with t'.
    eapply (members_written _ _ _ _ _ [] _ _ _ _ _ _ _ [([], [(leaf "code" c, leaf "code" c)]); ([], [(leaf "count" n, leaf "count" m)])]); [names_item| |reflexivity|reflexivity].
    constructor; [eapply (element_written _ _ _ _ _ _ _ (q "code") (rust u2 "Code")); [reflexivity|destruct K as [->| ->]; reflexivity|destruct K as [->| ->]; holds_now|]|].
    - constructor; [|constructor]. cbn [fst snd]. let t' := eval vm_compute in (rust u2 "Code") in change (rust u2 "Code") with t'. eapply (written_enum _ _ _ _ _ []); [names_item|right|].
      + intros v I N. repeat (destruct I as [<-|I]; [first [reflexivity|destruct N; reflexivity]|]). destruct I.
      + exists (RUnit atom (lit c)). split; [|reflexivity].
        destruct Hc as [<-|[<-|[]]].
        * unit_variant ([] : list variant).
        * unit_variant [{| va_doc := []; va_attrs := [AYaserde [("rename", Some (lit "red"))]]; va_name := lit "Red"; va_type := None |}].
    - constructor; [|constructor]. eapply (element_written _ _ _ _ _ _ _ (q "count") (rust u2 "i32")); [reflexivity|destruct K as [->| ->]; reflexivity|destruct K as [->| ->]; holds_now|].
      constructor; [|constructor]. apply (written_library _ _ _ _ "i32"); [do 3 right; left; reflexivity|exact Hm]. }
  eapply (members_written _ _ _ _ _ [] _ _ _ _ _ _ _ [([], [(leaf "subject" "Paint", leaf "subject" "Paint")]); ([], [(a_line l1, a_line [leaf "code" "blue"; leaf "count" "1"]); (a_line l2, a_line [leaf "code" "red"; leaf "count" "2"])]); ([av "since" "2020-02-29+00:00"], []); ([av "id" "12"], []); ([], [])]).
  - names_item.
  - constructor; [eapply (element_written _ _ _ _ _ _ _ (q "subject") (rust u2 "String")); [reflexivity|reflexivity|holds_now|constructor; [|constructor]; apply (written_library _ _ _ _ "String"); [left; reflexivity|shown_library "String"]]|].
    constructor; [eapply (element_written _ _ _ _ _ _ _ (q "line") (rust u2 "Line")); [reflexivity|reflexivity|right; right; reflexivity|constructor; [apply (Line _ "+1"); [cbn; tauto|shown_library "i32"|auto]|constructor; [apply (Line _ "02"); [cbn; tauto|shown_library "i32"|auto]|constructor]]]|].
    constructor; [apply (attribute_written _ _ _ _ _ _ _ (at_ "since") (rust u2 "xs::Date") [lit "2020-02-29+00:00"]); [reflexivity|holds_now|constructor; [shown_library "xs::Date"|constructor]]|].
    constructor; [apply (attribute_written _ _ _ _ _ _ _ (at_ "id") (rust u2 "i32") [lit "12"]); [reflexivity|holds_now|constructor; [shown_library "i32"|constructor]]|].
    constructor; [apply (attribute_written _ _ _ _ _ _ _ (at_ "lang") (rust u2 "String") []); [reflexivity|holds_now|repeat constructor]|constructor].
  - reflexivity.
  - reflexivity.
Qed.

(** ** Structs check nothing
    An instance that is not valid, since a text breaks a facet of its type, is read, and the
    struct it is read into has an empty check: only a check of the very member finds it. *)
Definition overlooked (u : uni) (n : node) (t : string) (i : inst) : Prop := forall lo hi chk words pattern digits,
  document [n] n /\ ok_schema n /\ tidy n /\ not_self_derived n /\ (forall x, part x n -> orderly u n tt xs x) /\
  exists f its T, parse u [n] = Ok f /\ ns_prefix (rf_target_ns f) = tt /\ ns_prefix (rf_xsd_ns f) = xs /\
    separate_types n (type_name_of u f) (format_name u) /\ file_items u f (rf_types f) its /\
    type_named n tt xs (lit t) T /\
    let P := concat (map (placed []) its) in
    fits u P (fun path t x => exists v, reads atom u P (library_read lo hi chk) path t x v) [] (type_name_of u f (lit t)) i /\
    (exists p d a m fs, SpecFit.names u P [] (type_name_of u f (lit t)) p (IStruct d a m fs) /\ In (p, IValidate m []) P /\ forall ks, In (p, IValidate m ks) P -> ks = []) /\
    ~ valid n tt xs (fun _ => True) (allowed atom (text words) atom_order atom_size pattern digits n tt xs) T i.
Definition rows : node := qsch [restricted "Count" "xs:int" [facet_node "maxInclusive" "9"]; cty "Row" [seq [typed "count" "tt:Count"]]].
Lemma int_value words x a : text words (lit "int") x a -> library_read (-9999) 9999 true "i32" x = Some a.
Proof.
  intros H. assert (Y : chrono_years (-9999) 9999) by (unfold chrono_years; lia).
  destruct (C73_complete (-9999) 9999 true words "int" Y ltac:(cbn; tauto)) as [_ C]. apply (C "i32" x a); [|exact H].
  set (sp := SInt (Some (-2147483648)%Z) (Some 2147483647%Z)). exists sp, sp. split; [vm_compute; tauto|]. split; [discriminate|]. split; [cbn; tauto|]. split; [vm_compute; tauto|].
  split; [|left]; intros z H0; exact H0.
Qed.
Lemma count_refers T : refers rows tt xs (lit "tt:Count") T -> T = TRestriction (TBuiltin (lit "int")) [FMaxInclusive (lit "9")].
Proof.
  intros R. inversion R as [? l Q|? l d ? To (I & Td & Hn) De]; subst; [apply split_name_iff in Q; discriminate Q|]. apply own_local_iff in To. vm_compute in To. injection To as <-.
  destruct I as [<-|[<-|[]]]; [|discriminate Hn].
  inversion De as [? c q0 B fs On Tc Hq Rf Ff|? c ? ? On Tc|? c ? ? On Tc|? c ? ? ? On Tc]; subst; apply only_particle in On; injection On as <-; try discriminate Tc.
  injection Hq as <-. inversion Rf as [? l Q|? l d ? To _ _]; subst; [|apply own_local_iff in To; discriminate To]. apply split_name_iff in Q. injection Q as <-.
  cbn in Ff. inversion Ff as [|? f ? ? Hf F0]; subst. inversion F0; subst. f_equal. f_equal. inversion Hf; subst; try discriminate; match goal with X : has _ "value" _ |- _ => injection X as <- end. reflexivity.
Qed.
Theorem C75_struct_checks_refuted : forall u, overlooked u rows "tt:Row" (Inst (q "row") [] [leaf "count" "10"] []).
Proof.
  intros u lo hi chk words pattern digits. apply with_conditions.
  { conditions; split; [reflexivity|]; cbn [rows qsch children]. constructor; [simple_ok|]. solve_ok. }
  split; [apply orderly_check; vm_compute; reflexivity|]. eexists. eexists. eexists. split; [vm_compute; reflexivity|]. split; [reflexivity|]. split; [reflexivity|].
  split; [apply (separate_types_check _ _ _ 3); vm_compute; reflexivity|].
  split; [cbn [rf_types]; apply all_cons; [eapply items_tuple; [apply all_nil|facet_items]|repeat econstructor]|]. split; [names_type|]. cbv zeta. split; [|split].
  - lazymatch goal with |- fits _ ?P _ _ ?ty ?i => let P' := eval vm_compute in P in let t' := eval vm_compute in ty in change (fits u P' (fun path t x => exists v, reads atom u P' (library_read lo hi chk) path t x v) [] t' i) end.
    eapply (fits_struct _ _ _ _ _ []); [names_item|intros ? ? []| | | | |]; cbn [In].
    + intros f x [<-|[]] [Y _]. apply arguedb_iff in Y. discriminate Y.
    + intros f x [<-|[]] [Y _]. apply arguedb_iff in Y. discriminate Y.
    + intros k [<-|[]]. eexists. split; [left; reflexivity|]. split; [intros Y; apply arguedb_iff in Y; discriminate Y|]. apply in_instanceb_iff. reflexivity.
    + intros f [x l] [<-|[]] [_ ((l1 & [I1|[]] & J1) & _ & Z)]. injection I1 as <-. cbn [In snd] in J1. repeat (destruct J1 as [J1|J1]; [try discriminate J1; injection J1 as <-|]); [|destruct J1].
      destruct x as [x|]; [|exfalso; eapply (Z (Some (lit "tt"))); eexists; split; [left; reflexivity|left; reflexivity]].
      cbn [fst] in Z. destruct Z as (l1 & [I1|[]] & J1). injection I1 as <-. cbn [In] in J1. repeat (destruct J1 as [J1|J1]; [try discriminate J1; injection J1 as <-|]); [|destruct J1].
      exists (rust u "Count"). split; [left; split; reflexivity|]. intros k [<-|[]] _. let t' := eval vm_compute in (rust u "Count") in change (rust u "Count") with t'.
      eapply fits_tuple; [names_item|]. eexists. read_tuple ltac:(tuple_of ltac:(is_library "i32")).
    + intros f [<-|[]]. exists (q "count"). right. split; [intros Y; apply arguedb_iff in Y; discriminate Y|]. apply in_instanceb_iff. reflexivity.
  - lazymatch goal with |- context [SpecFit.names _ ?P _ ?t] => let P' := eval vm_compute in P in let t' := eval vm_compute in t in change P with P'; change t with t' end.
    eexists. eexists. eexists. eexists. eexists. split; [names_item|]. split; [cbn; tauto|]. intros ks I. cbn [In] in I. repeat (destruct I as [I|I]; [try discriminate I; injection I as <-; reflexivity|]). destruct I.
  - intros V. inversion V as [|t s gs r n attrs parts x typing C Af Ar Ex En Ety Ev]; subst. destruct (compose_ok rows tt xs _ _ _ _ _ C 9 _ _ eq_refl) as [Eg _]. subst gs.
    inversion Ar as [|? l ? ps A1 _]; subst. destruct (first_element (seq [typed "count" "tt:Count"]) (typed "count" "tt:Count") [] _ eq_refl eq_refl eq_refl eq_refl eq_refl eq_refl eq_refl A1) as (k & l' & ->).
    match goal with X : map snd _ = [_] |- _ => cbn [List.concat map app snd] in X; injection X as E _ end. subst k.
    specialize (Ety (typed "count" "tt:Count") _ (or_introl eq_refl) eq_refl). specialize (Ev (typed "count" "tt:Count") _ (or_introl eq_refl) eq_refl). 
    remember (typing (typed "count" "tt:Count")) as T eqn:ET. clear ET.
    assert (X : T = Simple (Named (lit "tt:Count"))).
    { inversion Ety as [? ? ? Ht Tn|? ? ? ? ? Ha|? ? Ha|? ? Ha]; subst; try discriminate Ha. injection Ht as <-.
      inversion Tn as [? l Q|? l d|? l d To (I & Td & Hn)]; subst; auto. apply own_local_iff in To. vm_compute in To. injection To as <-. destruct I as [<-|[<-|[]]]; discriminate. }
    subst T. inversion Ev as [? ? ? (T0 & v & Is & De)|]; subst. apply count_refers in Is. subst T0. destruct De as ((a & La & ->) & Sa & _).
    destruct (Sa _ (or_introl eq_refl)) as (a' & b & c & Ea & (b' & Lb & Eb) & Oc & Nc). injection Ea as <-. injection Eb as <-. apply int_value in La, Lb. vm_compute in La, Lb. injection La as <-. injection Lb as <-. vm_compute in Oc. injection Oc as <-. apply Nc. reflexivity.
Qed.
Print Assumptions C75_struct_checks_refuted.
(** An attribute with a type of its own becomes a text: what breaks its type is read. *)
Definition size_type : node := el "simpleType" [] [el "restriction" [("base", "xs:int")] []].
Definition boxes : node := qsch [cty "Box" [el "attribute" [("name", "size")] [size_type]]].
Theorem C75_attribute_type_refuted : forall u, overlooked u boxes "tt:Box" (Inst (q "box") [av "size" "big"] [] []).
Proof.
  intros u lo hi chk words pattern digits. apply with_conditions.
  { conditions; split; [reflexivity|]; cbn [boxes qsch children]. solve_ok. }
  split; [apply orderly_check; vm_compute; reflexivity|]. eexists. eexists. eexists. split; [vm_compute; reflexivity|]. split; [reflexivity|]. split; [reflexivity|].
  split; [apply (separate_types_check _ _ _ 3); vm_compute; reflexivity|]. split; [cbn [rf_types]; repeat econstructor|]. split; [names_type|]. cbv zeta. split; [|split].
  - lazymatch goal with |- fits _ ?P _ _ ?ty ?i => let P' := eval vm_compute in P in let t' := eval vm_compute in ty in change (fits u P' (fun path t x => exists v, reads atom u P' (library_read lo hi chk) path t x v) [] t' i) end.
    eapply (fits_struct _ _ _ _ _ []); [names_item| | | |intros ? []| |]; cbn [In].
    + intros x v [E|[]]. injection E as <- <-. eexists. split; [left; reflexivity|]. split; [apply arguedb_iff; reflexivity|apply in_instanceb_iff; reflexivity].
    + intros f x [<-|[]] _. exists (rust u "String"). split; [right; left; split; [reflexivity|discriminate]|]. intros v [E|[]]. injection E as <- <-. eexists. apply reads_library; [left; reflexivity|reflexivity].
    + intros f x [<-|[]] _ _. exists (rust u "String"). reflexivity.
    + intros f x [<-|[]] [Y _]. exfalso. apply Y. apply arguedb_iff. reflexivity.
    + intros f [<-|[]]. exists (at_ "size"). left. split; [apply arguedb_iff; reflexivity|apply in_instanceb_iff; reflexivity].
  - lazymatch goal with |- context [SpecFit.names _ ?P _ ?t] => let P' := eval vm_compute in P in let t' := eval vm_compute in t in change P with P'; change t with t' end.
    eexists. eexists. eexists. eexists. eexists. split; [names_item|]. split; [cbn; tauto|]. intros ks I. cbn [In] in I. repeat (destruct I as [I|I]; [try discriminate I; injection I as <-; reflexivity|]). destruct I.
  - intros V. inversion V as [|t s gs r n attrs parts x typing C Af Ar Ex En Ety Ev]; subst. destruct (compose_ok boxes tt xs _ _ _ _ _ C 9 _ _ eq_refl) as [_ Er]. subst r.
    destruct Af as [Af _]. destruct (Af _ _ (or_introl eq_refl)) as (a & [<-|[]] & _ & _ & Hv). destruct (Hv (Within size_type)) as (T & v & Is & De); [apply ay_within; reflexivity|].
    cbn [simple_is] in Is. inversion Is as [? c q0 B fs On Tc Hq Rf Ff|? c ? ? On Tc|? c ? ? On Tc|? c ? ? ? On Tc]; subst; apply only_particle in On; injection On as <-; try discriminate Tc.
    injection Hq as <-. inversion Rf as [? l Q|? l d ? To _ _]; subst; [|apply own_local_iff in To; discriminate To]. apply split_name_iff in Q. injection Q as <-.
    destruct De as ((y & La & ->) & _). apply int_value in La. discriminate La.
Qed.
Print Assumptions C75_attribute_type_refuted.
