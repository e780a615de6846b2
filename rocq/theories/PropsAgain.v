(** What was written is read again: properties. *)
From Coq Require Import Arith NArith ZArith Bool Ascii String List Lia.
From Verif Require Import Str StrFacts SpecLex SpecNames SpecBuiltin SpecSerde Serde SerdeProofs Xml Names NamesProofs Entity Parser SpecSchema SpecLink Link Gen SpecRust SpecGen SpecCheck SpecDoc SpecScope SpecTraits SpecSize SpecDistinct SpecFit SpecWrite SpecValue SpecLibrary SpecTrip SpecChoice SpecNest RustFacts ScopeProofs LinkProofs GenProofs DistinctProofs DistinctProofs2 FitProofs FitProofs2 ValueProofs ValueLib LibraryProofs TripProofs PropsParser PropsLink PropsGen PropsDoc PropsScope PropsTraits PropsSize PropsDistinct PropsMembers PropsFit PropsWrite PropsValue PropsLibrary PropsTrip PropsChoice PropsAlike PropsFlat PropsNest PropsDeep PropsNestValue SpecDur.
Import ListNotations.
Local Open Scope string_scope.
Local Open Scope list_scope.
Local Open Scope N_scope.
Notation concat := List.concat.
Notation atom := SpecLibrary.atom.
Notation values := SpecWrite.values.

(** C87: the texts of one value of a simple type are read as one Rust value; what is written for
    this value is read as this value, and as no other.  Not unions, where the text that is written
    may belong to an earlier type ([C87_union], [C87_union_refuted]); no patterns, which the text that is
    written need not match. *)
Definition read_back (A : Type) lexical order size pattern digits (u : uni) (lib_read : string -> str -> option A) (lib_show : string -> A -> str) (P : list (list str * item)) (path : list str) (t : list token) (T : stype) : Prop :=
  let reads := reads A u P lib_read path t in let denotes := denotes A lexical order size pattern digits T in
  forall x s, denotes s x -> (listy T -> xml_spaced s) ->
    exists v, (forall s', denotes s' x -> (listy T -> xml_spaced s') -> reads s' v) /\
      denotes (shown A lib_show v) x /\ reads (shown A lib_show v) v /\ forall w, reads (shown A lib_show v) w -> w = v.
Theorem C87_read_back : forall A lexical order size pattern digits lib_read lib_show,
  forall u roots schema f its, document roots schema -> ok_schema schema -> tidy schema -> parse u roots = Ok f ->
  (forall x, part x schema -> orderly u schema (ns_prefix (rf_target_ns f)) (ns_prefix (rf_xsd_ns f)) x) ->
  separate_types schema (type_name_of u f) (format_name u) -> file_items u f (rf_types f) its ->
  let own := ns_prefix (rf_target_ns f) in let xsd := ns_prefix (rf_xsd_ns f) in
  let read_back := read_back A lexical order size pattern digits u lib_read lib_show (concat (map (placed []) its)) in
  forall T path, SpecValue.regular_simple A lexical order size pattern digits u lib_read lib_show T -> patternless T -> (forall Ts, T <> TUnion Ts) ->
    (forall q, refers schema own xsd q T -> read_back path (type_name_of u f q) T) /\
    (forall l d t, SpecFit.declared schema "element" l d -> absent d "ref" -> absent d "type" -> tagged_children ["simpleType"; "complexType"] d = [t] -> tag "simpleType" t ->
       described schema own xsd t T -> read_back path (type_name_of u f l) T).
Proof.
  intros A lexical order size pattern digits lib_read lib_show u roots schema f its Do O T H Or Sep It own xsd rb Ty path Rg Pl Nu.
  assert (Dt := document_distinct u roots schema f its Do O T H Or Sep It). assert (Un := distinct_unshadowed _ Dt).
  assert (Uv : forall p m ks ks', In (p, IValidate m ks) (concat (map (placed []) its)) -> In (p, IValidate m ks') (concat (map (placed []) its)) -> ks = ks') by (apply one_validate, Dt).
  destruct Do as (a & b & -> & E & L). destruct (parse_document u (a ++ schema :: b)) as [PD _].
  destruct (proj1 (proj1 (PD a schema b eq_refl E L) f) H) as (f0 & Hp & Hl). clear PD.
  set (lib_cmp := order). set (lib_len := size). assert (Cmp : forall a b c, order a b = Some c -> lib_cmp a b = Some c) by auto.
  assert (X : forall t, good A lexical order size pattern digits lib_read lib_show lib_cmp lib_len u its path t Ty -> rb path t Ty).
  { intros t (_ & _ & _ & _ & _ & G & _). intros x s Dx Sp. destruct (G Nu s x Dx Sp) as (v & Rd & Ls & Sh & Al). exists v. split; auto. split; auto. split; [apply Al; auto|]. intros w Rw. symmetry. exact (reads_unique A lib_read u _ Un _ _ _ _ (Al _ (Sh Pl) Ls) _ Rw). }
  split.
  - intros q Re. apply X. apply (proj1 (all_good A lexical order size pattern digits lib_read lib_show lib_cmp lib_len Cmp u schema f0 f its O Hp Hl (proj1 T) Or It Un Uv Ty)); auto.
  - intros l d t De Ar At Et Tt Ds. apply X. eapply (element_good A lexical order size pattern digits lib_read lib_show lib_cmp lib_len Cmp u schema f0 f its O Hp Hl (proj1 T) Or It Un Uv); eauto.
Qed.
Print Assumptions C87_read_back.

(** With the library types of the repository. *)
Theorem C87_library : forall lo hi chk words pattern digits u roots schema f its, chrono_years lo hi ->
  document roots schema -> ok_schema schema -> tidy schema -> parse u roots = Ok f ->
  (forall x, part x schema -> orderly u schema (ns_prefix (rf_target_ns f)) (ns_prefix (rf_xsd_ns f)) x) ->
  separate_types schema (type_name_of u f) (format_name u) -> file_items u f (rf_types f) its ->
  forall T path q, plain_simple u T -> patternless T -> (forall Ts, T <> TUnion Ts) -> refers schema (ns_prefix (rf_target_ns f)) (ns_prefix (rf_xsd_ns f)) q T ->
    read_back atom (text words) atom_order atom_size pattern digits u (library_read lo hi chk) (library_show chk) (concat (map (placed []) its)) path (type_name_of u f q) T.
Proof.
  intros lo hi chk words pattern digits u roots schema f its Y Do O T H Or Sep It Ty path q Rg Pl Nu Re.
  exact (proj1 (C87_read_back _ _ _ _ _ _ _ _ u roots schema f its Do O T H Or Sep It Ty path (plain_regular _ _ _ _ _ _ _ _ Y Rg) Pl Nu) q Re).
Qed.
Print Assumptions C87_library.

(** C87 for unions: the texts of one value of a type of the union that no type before it has are
    read as one Rust value.  What is written for it is a text of the same value in this type; and
    it is read as the same Rust value, and as no other, unless a type before it has the text. *)
Definition chosen_back (A : Type) lexical order size pattern digits (u : uni) (lib_read : string -> str -> option A) (lib_show : string -> A -> str) (P : list (list str * item)) (path : list str) (t : list token) (pre : list stype) (U : stype) : Prop :=
  let reads := reads A u P lib_read path t in let denotes := denotes A lexical order size pattern digits in
  let first := fun s => forall V y, In V pre -> ~ denotes V s y in
  forall x s, denotes U s x -> (listy U -> xml_spaced s) -> first s ->
    exists v, (forall s', denotes U s' x -> (listy U -> xml_spaced s') -> first s' -> reads s' v) /\ denotes U (shown A lib_show v) x /\
      (first (shown A lib_show v) -> reads (shown A lib_show v) v /\ forall w, reads (shown A lib_show v) w -> w = v).
Theorem C87_union : forall A lexical order size pattern digits lib_read lib_show,
  forall u roots schema f its, document roots schema -> ok_schema schema -> tidy schema -> parse u roots = Ok f ->
  (forall x, part x schema -> orderly u schema (ns_prefix (rf_target_ns f)) (ns_prefix (rf_xsd_ns f)) x) ->
  separate_types schema (type_name_of u f) (format_name u) -> file_items u f (rf_types f) its ->
  let own := ns_prefix (rf_target_ns f) in let xsd := ns_prefix (rf_xsd_ns f) in
  let chosen_back := chosen_back A lexical order size pattern digits u lib_read lib_show (concat (map (placed []) its)) in
  forall pre U post path, let T := TUnion (pre ++ U :: post) in
    SpecValue.regular_simple A lexical order size pattern digits u lib_read lib_show T -> patternless U ->
    (forall q, refers schema own xsd q T -> chosen_back path (type_name_of u f q) pre U) /\
    (forall l d t, SpecFit.declared schema "element" l d -> absent d "ref" -> absent d "type" -> tagged_children ["simpleType"; "complexType"] d = [t] -> tag "simpleType" t ->
       described schema own xsd t T -> chosen_back path (type_name_of u f l) pre U).
Proof.
  intros A lexical order size pattern digits lib_read lib_show u roots schema f its Do O T H Or Sep It own xsd cb pre U post path Ty Rg Pl.
  assert (Dt := document_distinct u roots schema f its Do O T H Or Sep It). assert (Un := distinct_unshadowed _ Dt).
  assert (Uv : forall p m ks ks', In (p, IValidate m ks) (concat (map (placed []) its)) -> In (p, IValidate m ks') (concat (map (placed []) its)) -> ks = ks') by (apply one_validate, Dt).
  destruct Do as (a & b & -> & E & L). destruct (parse_document u (a ++ schema :: b)) as [PD _].
  destruct (proj1 (proj1 (PD a schema b eq_refl E L) f) H) as (f0 & Hp & Hl). clear PD.
  set (lib_cmp := order). set (lib_len := size). assert (Cmp : forall a b c, order a b = Some c -> lib_cmp a b = Some c) by auto.
  assert (X : forall t, good A lexical order size pattern digits lib_read lib_show lib_cmp lib_len u its path t Ty -> cb path t pre U).
  { intros t (_ & _ & _ & _ & _ & _ & G). intros x s Dx Sp Fs. destruct (G _ eq_refl pre U post s x eq_refl Dx Sp) as (v & Ls & Sh & Al). exists v. split; auto. split; auto.
    intros Fv. assert (Rv := Al _ (Sh Pl) Ls Fv). split; auto. intros w Rw. symmetry. exact (reads_unique A lib_read u _ Un _ _ _ _ Rv _ Rw). }
  split.
  - intros q Re. apply X. apply (proj1 (all_good A lexical order size pattern digits lib_read lib_show lib_cmp lib_len Cmp u schema f0 f its O Hp Hl (proj1 T) Or It Un Uv Ty)); auto.
  - intros l d t De Ar At Et Tt Ds. apply X. eapply (element_good A lexical order size pattern digits lib_read lib_show lib_cmp lib_len Cmp u schema f0 f its O Hp Hl (proj1 T) Or It Un Uv); eauto.
Qed.
Print Assumptions C87_union.
Theorem C87_union_library : forall lo hi chk words pattern digits u roots schema f its, chrono_years lo hi ->
  document roots schema -> ok_schema schema -> tidy schema -> parse u roots = Ok f ->
  (forall x, part x schema -> orderly u schema (ns_prefix (rf_target_ns f)) (ns_prefix (rf_xsd_ns f)) x) ->
  separate_types schema (type_name_of u f) (format_name u) -> file_items u f (rf_types f) its ->
  forall pre U post path q, let T := TUnion (pre ++ U :: post) in plain_simple u T -> patternless U -> refers schema (ns_prefix (rf_target_ns f)) (ns_prefix (rf_xsd_ns f)) q T ->
    chosen_back atom (text words) atom_order atom_size pattern digits u (library_read lo hi chk) (library_show chk) (concat (map (placed []) its)) path (type_name_of u f q) pre U.
Proof.
  intros lo hi chk words pattern digits u roots schema f its Y Do O T H Or Sep It pre U post path q Ty Rg Pl Re.
  exact (proj1 (C87_union _ _ _ _ _ _ _ _ u roots schema f its Do O T H Or Sep It pre U post path (plain_regular _ _ _ _ _ _ _ _ Y Rg) Pl) q Re).
Qed.
Print Assumptions C87_union_library.

(** In a union the text that is written may belong to an earlier type: "1.0" is no integer and read
    as a double, which is written "1", and read as an integer. *)
Definition figures : node := sch [union_type "Figure" "xs:int xs:double"].
Theorem C87_union_refuted : forall lo hi chk u, let T := TUnion [TBuiltin (lit "int"); TBuiltin (lit "double")] in plain_simple u T /\ patternless T /\
  PropsValue.told u figures "tt:Figure" T (fun P t =>
    exists v w, lib_read_as lo hi chk u P t (lit "1.0") v /\ lib_written chk v = lit "1" /\ lib_read_as lo hi chk u P t (lit "1") w /\ w <> v).
Proof.
  intros lo hi chk u T. split; [|split; [repeat split|]].
  - split; [plain "int"|]. split; [exact I|]. split; [intros _; plain "int"|]. split; [plain "double"|]. split; [exact I|]. split; [congruence|exact I].
  - tell figures.
    + refers_declared ltac:(left; reflexivity). eapply (de_union _ _ _ _ _ [lit "xs:int"; lit "xs:double"] [_; _] []); [only_here|reflexivity|apply (ParserProofs.blank_tokens_ok (lit "xs:int xs:double"))| |constructor].
      constructor; [refers_builtin "int"|]. constructor; [refers_builtin "double"|constructor].
    + exists (RCase atom (RLib atom "f64" (VDouble (SpecDur.b64_of_N 1)))), (RCase atom (RLib atom "i32" (VNumber 1))). split; [|split; [vm_compute; reflexivity|split; [|discriminate]]].
      * eapply (reads_union _ _ _ _ _ _ _ _ _ _ _ [_]); [names_item|eexists; split; [left; reflexivity|cbn; tauto]|reflexivity| |discriminate|reflexivity|is_library "f64"].
        intros w [<-|[]]. right. eexists. split; [reflexivity|is_library "i32"].
      * eapply (reads_union _ _ _ _ _ _ _ _ _ _ _ []); [names_item|eexists; split; [left; reflexivity|cbn; tauto]|reflexivity|intros ? []|discriminate|reflexivity|is_library "i32"].
Qed.
Print Assumptions C87_union_refuted.
(** "2.50" is no integer, and the "2.5" that is written for it is none; both are read as one double. *)
Example C87_ex2 : forall lo hi chk u, let T := TUnion [TBuiltin (lit "int"); TBuiltin (lit "double")] in
  PropsValue.told u figures "tt:Figure" T (fun P t =>
    exists v, lib_read_as lo hi chk u P t (lit "2.50") v /\ lib_written chk v = lit "2.5" /\ lib_read_as lo hi chk u P t (lit "2.5") v).
Proof.
  intros lo hi chk u T. tell figures.
  - refers_declared ltac:(left; reflexivity). eapply (de_union _ _ _ _ _ [lit "xs:int"; lit "xs:double"] [_; _] []); [only_here|reflexivity|apply (ParserProofs.blank_tokens_ok (lit "xs:int xs:double"))| |constructor].
    constructor; [refers_builtin "int"|]. constructor; [refers_builtin "double"|constructor].
  - let r := eval vm_compute in (library_read lo hi chk "f64" (lit "2.5")) in match r with Some ?a => exists (RCase atom (RLib atom "f64" a)) end.
    split; [|split; [vm_compute; reflexivity|]].
    all: eapply (reads_union _ _ _ _ _ _ _ _ _ _ _ [_]); [names_item|eexists; split; [left; reflexivity|cbn; tauto]|reflexivity| |discriminate|reflexivity|is_library "f64"].
    all: intros w [<-|[]]; right; eexists; split; [reflexivity|is_library "i32"].
Qed.

(** Days: under the premises of C87, "2020-02-29Z  2021-01-01" is written "2020-02-29+00:00 2021-01-01",
    which is read as the same days. *)
Definition two_days : value atom := Items atom [Atom atom (VDate 2020 2 29 (Some 0%Z)); Atom atom (VDate 2021 1 1 None)].
Example C87_ex1 : forall chk words pattern digits, let T := TList true (TBuiltin (lit "date")) in plain_simple u2 T /\ patternless T /\ (forall Ts, T <> TUnion Ts) /\
  denotes atom (text words) atom_order atom_size pattern digits T (lit "2020-02-29Z  2021-01-01") two_days /\ xml_spaced (lit "2020-02-29Z  2021-01-01") /\
  PropsValue.told u2 shop "tt:Days" T (fun P t => exists v, lib_read_as (-9999) 9999 chk u2 P t (lit "2020-02-29Z  2021-01-01") v /\
    lib_written chk v = lit "2020-02-29+00:00 2021-01-01" /\ lib_read_as (-9999) 9999 chk u2 P t (lib_written chk v) v).
Proof.
  intros chk words pattern digits T. split; [apply C73_ex1|]. split; [exact I|]. split; [discriminate|]. split; [|split].
  - exists [lit "2020-02-29Z"; lit "2021-01-01"], [Atom atom (VDate 2020 2 29 (Some 0%Z)); Atom atom (VDate 2021 1 1 None)]. split; [|split; [|reflexivity]].
    + assert (Bl : forall c, xml_space c = true -> xml_blank c) by (intros c; apply xml_space_iff). assert (So : forall t, t <> [] -> forallb (fun c => negb (xml_space c)) t = true -> xml_solid t).
      { intros t N F. split; auto. intros c I B. rewrite forallb_forall in F. specialize (F c I). apply xml_space_iff in B. rewrite B in F. discriminate. }
      apply (xi_more [] (lit "2020-02-29Z") 32 (lit " 2021-01-01")); [intros ? []|apply So; [discriminate|reflexivity]|apply Bl; reflexivity|discriminate|].
      apply (xi_last [32] (lit "2021-01-01") []); [intros c [<-|[]]; apply Bl; reflexivity|apply So; [discriminate|reflexivity]|intros ? []].
    + constructor; [|constructor; [|constructor]]; (eexists; split; [|reflexivity]); split.
      * apply (l_date _ _ _ 2020 2 29 (Some 0%Z)); [reflexivity|]. exists (lit "2020"), (lit "02"), (lit "29"), (lit "Z"), 2, 29. split; [reflexivity|]. split; [apply (year_pos (lit "2020") 2020); [number|apply Nat.leb_le; reflexivity|lia]|].
        split; [two_digits|]. split; [two_digits|]. split; [reflexivity|]. split; [reflexivity|]. split; [vm_compute; repeat split; discriminate|apply tz_present; constructor].
      * exists (lit "2020"), (lit "02-29Z"), 2020. split; [reflexivity|]. split; [number|reflexivity].
      * apply (l_date _ _ _ 2021 1 1 None); [reflexivity|]. exists (lit "2021"), (lit "01"), (lit "01"), [], 1, 1. split; [reflexivity|]. split; [apply (year_pos (lit "2021") 2021); [number|apply Nat.leb_le; reflexivity|lia]|].
        split; [two_digits|]. split; [two_digits|]. split; [reflexivity|]. split; [reflexivity|]. split; [vm_compute; repeat split; discriminate|constructor].
      * exists (lit "2021"), (lit "01-01"), 2021. split; [reflexivity|]. split; [number|reflexivity].
  - intros c I W. apply xml_space_iff. assert (X : forallb (fun c => negb (is_whitespace c) || xml_space c) (lit "2020-02-29Z  2021-01-01") = true) by reflexivity. rewrite forallb_forall in X. specialize (X c I). rewrite W in X. exact X.
  - tell shop; [refers_declared ltac:(right; left; reflexivity); eapply de_list; [only_here|reflexivity|reflexivity|refers_builtin "date"]|].
    set (a := RLib atom "xs::Date" (VDate 2020 2 29 (Some 0%Z))). set (b := RLib atom "xs::Date" (VDate 2021 1 1 None)).
    exists (RNew atom (RVec atom [a; b])). split; [|split; [reflexivity|]].
    + read_tuple idtac. eapply (from_vector _ _ _ _ _ _ _ _ _ _ (rust u2 "xs::Date") _ _ [Some a; Some b]); [names_item|derived_tuple|apply (tokens_total (lit "2020-02-29Z  2021-01-01"))|].
      constructor; [is_library "xs::Date"|]. constructor; [is_library "xs::Date"|constructor].
    + change (lib_written chk (RNew atom (RVec atom [a; b]))) with (lit "2020-02-29+00:00 2021-01-01").
      read_tuple idtac. eapply (from_vector _ _ _ _ _ _ _ _ _ _ (rust u2 "xs::Date") _ _ [Some a; Some b]); [names_item|derived_tuple|apply (tokens_total (lit "2020-02-29+00:00 2021-01-01"))|].
      constructor; [is_library "xs::Date"|]. constructor; [is_library "xs::Date"|constructor].
Qed.
