(** The built-in list types xs:NMTOKENS, xs:IDREFS and xs:ENTITIES: properties. *)
From Coq Require Import Arith NArith ZArith Bool Ascii String List Permutation Lia.
From Verif Require Import Str StrFacts SpecLex SpecNames SpecBuiltin Serde SpecSerde SerdeProofs Xml Names NamesProofs Entity Parser ParserFacts SpecSchema ParserProofs Link SpecLink LinkProofs Gen SpecRust SpecGen SpecCheck SpecDoc DocProofs SpecScope ScopeProofs SpecTraits TraitProofs SpecSize SizeProofs ShapeProofs SpecDistinct DistinctProofs DistinctProofs2 SpecFit FitProofs FitProofs2 SpecValue ValueProofs ValueLib PropsParser PropsLink PropsGen PropsDoc PropsScope PropsTraits PropsSize PropsDistinct PropsMembers PropsFit PropsValue.
Import ListNotations.
Local Open Scope string_scope.
Local Open Scope list_scope.
Local Open Scope N_scope.
Notation concat := List.concat.
Arguments lit : simpl never.

(** What a facet demands of the number of items of a list. *)
Definition counts (k : N) (f : facet_type) : Prop :=
  match f with
  | FLength v => exists n, count_text v n /\ k = n
  | FMaxLength v => exists n, count_text v n /\ k <= n
  | FMinLength v => exists n, count_text v n /\ n <= k
  | _ => True
  end.
(** A list of texts in Rust. *)
Definition texts {A} (inj : str -> A) (ts : list str) : rval A := RNew A (RVec A (map (fun t => RLib A "String" (inj t)) ts)).

Lemma tuple_derives s : In s ["UtilsTupleIo"; "UtilsDefaultSerde"] -> derives [tuple_derive] s.
Proof. intros I. eexists. split; [left; reflexivity|]. cbn in *. tauto. Qed.
Section Lists.
Context (A : Type) (lib_read : string -> str -> option A) (lib_show : string -> A -> str) (lib_cmp : A -> A -> option comparison) (lib_len : A -> N) (inj : str -> A).
Context (Rd : forall s, lib_read "String" s = Some (inj s)) (Sh : forall s, lib_show "String" (inj s) = s).
Notation run_checks v := (run_checks (rval A) (value_read A lib_read v) (value_cmp A lib_cmp) (value_len A lib_len)).

Lemma run_counts c l fs kss : Forall2 (facet_checks c) fs kss -> (forall f, In f fs -> checked f -> measure f) ->
  run_checks (RVec A l) (concat kss) (RVec A l) = Accepted <-> forall f, In f fs -> counts (N.of_nat (List.length l)) f.
Proof.
  intros F. induction F as [|f ks fs kss X F IH]; intros M; [split; [intros _ f []|reflexivity]|]. cbn [concat]. rewrite run_app, IH by (intros; apply M; [right|]; auto).
  assert (Y : run_checks (RVec A l) ks (RVec A l) = Accepted <-> counts (N.of_nat (List.length l)) f).
  { specialize (M f (or_introl eq_refl)). clear IH F.
    assert (Un : forall v n k, u32_text v n -> count_text v k -> k = n) by (intros v n k [C _] D; eapply count_unique; eauto).
    inversion X; subst; try (destruct (M Logic.I)); cbn [SpecCheck.run_checks condition ck_cond length_check value_len counts]; try tauto.
    1-3: destruct (N.compare_spec (N.of_nat (List.length l)) n); cbn; split; try discriminate; try reflexivity; intros Y;
      first [exists n; split; [apply H|lia] | destruct Y as (k & Ck & E); rewrite (Un _ _ _ H Ck) in E; lia].
    - split; [|reflexivity]. intros _. exists 0. split; [apply H|lia]. }
  rewrite Y. split.
  - intros [a b] g [<-|I]; auto.
  - intros a. split; [apply a; left; auto|]. intros g I. apply a. right; auto.
Qed.

(** ** The tuple of a restriction *)
Section Tuple.
Context (u : uni) (its : list item).
Notation P := (concat (map (placed []) its)).
Context (Un : unshadowed P) (Uv : forall p m ks ks', In (p, IValidate m ks) P -> In (p, IValidate m ks') P -> ks = ks').
Notation reads := (reads A u P lib_read).
Notation accepts := (accepts A u P lib_read lib_cmp lib_len).
Lemma texts_shown ts : shown A lib_show (texts inj ts) = separated [32] ts.
Proof. unfold texts. cbn [shown]. f_equal. rewrite map_map. rewrite <- (map_id ts) at 2. apply map_ext. intros t. apply Sh. Qed.
Lemma vector_reads path t p d m ts s : SpecFit.names u P path t p (ITuple d [tuple_derive] m (rust u "Vec<String>")) -> tokens s ts -> reads path t s (texts inj ts).
Proof.
  intros Na Tk. rewrite texts_text in Na. change (rust u "Vec<" ++ rust u "String" ++ rust u ">") with (vector u (rust u "String")) in Na.
  eapply reads_tuple; [exact Na|apply tuple_derives; right; left; auto|].
  assert (X : Forall2 (from_str A u P lib_read p (rust u "String")) ts (map (fun t => Some (RLib A "String" (inj t))) ts)).
  { clear Tk. induction ts as [|w ts IH]; constructor; [|exact IH]. assert (F := from_library A u P lib_read p "String" w (or_introl eq_refl)). rewrite Rd in F. exact F. }
  assert (F := from_vector A u P lib_read _ _ _ _ _ _ _ _ _ _ Na (tuple_derives "UtilsTupleIo" (or_introl eq_refl)) Tk X).
  assert (E : found (map (fun t => Some (RLib A "String" (inj t))) ts) = map (fun t => RLib A "String" (inj t)) ts).
  { clear. induction ts as [|w ts IH]; [reflexivity|]. unfold found in *. cbn. f_equal. exact IH. }
  rewrite E in F. exact F.
Qed.
Lemma vector_accepts path t p d m fs kss ts : SpecFit.names u P path t p (ITuple d [tuple_derive] m (rust u "Vec<String>")) -> In (p, IValidate m (concat kss)) P ->
  Forall2 (facet_checks (rust u "Vec<String>")) fs kss -> (forall f, In f fs -> checked f -> measure f) ->
  accepts path t (texts inj ts) <-> forall f, In f fs -> counts (N.of_nat (List.length ts)) f.
Proof.
  intros Na Va Fk M. assert (R := run_counts _ (map (fun t => RLib A "String" (inj t)) ts) _ _ Fk M). rewrite map_length in R. rewrite <- R. split.
  - intros Ac. eapply tuple_accepts; eauto.
  - intros Rc. eapply accepts_tuple; [exact Na|exact Va|eapply bound_types; eauto|exact Rc].
Qed.

Context (schema : node) (f0 f1 : rs_file).
Notation tns := (rf_target_ns f1).
Notation xsn := (rf_xsd_ns f1).
Notation own := (ns_prefix tns).
Notation xsd := (ns_prefix xsn).
Notation tid := (fun q => format_type_name u q xsn tns).
Notation ty := (SpecGen.ty u tid).
Context (O : ok_schema schema) (H : parse_schema u schema [] = Ok f0) (L : link f0 = Ok f1).
Context (Td : forall x, part x schema -> tidy_element x).
Context (Or : forall x, part x schema -> orderly u schema own xsd x).
Context (It : all_items u tns tid (format_name u) (GenProofs.variant_name u tns) (rf_types f1) its).

Lemma texts_type q l : qualified q xsd l -> In (l, STexts) xsd_builtins -> ty q = rust u "Vec<String>".
Proof.
  intros Q I. unfold SpecGen.ty, format_type_name.
  assert (E : assoc l built_in_table = Some (lit "Vec<String>")).
  { assert (X : forallb (fun b => match snd b with STexts => match assoc (fst b) built_in_table with Some r => str_eqb r (lit "Vec<String>") | None => false end | _ => true end) xsd_builtins = true) by (vm_compute; reflexivity).
    rewrite forallb_forall in X. specialize (X _ I). cbn [fst snd] in X. destruct (assoc l built_in_table) as [r|]; [|discriminate]. apply str_eqb_eq in X. subst r. reflexivity. }
  destruct (match_built_in_type q xsn) as [r|] eqn:M.
  - apply built_in_iff in M as (l' & Q' & As). assert (l' = l) by (eapply (qualified_unique q); eauto). subst l'. rewrite E in As. injection As as <-. reflexivity.
  - exfalso. apply (built_in_none q xsd l xsn Q) in M. apply M. split; [reflexivity|]. apply in_map_iff. exists (l, STexts). auto.
Qed.
Lemma list_type_good q l d c qb lb fs path : to_own own xsd q l -> SpecFit.declared schema "simpleType" l d -> only d c -> tag "restriction" c -> has c "base" qb ->
  qualified qb xsd lb -> In (lb, STexts) xsd_builtins -> Forall2 facet_of (tagged_children facet_names c) fs -> ~ enumerated u fs -> (forall f, In f fs -> checked f -> measure f) ->
  forall s ts, tokens s ts -> reads path (ty q) s (texts inj ts) /\ (accepts path (ty q) (texts inj ts) <-> forall f, In f fs -> counts (N.of_nat (List.length ts)) f).
Proof.
  intros To De On Tc Hb Q Ib Ff Ne M s ts Tk. destruct (declared_clear u schema f1 Or l d De) as [Pd Cl]. rewrite (own_ty u f1 q l To Cl). destruct De as (I & Tg & Nm).
  assert (Id := declaration_in schema _ d I Tg ltac:(right; left; auto)). apply In_nth_error in Id as (k & Hk). destruct (declaration_parsed u schema f0 H k d Hk) as (e & He & Pe).
  assert (Te := simple_text u schema f1 Td Or d schema [] e Pd Tg Pe). assert (In1 : In e (rf_types f1)) by (eapply nth_error_In, types_at; eauto; apply text_not_struct; auto).
  assert (El : set_name l e = e).
  { destruct (simple_type_ok _ _ _ _ _ Tg Pe) as (c' & e0 & _ & _ & [[_ (nm & Hn & ->)]|(X & _)]); [|destruct (X (proj1 O))]. assert (nm = l) by (unfold has in *; congruence). subst nm. destruct e0; reflexivity. }
  destruct (top_placed u f1 its It e In1) as (li & Hi & Ic). destruct (head_item u f1 e li) as (i & r & -> & Di); auto.
  { destruct Te as [(tu & ->)|(en & -> & _)]; exact Logic.I. }
  assert (Na : SpecFit.names u P path (ty l) [] i).
  { rewrite <- El, entity_name_set_name in Di. destruct (own_token u tns xsn l (clear_own u tns xsn l Cl)) as (w & W). rewrite W in *. apply names_top; auto. eapply head_placed; eauto. }
  rewrite <- El in Hi. destruct (body _ _ _ _ _ _ Tg On Pe) as (e0 & Hc & Hn). destruct (Hn l) as (kc & En). rewrite En in Hi.
  destruct (restriction_ok _ _ _ _ _ Tc Tg Hc) as (b & Hb' & _ & R2). assert (b = qb) by (unfold has in *; congruence). subst b.
  destruct R2 as (tu & -> & Et & Em & _ & Fk); [intros X; apply Ne; apply (enumerated_iff u c fs Ff); auto|]. cbn [set_name set_comment] in Hi. destruct (tuple_items _ _ _ _ _ _ Hi Ic) as (doc & r' & kss & Ei & Va & Fc). injection Ei as -> ->. cbn in Na, Va, Fc.
  rewrite Et, Em in *. rewrite (facets_same _ _ _ Fk Ff) in Fc. change (modified u (ty qb) []) with (ty qb) in *. rewrite (texts_type qb lb Q Ib) in *.
  split; [eapply vector_reads; eauto|eapply vector_accepts; eauto].
Qed.
End Tuple.
End Lists.

(** C82: a simple type that restricts xs:NMTOKENS, xs:IDREFS or xs:ENTITIES by lengths (no
    enumeration).  The generated type reads every text whose white space is that of XML as the
    list of its items and in no other way; its checks pass exactly for the numbers of items the
    facets allow; what is written are the same items. *)
Theorem C82_restricted : forall (A : Type) lib_read lib_show lib_cmp lib_len (inj : str -> A),
  (forall s, lib_read "String" s = Some (inj s)) -> (forall s, lib_show "String" (inj s) = s) ->
  forall u roots schema f its, document roots schema -> ok_schema schema -> tidy schema -> parse u roots = Ok f ->
  (forall x, part x schema -> orderly u schema (ns_prefix (rf_target_ns f)) (ns_prefix (rf_xsd_ns f)) x) ->
  separate_types schema (type_name_of u f) (format_name u) -> file_items u f (rf_types f) its ->
  let own := ns_prefix (rf_target_ns f) in let xsd := ns_prefix (rf_xsd_ns f) in let P := concat (map (placed []) its) in
  forall q l d c qb lb fs path, to_own own xsd q l -> SpecFit.declared schema "simpleType" l d ->
    only d c -> tag "restriction" c -> has c "base" qb -> qualified qb xsd lb -> In lb [lit "NMTOKENS"; lit "IDREFS"; lit "ENTITIES"] ->
    Forall2 facet_of (tagged_children facet_names c) fs -> ~ enumerated u fs -> (forall f, In f fs -> checked f -> measure f) ->
  forall s ts, xml_items s ts -> xml_spaced s ->
    exists v, (forall w, reads A u P lib_read path (type_name_of u f q) s w <-> w = v) /\ v = texts inj ts /\
      (accepts A u P lib_read lib_cmp lib_len path (type_name_of u f q) v <-> forall f, In f fs -> counts (N.of_nat (List.length ts)) f) /\
      xml_items (shown A lib_show v) ts.
Proof.
  intros A lib_read lib_show lib_cmp lib_len inj Rd Sh u roots schema f its Do O T H Or Sep It own xsd P q l d c qb lb fs path To De On Tc Hb Q Il Ff Ne M s ts Xi Xs.
  assert (Dt := document_distinct u roots schema f its Do O T H Or Sep It). assert (Un := distinct_unshadowed _ Dt).
  assert (Uv : forall p m ks ks', In (p, IValidate m ks) P -> In (p, IValidate m ks') P -> ks = ks') by (apply one_validate, Dt).
  destruct Do as (a & b & -> & E & L). destruct (parse_document u (a ++ schema :: b)) as [PD _].
  destruct (proj1 (proj1 (PD a schema b eq_refl E L) f) H) as (f0 & Hp & Hl). clear PD. destruct T as [Td _].
  destruct (items_tokens s ts Xi Xs) as [Tk So].
  assert (Ib : In (lb, STexts) xsd_builtins) by (destruct Il as [<-|[<-|[<-|[]]]]; vm_compute; tauto).
  destruct (list_type_good A lib_read lib_show lib_cmp lib_len inj Rd Sh u its Un Uv schema f0 f O Hp Hl Td Or It q l d c qb lb fs path To De On Tc Hb Q Ib Ff Ne M s ts Tk) as [R Ac].
  exists (texts inj ts). split; [|split; [reflexivity|split; [exact Ac|]]].
  - intros w. split; [|intros ->; exact R]. intros R'. eapply (reads_unique A lib_read u P Un); eauto.
  - rewrite (texts_shown A lib_show inj Sh). apply separated_items. exact So.
Qed.
Print Assumptions C82_restricted.

(** ** A document *)
(** At least two names, at most three. *)
Definition names_doc : node := sch [restricted "Names" "xs:NMTOKENS" [facet_node "minLength" "2"; facet_node "maxLength" "3"]].
Lemma names_conditions : document [names_doc] names_doc /\ ok_schema names_doc /\ tidy names_doc /\ not_self_derived names_doc.
Proof. unfold names_doc. simples. Qed.
Lemma ok_inj {A} (a b : A) : Ok a = Ok b -> a = b. Proof. congruence. Qed.
Lemma blanks_check w : forallb xml_space w = true -> xml_blanks w.
Proof. intros E c I. rewrite forallb_forall in E. apply xml_space_iff. auto. Qed.
Lemma solid_check t : t <> [] -> forallb (fun c => negb (xml_space c)) t = true -> xml_solid t.
Proof. intros N E. split; [exact N|]. intros c I B. apply xml_space_iff in B. rewrite forallb_forall in E. specialize (E c I). rewrite B in E. discriminate E. Qed.
Lemma spaced_check s : forallb (fun c => negb (is_whitespace c) || xml_space c) s = true -> xml_spaced s.
Proof. intros E x I W. rewrite forallb_forall in E. specialize (E x I). rewrite W in E. apply xml_space_iff. exact E. Qed.
(** " ab  c" is read as the two names "ab" and "c", accepted and written "ab c"; "ab" is read as
    one name and rejected. *)
Example C82_ex1 : forall text_cmp, exists f its, parse u2 [names_doc] = Ok f /\ file_items u2 f (rf_types f) its /\
  let P := concat (map (placed []) its) in let t := type_name_of u2 f (lit "tt:Names") in
  (forall v, read_as u2 P t (lit " ab  c") v <-> v = texts AText [lit "ab"; lit "c"]) /\
  accepted text_cmp u2 P t (texts AText [lit "ab"; lit "c"]) /\ written_as (texts AText [lit "ab"; lit "c"]) = lit "ab c" /\
  (forall v, read_as u2 P t (lit "ab") v <-> v = texts AText [lit "ab"]) /\ ~ accepted text_cmp u2 P t (texts AText [lit "ab"]).
Proof.
  intros text_cmp. destruct names_conditions as (X1 & X2 & X3 & _).
  assert (Or : forall x, part x names_doc -> orderly u2 names_doc tt xs x) by (apply orderly_check; vm_compute; reflexivity).
  destruct (parse u2 [names_doc]) as [f| |] eqn:Ep; [|vm_compute in Ep; discriminate Ep|vm_compute in Ep; discriminate Ep].
  assert (E1 : ns_prefix (rf_target_ns f) = tt) by (vm_compute in Ep; apply ok_inj in Ep; subst f; reflexivity).
  assert (E2 : ns_prefix (rf_xsd_ns f) = xs) by (vm_compute in Ep; apply ok_inj in Ep; subst f; reflexivity).
  assert (Sp : separate_types names_doc (type_name_of u2 f) (format_name u2)) by (vm_compute in Ep; apply ok_inj in Ep; subst f; apply (separate_types_check _ _ _ 3); vm_compute; reflexivity).
  assert (Ei : exists its, file_items u2 f (rf_types f) its) by (vm_compute in Ep; apply ok_inj in Ep; subst f; eexists; once items_here).
  destruct Ei as (its & It). exists f, its. split; [reflexivity|]. split; [exact It|]. cbv zeta.
  set (c := el "restriction" [("base", "xs:NMTOKENS")] [facet_node "minLength" "2"; facet_node "maxLength" "3"]).
  set (fs := [FMinLength (lit "2"); FMaxLength (lit "3")]).
  assert (C2 : count_text (lit "2") 2) by exact (proj1 (u32_is (lit "2") 2 eq_refl)).
  assert (C3 : count_text (lit "3") 3) by exact (proj1 (u32_is (lit "3") 3 eq_refl)).
  assert (G : forall s ts, xml_items s ts -> xml_spaced s -> exists v, (forall w, read_as u2 (concat (map (placed []) its)) (type_name_of u2 f (lit "tt:Names")) s w <-> w = v) /\ v = texts AText ts /\
      (accepted text_cmp u2 (concat (map (placed []) its)) (type_name_of u2 f (lit "tt:Names")) v <-> forall g, In g fs -> counts (N.of_nat (List.length ts)) g) /\
      xml_items (written_as v) ts).
  { intros s ts. unfold read_as, accepted, written_as.
    apply (C82_restricted atom rust_read rust_show (rust_cmp text_cmp) rust_len AText (fun s => eq_refl) (fun s => eq_refl) u2 [names_doc] names_doc f its X1 X2 X3 Ep) with (l := lit "Names") (d := restricted "Names" "xs:NMTOKENS" [facet_node "minLength" "2"; facet_node "maxLength" "3"]) (c := c) (qb := lit "xs:NMTOKENS") (lb := lit "NMTOKENS");
      rewrite ?E1, ?E2; auto.
    - apply own_local_iff; reflexivity.
    - split; [left; reflexivity|split; reflexivity].
    - only_here.
    - reflexivity.
    - reflexivity.
    - apply split_name_iff; reflexivity.
    - left; reflexivity.
    - unfold fs, c. facets_read.
    - apply unlisted. reflexivity.
    - intros g [<-|[<-|[]]] _; exact Logic.I. }
  destruct (G (lit " ab  c") [lit "ab"; lit "c"]) as (v & R & -> & Ac & _).
  { apply (xi_more (lit " ") (lit "ab") 32 (lit " c") [lit "c"]); [apply blanks_check; reflexivity|apply solid_check; [discriminate|reflexivity]|left; reflexivity|discriminate|].
    apply (xi_last (lit " ") (lit "c") []); [apply blanks_check; reflexivity|apply solid_check; [discriminate|reflexivity]|intros ? []]. }
  { apply spaced_check. reflexivity. }
  destruct (G (lit "ab") [lit "ab"]) as (v & R' & -> & Ac' & _).
  { apply (xi_last [] (lit "ab") []); [intros ? []|apply solid_check; [discriminate|reflexivity]|intros ? []]. }
  { apply spaced_check. reflexivity. }
  split; [exact R|]. split; [|split; [reflexivity|split; [exact R'|]]].
  - apply Ac. intros g [<-|[<-|[]]]; eexists; (split; [eassumption|cbn; lia]).
  - intros X. destruct (proj1 Ac' X (FMinLength (lit "2")) (or_introl eq_refl)) as (n & Cn & Le). rewrite (count_unique _ _ _ Cn C2) in Le. cbn in Le. lia.
Qed.

(** ** Members *)
(** An element of a list type gets the very code of an element of xs:string that occurs any
    number of times.  So nothing that is done with the code can be right for both. *)
Definition one_list : node := sch [cty "Basket" [seq [typed "tag" "xs:NMTOKENS"]]].
Definition many_texts : node := sch [cty "Basket" [seq [many_typed "tag" "xs:string"]]].
Theorem C82_member_refuted : forall u, (document [one_list] one_list /\ ok_schema one_list /\ tidy one_list /\ not_self_derived one_list) /\
  (document [many_texts] many_texts /\ ok_schema many_texts /\ tidy many_texts /\ not_self_derived many_texts) /\ exists f1 f2 code, parse u [one_list] = Ok f1 /\ parse u [many_texts] = Ok f2 /\
  rmap snd (generate_rs_file u f1) = Ok code /\ rmap snd (generate_rs_file u f2) = Ok code /\
  ~ exists read : str -> str -> list str, (forall s ts, xml_items s ts -> xml_spaced s -> read code s = ts) /\ (forall s, read code s = [s]).
Proof.
  intros u. split; [conditions; split; [reflexivity|]; cbn [one_list sch children]; solve_ok|]. split; [conditions; split; [reflexivity|]; cbn [many_texts sch children]; solve_ok|].
  eexists. eexists. eexists. split; [vm_compute; reflexivity|]. split; [vm_compute; reflexivity|]. split; [vm_compute; reflexivity|]. split; [vm_compute; reflexivity|].
  intros (read & R1 & R2). assert (X := R1 (lit "a b") [lit "a"; lit "b"]). rewrite R2 in X. discriminate X; [|apply spaced_check; reflexivity].
  apply (xi_more [] (lit "a") 32 (lit "b") [lit "b"]); [intros ? []|apply solid_check; [discriminate|reflexivity]|left; reflexivity|discriminate|].
  apply (xi_last [] (lit "b") []); [intros ? []|apply solid_check; [discriminate|reflexivity]|intros ? []].
Qed.
Print Assumptions C82_member_refuted.
