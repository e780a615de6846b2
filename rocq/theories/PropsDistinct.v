(** Property theorems C66: generated code defines no type, module or implementation twice. *)
From Coq Require Import Arith NArith ZArith Bool Ascii String List Lia.
From Verif Require Import Str SpecLex SpecNames SpecBuiltin Xml StrFacts Names NamesProofs Entity Parser ParserFacts SpecSchema ParserProofs PropsParser Link SpecLink PropsLink
  Gen SpecRust SpecGen RustFacts GenProofs GenProofs2 PropsGen SpecDoc DocProofs PropsDoc SpecScope ScopeProofs PropsScope SpecTraits TraitProofs PropsTraits SpecSize SizeProofs PropsSize
  SpecDistinct DistinctProofs DistinctProofs2.
Import ListNotations.
Local Open Scope string_scope.
Local Open Scope list_scope.
Local Open Scope N_scope.
Notation concat := List.concat.

(** The Rust name of a type, by the conventions of C24 and C25. *)
Notation type_name_of u f := (SpecGen.ty u (fun q => format_type_name u q (rf_xsd_ns f) (rf_target_ns f))).

(** C66: if the names of the declarations of a document, and the names given to its anonymous
    types, are separate, then the code defines no type twice in a module, no type in a module
    that hides one outside, no module twice, and implements no trait twice. *)
Theorem C66_distinct : forall u roots schema f its, document roots schema -> ok_schema schema -> tidy schema -> parse u roots = Ok f ->
  (forall x, part x schema -> orderly u schema (ns_prefix (rf_target_ns f)) (ns_prefix (rf_xsd_ns f)) x) ->
  separate_types schema (type_name_of u f) (format_name u) -> file_items u f (rf_types f) its -> distinct_types its.
Proof. exact document_distinct. Qed.
Print Assumptions C66_distinct.
(** The same without resolution of base types. *)
Theorem C66_schema : forall u schema f its, ok_schema schema -> tidy schema -> parse_schema u schema [] = Ok f ->
  (forall x, part x schema -> orderly u schema (ns_prefix (rf_target_ns f)) (ns_prefix (rf_xsd_ns f)) x) ->
  separate_types schema (type_name_of u f) (format_name u) -> file_items u f (rf_types f) its -> distinct_types its.
Proof. exact schema_distinct. Qed.
Print Assumptions C66_schema.
(** So C64 and C65 hold with conditions on the document alone. *)
Theorem C66_equipped : forall u roots schema f its, document roots schema -> ok_schema schema -> tidy schema -> parse u roots = Ok f ->
  (forall x, part x schema -> orderly u schema (ns_prefix (rf_target_ns f)) (ns_prefix (rf_xsd_ns f)) x) ->
  (forall x, part x schema -> practical u schema (ns_prefix (rf_target_ns f)) (ns_prefix (rf_xsd_ns f)) x) ->
  separate_types schema (type_name_of u f) (format_name u) -> file_items u f (rf_types f) its ->
  well_equipped u (namespaces schema) (ns_prefix (rf_target_ns f)) (ns_prefix (rf_xsd_ns f)) its.
Proof.
  intros u roots schema f its D O T P Or Pr S I. eapply C64_equipped; eauto. apply distinct_consistent. eapply C66_distinct; eauto.
Qed.
Print Assumptions C66_equipped.
Theorem C66_finite : forall u roots schema f its, document roots schema -> ok_schema schema -> tidy schema -> parse u roots = Ok f ->
  (forall x, part x schema -> orderly u schema (ns_prefix (rf_target_ns f)) (ns_prefix (rf_xsd_ns f)) x) ->
  separate_types schema (type_name_of u f) (format_name u) -> file_items u f (rf_types f) its ->
  grounded schema (ns_prefix (rf_target_ns f)) (ns_prefix (rf_xsd_ns f)) ->
  finite u (namespaces schema) (ns_prefix (rf_target_ns f)) (ns_prefix (rf_xsd_ns f)) its.
Proof.
  intros u roots schema f its D O T P Or S I G. eapply C65_finite; eauto. apply distinct_unshadowed. eapply C66_distinct; eauto.
Qed.
Print Assumptions C66_finite.

(** A check of the conditions, for the examples. *)
Fixpoint nodupb {A} (eqb : A -> A -> bool) (l : list A) : bool := match l with [] => true | x :: r => negb (existsb (eqb x) r) && nodupb eqb r end.
Lemma nodupb_ok {A} (eqb : A -> A -> bool) l : (forall x, eqb x x = true) -> nodupb eqb l = true -> NoDup l.
Proof.
  intros R. induction l as [|x l IH]; cbn; intros H; constructor; apply andb_true_iff in H as [H1 H2]; auto. apply negb_true_iff in H1.
  intros I. assert (X : existsb (eqb x) l = true); [apply existsb_exists; eauto|congruence].
Qed.
Section Check.
Context (schema : node).
Fixpoint expand (k : nat) : list node -> option (list str) :=
  match k with
  | O => fun ds => match ds with [] => Some [] | _ => None end
  | S k' => fix go ds := match ds with
      | [] => Some []
      | d :: r => match expand k' (sources schema (spliced [schema] d)), go r with
                  | Some a, Some b => Some (given [schema] d ++ a ++ b)
                  | _, _ => None
                  end
      end
  end.
Lemma expand_ok k : forall ds ns, expand k ds = Some ns -> expands schema ds ns.
Proof.
  induction k as [|k IH]; cbn [expand]; intros ds.
  - destruct ds; intros ns [= <-]. constructor.
  - induction ds as [|d ds IHd]; intros ns E; [injection E as <-; constructor|].
    destruct (expand k (sources schema (spliced [schema] d))) as [a|] eqn:Ea; [|discriminate].
    match type of E with context [match ?g ds with _ => _ end] => destruct (g ds) as [b|] eqn:Eb; [|discriminate] end. injection E as <-. constructor; auto.
Qed.
Fixpoint insides (k : nat) (ds : list node) : option (list (list str)) :=
  match ds with
  | [] => Some []
  | d :: r => match (if structured d then expand k [d] else Some []), insides k r with Some a, Some b => Some (a :: b) | _, _ => None end
  end.
Lemma insides_ok k ds nss : insides k ds = Some nss -> Forall2 (inside_names schema) ds nss.
Proof.
  revert nss. induction ds as [|d ds IH]; cbn; intros nss E; [injection E as <-; constructor|]. destruct (if structured d then expand k [d] else Some []) as [a|] eqn:Ea; [|discriminate].
  destruct (insides k ds) as [b|]; [|discriminate]. injection E as <-. constructor; auto. unfold inside_names. destruct (structured d); [eapply expand_ok; eauto|congruence].
Qed.
Definition separate_typesb (type_text : str -> list token) (ident : str -> str) (k : nat) : bool :=
  nodupb same_nameb (map type_text (outsides schema)) &&
  match insides k (children schema) with
  | Some nss => forallb (fun ns => nodupb same_nameb (map type_text (ns ++ outsides schema)) && nodupb str_eqb (map ident ns)) nss &&
      nodupb str_eqb (module_names schema ident nss) &&
      (forallb (fun n => unborrowedb (type_text n)) (outsides schema ++ concat nss) && forallb (fun m => negb (str_eqb m (lit "xs"))) (module_names schema ident nss ++ map ident (concat nss)))
  | None => false
  end.
Lemma separate_types_check type_text ident k : separate_typesb type_text ident k = true -> separate_types schema type_text ident.
Proof.
  unfold separate_typesb. rewrite andb_true_iff. intros [H1 H]. assert (R : forall x, str_eqb x x = true) by (intros x; apply str_eqb_eq; auto).
  split; [eapply nodupb_ok; [apply same_nameb_refl|exact H1]|]. destruct (insides k (children schema)) as [nss|] eqn:E; [|discriminate]. apply andb_true_iff in H as [H H4]. apply andb_true_iff in H as [H2 H3]. apply andb_true_iff in H4 as [H4 H5].
  exists nss. split; [eapply insides_ok; eauto|].
  split; [|split; [eapply nodupb_ok; [exact R|exact H3]|split; apply Forall_forall; intros n I; [rewrite forallb_forall in H4; apply unborrowedb_ok; auto|rewrite forallb_forall in H5; specialize (H5 n I); apply negb_true_iff in H5; intros ->; rewrite R in H5; discriminate]]]. apply Forall_forall. intros ns I. rewrite forallb_forall in H2. specialize (H2 ns I). apply andb_true_iff in H2 as [A B].
  split; [eapply nodupb_ok; [apply same_nameb_refl|exact A]|eapply nodupb_ok; [exact R|exact B]].
Qed.
End Check.

(** A shipment with anonymous types in a base and in what extends it, a choice, a union with an
    anonymous member, a list of an anonymous enumeration and an element of an anonymous type. *)
Definition anon_simple (b : string) (fs : list node) : node := el "simpleType" [] [el "restriction" [("base", b)] fs].
Definition shipment : node := sch
  [ cty "Place" [seq [anon "where" [seq [typed "street" "xs:string"]]; typed "zone" "tt:Zone"]];
    cty "Depot" [ext "tt:Place" [seq [anon "hours" [seq [typed "from" "xs:time"]]; el "choice" [] [typed "phone" "xs:string"; typed "mail" "xs:string"]]]];
    cty "Way" [el "choice" [] [typed "road" "xs:int"; typed "rail" "xs:string"]];
    el "simpleType" [("name", "Zone")] [el "union" [("memberTypes", "xs:int")] [anon_simple "xs:string" [facet_node "enumeration" "north"]]];
    el "simpleType" [("name", "Days")] [el "list" [] [anon_simple "xs:string" [facet_node "enumeration" "mon"; facet_node "enumeration" "tue"]]];
    el "element" [("name", "Parcel")] [el "complexType" [] [seq [typed "at" "tt:Depot"; anon "size" [seq [typed "w" "xs:int"]]]]];
    el "element" [("name", "Empty")] [] ].
Lemma anon_enum_ok b fs : Forall (fun c => exists f, facet_of c f) fs -> ok LocalSimple (anon_simple b fs).
Proof.
  intros F. eapply ok_local_simple; [t1|t1|exists [], []; repeat split; try discriminate; constructor|]. left. apply ok_simple_restriction; [t1|t1|].
  cbn [children el]. eapply Forall_impl; [|exact F]. auto.
Qed.

Ltac facets := repeat constructor; eexists; constructor; reflexivity.
Example C66_ex1 : document [shipment] shipment /\ ok_schema shipment /\ tidy shipment /\ not_self_derived shipment /\
  (forall x, part x shipment -> orderly u2 shipment (Some (lit "tt")) (Some (lit "xs")) x).
Proof.
  apply with_conditions; [|apply orderly_check; vm_compute; reflexivity].
  conditions. split; [reflexivity|]. cbn [shipment sch children].
  constructor; [solve_ok|]. constructor; [solve_ok|]. constructor; [solve_ok|].
  constructor; [do 2 right; left; eapply ok_global_simple; [t1|t1|solve_ok|]; do 2 right; apply ok_union; [t1|constructor; [right; apply anon_enum_ok; facets|constructor]]|].
  constructor; [do 2 right; left; eapply ok_global_simple; [t1|t1|solve_ok|]; right; left; eapply ok_list_nested; [t1|t1|exists [], []; repeat split; try discriminate; constructor|apply anon_enum_ok; facets]|].
  constructor; [solve_ok|]. constructor; [solve_ok|constructor].
Qed.
Example C66_ex2 : exists f its, parse u2 [shipment] = Ok f /\ ns_prefix (rf_target_ns f) = Some (lit "tt") /\ ns_prefix (rf_xsd_ns f) = Some (lit "xs") /\
  separate_types shipment (type_name_of u2 f) (format_name u2) /\ file_items u2 f (rf_types f) its /\
  concat (map (introduces []) its) = map (fun '(p, t) => (map lit p, rust u2 t))
    [([], "Place"); (["place"], "WhereType");
     ([], "Depot"); (["depot"], "HoursType"); (["depot"], "DepotChoice"); (["depot"], "WhereType");
     ([], "WayChoice"); ([], "Way"); ([], "Zone"); ([], "EnumCaseType0"); ([], "Days"); ([], "DaysEnum");
     ([], "Parcel"); (["parcel"], "SizeType"); ([], "Empty")].
Proof.
  eexists. eexists. split; [vm_compute; reflexivity|]. split; [reflexivity|]. split; [reflexivity|]. split; [|split].
  - apply (separate_types_check _ _ _ 3). vm_compute. reflexivity.
  - cbn [rf_types]. repeat econstructor.
  - vm_compute. reflexivity.
Qed.

(** ** Documents whose code defines a name twice
    XML Schema asks for distinct names only within types, elements, attributes and groups, and
    tells upper case from lower case. *)
Definition declared_once (n : node) : Prop :=
  forall ts, In ts [["simpleType"; "complexType"]; ["element"]; ["attribute"]; ["attributeGroup"]] -> NoDup (concat (map name_of (tagged_children ts n))).
Lemma declared_once_check n :
  forallb (fun ts => nodupb str_eqb (concat (map name_of (tagged_children ts n)))) [["simpleType"; "complexType"]; ["element"]; ["attribute"]; ["attributeGroup"]] = true -> declared_once n.
Proof. rewrite forallb_forall. intros H ts I. eapply nodupb_ok; [|apply H; exact I]. intros x. apply str_eqb_eq. auto. Qed.
Definition clashing (u : uni) (n : node) : Prop :=
  document [n] n /\ ok_schema n /\ tidy n /\ not_self_derived n /\
  (forall x, part x n -> orderly u n (Some (lit "tt")) (Some (lit "xs")) x) /\ declared_once n /\
  exists f its, parse u [n] = Ok f /\ ns_prefix (rf_target_ns f) = Some (lit "tt") /\ ns_prefix (rf_xsd_ns f) = Some (lit "xs") /\
    file_items u f (rf_types f) its /\ ~ distinct_types its.
Lemma twice_defined its p t a b c : concat (map (introduces []) its) = a ++ (p, t) :: b ++ (p, t) :: c -> ~ distinct_types its.
Proof.
  intros E (N & _). rewrite E in N. apply NoDup_remove_2 in N. apply N, in_or_app. right. apply in_or_app. right. left. auto.
Qed.
Lemma hidden_name its p r t : In (p, t) (concat (map (introduces []) its)) -> In (p ++ r, t) (concat (map (introduces []) its)) -> r <> [] -> ~ distinct_types its.
Proof. intros A B R (_ & H & _). apply R. eauto. Qed.
Ltac clashes := split; [apply orderly_check; vm_compute; reflexivity|]; split; [apply declared_once_check; vm_compute; reflexivity|];
  eexists; eexists; split; [vm_compute; reflexivity|]; split; [reflexivity|]; split; [reflexivity|]; split; [cbn [rf_types]; repeat econstructor|].

(** A type and an element of an anonymous type may have the same name. *)
Definition element_and_type : node := sch [el "element" [("name", "Order")] [el "complexType" [] [seq [typed "a" "xs:int"]]]; cty "Order" [seq [typed "b" "xs:int"]]].
Theorem C66_element_refuted : forall u, clashing u element_and_type.
Proof.
  intros u. unfold element_and_type. apply with_conditions; [conditions; split; [reflexivity|]; cbn [sch children]; solve_ok|]. clashes.
  eapply (twice_defined _ [] (rust u "Order") [] [] []). vm_compute. reflexivity.
Qed.
Print Assumptions C66_element_refuted.
(** Names that differ in case only. *)
Definition case_types : node := sch [cty "order" [seq [typed "a" "xs:int"]]; cty "Order" [seq [typed "b" "xs:int"]]].
Theorem C66_case_refuted : forall u, clashing u case_types.
Proof.
  intros u. unfold case_types. apply with_conditions; [conditions; split; [reflexivity|]; cbn [sch children]; solve_ok|]. clashes.
  eapply (twice_defined _ [] (rust u "Order") [] [] []). vm_compute. reflexivity.
Qed.
Print Assumptions C66_case_refuted.
(** The anonymous members of unions are numbered for each union anew, outside of modules. *)
Definition two_unions : node := sch
  [ el "simpleType" [("name", "Width")] [el "union" [("memberTypes", "xs:int")] [anon_simple "xs:string" [facet_node "enumeration" "wide"]]];
    el "simpleType" [("name", "Height")] [el "union" [("memberTypes", "xs:int")] [anon_simple "xs:string" [facet_node "enumeration" "tall"]]] ].
Theorem C66_union_refuted : forall u, clashing u two_unions.
Proof.
  intros u. unfold two_unions. apply with_conditions.
  { conditions. split; [reflexivity|]. cbn [sch children].
    do 2 (constructor; [do 2 right; left; eapply ok_global_simple; [t1|t1|exists [], []; repeat split; try discriminate; constructor|]; do 2 right; apply ok_union; [t1|constructor; [right; apply anon_enum_ok; facets|constructor]]|]). constructor. }
  clashes. eapply (twice_defined _ [] (rust u "EnumCaseType0") [_] [_] []). vm_compute. reflexivity.
Qed.
Print Assumptions C66_union_refuted.
(** An anonymous type called like a declared one. *)
Definition anonymous_and_type : node := sch [cty "WhereType" [seq [typed "x" "xs:int"]]; cty "Place" [seq [anon "where" [seq [typed "y" "tt:WhereType"]]]]].
Theorem C66_hidden_refuted : forall u, clashing u anonymous_and_type.
Proof.
  intros u. unfold anonymous_and_type. apply with_conditions; [conditions; split; [reflexivity|]; cbn [sch children]; solve_ok|]. clashes.
  apply (hidden_name _ [] [lit "place"] (rust u "WhereType")); [vm_compute; tauto|vm_compute; tauto|discriminate].
Qed.
Print Assumptions C66_hidden_refuted.
(** Two elements of the same name, of anonymous types, at different depths of one type. *)
Definition deep_and_shallow : node := sch [cty "Place" [seq [anon "at" [seq [typed "x" "xs:int"]]; anon "of" [seq [anon "at" [seq [typed "y" "xs:int"]]]]]]].
Theorem C66_depth_refuted : forall u, clashing u deep_and_shallow.
Proof.
  intros u. unfold deep_and_shallow. apply with_conditions; [conditions; split; [reflexivity|]; cbn [sch children]; solve_ok|]. clashes.
  apply (hidden_name _ [lit "place"] [lit "of_type"] (rust u "AtType")); [vm_compute; tauto|vm_compute; tauto|discriminate].
Qed.
Print Assumptions C66_depth_refuted.
(** Types called like what the generated code takes from the library: [Option], [String], and
    the module of a type [Xs], which hides the library itself. *)
Lemma borrowed_name u its p s : In (p, rust u s) (concat (map (introduces []) its)) -> In s borrowed -> rust u s = [TWord (lit s)] -> ~ distinct_types its.
Proof. intros A B C (_ & _ & _ & _ & _ & H & _). exact (H p _ A s B C). Qed.
Definition called_option : node := sch [cty "Option" [seq [typed "price" "xs:int"]]; cty "Car" [seq [el "element" [("name", "extra"); ("type", "tt:Option"); ("minOccurs", "0")] []]]].
Theorem C66_library_refuted : forall u, clashing u called_option.
Proof.
  intros u. unfold called_option. apply with_conditions; [conditions; split; [reflexivity|]; cbn [sch children]; solve_ok|]. clashes.
  apply (borrowed_name u _ [] "Option"); [vm_compute; tauto|cbn; tauto|vm_compute; reflexivity].
Qed.
Print Assumptions C66_library_refuted.
Definition called_string : node := sch [cty "string" [seq [typed "at" "xs:int"]]; cty "Guitar" [seq [typed "name" "xs:string"; typed "first" "tt:string"]]].
Theorem C66_string_refuted : forall u, clashing u called_string.
Proof.
  intros u. unfold called_string. apply with_conditions; [conditions; split; [reflexivity|]; cbn [sch children]; solve_ok|]. clashes.
  apply (borrowed_name u _ [] "String"); [vm_compute; tauto|cbn; tauto|vm_compute; reflexivity].
Qed.
Print Assumptions C66_string_refuted.
Definition called_xs : node := sch [cty "Xs" [seq [anon "part" [seq [typed "when" "xs:date"]]]]].
Theorem C66_xs_refuted : forall u, clashing u called_xs.
Proof.
  intros u. unfold called_xs. apply with_conditions; [conditions; split; [reflexivity|]; cbn [sch children]; solve_ok|]. clashes.
  intros (_ & _ & _ & _ & _ & _ & H). apply (H [lit "xs"]); [vm_compute; tauto|reflexivity].
Qed.
Print Assumptions C66_xs_refuted.
