(** Property theorems C67: generated structs have no two fields, generated enums no two variants
    of the same name. *)
From Coq Require Import Arith NArith ZArith Bool Ascii String List Lia.
From Verif Require Import Str SpecLex SpecNames SpecBuiltin Xml StrFacts Names NamesProofs Entity Parser ParserFacts SpecSchema ParserProofs PropsParser Link SpecLink PropsLink
  Gen SpecRust SpecGen RustFacts GenProofs GenProofs2 PropsGen SpecDoc DocProofs PropsDoc SpecScope ScopeProofs PropsScope SpecTraits TraitProofs PropsTraits SpecSize SizeProofs PropsSize
  SpecDistinct DistinctProofs DistinctProofs2 PropsDistinct MemberProofs.
Import ListNotations.
Local Open Scope string_scope.
Local Open Scope list_scope.
Local Open Scope N_scope.
Notation concat := List.concat.

(** C67: if the elements and attributes of each complex type, with what it inherits and what its
    attribute groups add, have different identifiers, and so the values of each enumeration,
    the cases of each choice and the members of each union, then no struct of the code has two
    fields and no enum two variants of the same name. *)
Theorem C67_members : forall u roots schema f its, document roots schema -> ok_schema schema -> tidy schema -> parse u roots = Ok f ->
  (forall x, part x schema -> orderly u schema (ns_prefix (rf_target_ns f)) (ns_prefix (rf_xsd_ns f)) x) ->
  separate_members schema u (format_name u) (variant_name u (rf_target_ns f)) -> file_items u f (rf_types f) its -> distinct_members its.
Proof. exact document_members. Qed.
Print Assumptions C67_members.

(** A check of the conditions, for the examples. *)
Section Check.
Context (schema : node).
Notation nodup l := (nodupb str_eqb l).
Lemma nodup_ok l : nodup l = true -> NoDup l.
Proof. apply nodupb_ok. intros x. apply str_eqb_eq. auto. Qed.
Fixpoint contribute (k : nat) : list node -> option (list str) :=
  match k with
  | O => fun ds => match ds with [] => Some [] | _ => None end
  | S k' => fix go ds := match ds with
      | [] => Some []
      | d :: r => match contribute k' (sources schema (bases [schema] d)), contribute k' (sources schema (groups [schema] d)), go r with
                  | Some a, Some g, Some b => if nodup a then Some (merge (slots [schema] d) a g ++ b) else None
                  | _, _, _ => None
                  end
      end
  end.
Lemma contribute_ok k : forall ds ns, contribute k ds = Some ns -> contributes schema ds ns.
Proof.
  induction k as [|k IH]; cbn [contribute]; intros ds.
  - destruct ds; intros ns [= <-]. constructor.
  - induction ds as [|d ds IHd]; intros ns E; [injection E as <-; constructor|].
    destruct (contribute k (sources schema (bases [schema] d))) as [a|] eqn:Ea; [|discriminate].
    destruct (contribute k (sources schema (groups [schema] d))) as [g|] eqn:Eg; [|discriminate].
    match type of E with context [match ?h ds with _ => _ end] => destruct (h ds) as [b|] eqn:Eb; [|discriminate] end.
    destruct (nodup a) eqn:N; [|discriminate]. injection E as <-. constructor; auto. apply nodup_ok. auto.
Qed.
Fixpoint places (anc : list node) (n : node) : list (list node * node) :=
  if tagged "annotation" n then [] else (anc, n) :: match n with Elem _ _ _ cs => concat (map (places (n :: anc)) cs) | _ => [] end.
Lemma places_ok anc n : tagged "annotation" schema = false -> located schema anc n -> In (anc, n) (places [] schema).
Proof.
  intros T L. assert (G : forall anc n, located schema anc n -> forall x, In x (places anc n) -> In x (places [] schema)).
  { clear - T. intros anc n L. induction L as [|anc n c L IH I N]; intros x X; auto. apply IH. destruct (tagged "annotation" n) eqn:Tn.
    - exfalso. destruct L as [|anc' m c' L I' N']; [congruence|]. apply tagged_iff in Tn. contradiction.
    - destruct n as [t a ns cs| |]; try destruct I. cbn [places]. rewrite Tn. right. apply in_concat. eexists. split; [apply in_map; exact I|exact X]. }
  apply (G anc n L). assert (Nn : tagged "annotation" n = false).
  { destruct L as [|anc m c L I N]; auto. destruct (tagged "annotation" c) eqn:X; auto. apply tagged_iff in X. contradiction. }
  destruct n; cbn [places]; rewrite Nn; left; auto.
Qed.
Definition tokens_of (n : node) : list str :=
  match attribute n (lit "memberTypes") with Some m => filter (fun t => negb (is_empty t)) (split_on 32 m) | None => [] end.
Definition unknown : str := lit "__Unknown__".
Definition separate_membersb (ident variant : str -> str) (k : nat) : bool :=
  negb (tagged "annotation" schema) &&
  forallb (fun '(anc, x) =>
    (negb (tagged "complexType" x) || match contribute k (sources schema (bases anc x)), contribute k (sources schema (groups anc x)) with
       | Some a, Some g => nodup a && nodup (map ident (mark anc x ++ merge (slots anc x) a g)) | _, _ => false end) &&
    (negb (tagged "restriction" x) || nodup (unknown :: map variant (map value_of (tagged_children ["enumeration"] x)))) &&
    (negb (tagged "choice" x) || nodup (unknown :: map variant (map case_name (tagged_children ["element"] x)))) &&
    (negb (tagged "union" x) || nodup (unknown :: map variant (tokens_of x ++ member_cases 0 (tagged_children ["simpleType"] x)))) &&
    (negb (tagged "attributeGroup" x) || match attribute x (lit "ref") with
       | Some q => is_empty (declared_as schema q) || existsb (tagged "attributeGroup") (declared_as schema q) | None => true end)) (places [] schema).
Lemma separate_members_check u ident variant k : separate_membersb ident variant k = true -> separate_members schema u ident variant.
Proof.
  unfold separate_membersb. rewrite andb_true_iff, forallb_forall. intros [T H] anc x L. apply negb_true_iff in T. specialize (H _ (places_ok _ _ T L)). cbn beta iota in H.
  rewrite !andb_true_iff in H. destruct H as ((((H1 & H2) & H3) & H4) & H5). repeat split; intros Tx; apply tagged_iff in Tx.
  - rewrite Tx in H1. cbn [negb orb] in H1. destruct (contribute k (sources schema (bases anc x))) as [a|] eqn:Ea; [|discriminate]. destruct (contribute k (sources schema (groups anc x))) as [g|] eqn:Eg; [|discriminate].
    apply andb_true_iff in H1 as [N1 N2]. exists a, g. repeat split; try (apply nodup_ok; auto); eapply contribute_ok; eauto.
  - intros _. rewrite Tx in H2. apply nodup_ok. auto.
  - rewrite Tx in H3. apply nodup_ok. auto.
  - intros ts M. rewrite Tx in H4. assert (ts = tokens_of x) as ->; [|apply nodup_ok; auto]. unfold member_tokens in M. unfold tokens_of. destruct (attribute x (lit "memberTypes")) as [m|]; auto.
    eapply blank_tokens_unique; [exact M|apply blank_tokens_ok].
  - intros q Hq. rewrite Tx in H5. unfold has in Hq. rewrite Hq in H5. cbn [negb orb] in H5. apply orb_true_iff in H5 as [H5|H5].
    + left. destruct (declared_as schema q); [auto|discriminate].
    + right. apply existsb_exists in H5 as (d & I & Td). exists d. split; auto. apply tagged_iff. auto.
Qed.
End Check.

(** A document with a type that extends another and redeclares one of its elements, with
    attribute groups, a choice, enumerations, a union and anonymous types. *)
Definition att (n t : string) : node := el "attribute" [("name", n); ("type", t)] [].
Definition group_of (n : string) (cs : list node) : node := el "attributeGroup" [("name", n)] cs.
Definition group_to (n : string) : node := el "attributeGroup" [("ref", n)] [].
Definition library : node := sch
  [ group_of "Marks" [att "lang" "xs:string"; el "attribute" [("name", "old"); ("type", "xs:string"); ("use", "prohibited")] []];
    cty "Item" [seq [typed "title" "xs:string"; anon "place" [seq [typed "shelf" "xs:int"; typed "row" "xs:int"]]]; att "id" "xs:int"];
    cty "Book" [ext "tt:Item" [seq [typed "title" "xs:token"; typed "author" "xs:string"; el "choice" [] [typed "isbn" "xs:string"; typed "issn" "xs:string"]]]];
    cty "Tag" [group_to "tt:Marks"; att "text" "xs:string"];
    el "simpleType" [("name", "Codec")] [el "restriction" [("base", "xs:string")] [facet_node "enumeration" "h264"; facet_node "enumeration" "h265"]];
    el "simpleType" [("name", "Size")] [el "union" [("memberTypes", "xs:int xs:string")] [anon_simple "xs:string" [facet_node "enumeration" "big"]]] ].
Example C67_ex1 : document [library] library /\ ok_schema library /\ tidy library /\ not_self_derived library /\
  (forall x, part x library -> orderly u2 library (Some (lit "tt")) (Some (lit "xs")) x).
Proof.
  apply with_conditions; [|apply orderly_check; vm_compute; reflexivity].
  conditions. split; [reflexivity|]. cbn [library sch children]. unfold group_of, group_to, att.
  constructor; [do 6 right; apply ok_global_group; [reflexivity|eexists; reflexivity|]; constructor; [solve_ok|constructor; [|constructor]]; right; left; apply ok_attribute; [reflexivity|left; eexists; reflexivity|exists MEmpty; apply use_prohibited; reflexivity]|]. constructor; [solve_ok|]. constructor; [solve_ok|]. constructor; [solve_ok|].
  constructor; [do 2 right; left; apply enum_ok; facets|].
  constructor; [do 2 right; left; eapply ok_global_simple; [t1|t1|solve_ok|]; do 2 right; apply ok_union; [t1|constructor; [right; apply anon_enum_ok; facets|constructor]]|].
  constructor.
Qed.
Example C67_ex2 : exists f its, parse u2 [library] = Ok f /\ ns_prefix (rf_target_ns f) = Some (lit "tt") /\ ns_prefix (rf_xsd_ns f) = Some (lit "xs") /\
  separate_members library u2 (format_name u2) (variant_name u2 (rf_target_ns f)) /\ file_items u2 f (rf_types f) its /\
  concat (map (fun '(_, i) => match member_names i with [] => [] | l => [l] end) (concat (map (placed []) its))) = map (map lit)
    [["title"; "place"; "id"]; ["shelf"; "row"];
     ["title"; "author"; "book_choice"; "place"; "id"]; ["Isbn"; "Issn"; "__Unknown__"]; ["shelf"; "row"];
     ["text"; "lang"]; ["H264"; "H265"; "__Unknown__"]; ["Int"; "String"; "EnumCase0"; "__Unknown__"]; ["Big"; "__Unknown__"]].
Proof.
  eexists. eexists. split; [vm_compute; reflexivity|]. split; [reflexivity|]. split; [reflexivity|]. split; [|split].
  - apply (separate_members_check _ _ _ _ 3). vm_compute. reflexivity.
  - cbn [rf_types]. repeat econstructor.
  - vm_compute. reflexivity.
Qed.

(** ** Documents whose code has two members of the same name
    XML Schema tells elements from attributes and upper case from lower case, and elements may
    be repeated. In all of these no type is defined twice. *)
Definition ambiguous (u : uni) (n : node) : Prop :=
  document [n] n /\ ok_schema n /\ tidy n /\ not_self_derived n /\
  (forall x, part x n -> orderly u n (Some (lit "tt")) (Some (lit "xs")) x) /\ declared_once n /\
  exists f its, parse u [n] = Ok f /\ ns_prefix (rf_target_ns f) = Some (lit "tt") /\ ns_prefix (rf_xsd_ns f) = Some (lit "xs") /\
    file_items u f (rf_types f) its /\ separate_types n (type_name_of u f) (format_name u) /\ ~ distinct_members its.
Lemma listed_twice its p i a b c : In (p, i) (concat (map (placed []) its)) -> forall x, member_names i = a ++ x :: b ++ x :: c -> ~ distinct_members its.
Proof.
  intros I x E D. specialize (D p i I). rewrite E in D. apply NoDup_remove_2 in D. apply D, in_or_app. right. apply in_or_app. right. left. auto.
Qed.
Ltac repeats := split; [apply orderly_check; vm_compute; reflexivity|]; split; [apply declared_once_check; vm_compute; reflexivity|];
  eexists; eexists; split; [vm_compute; reflexivity|]; split; [reflexivity|]; split; [reflexivity|]; split; [cbn [rf_types]; repeat econstructor|];
  split; [apply (separate_types_check _ _ _ 3); vm_compute; reflexivity|].

(** An element and an attribute. *)
Definition element_and_attribute : node := sch [cty "Item" [seq [typed "id" "xs:int"]; att "id" "xs:int"]].
Theorem C67_attribute_refuted : forall u, ambiguous u element_and_attribute.
Proof.
  intros u. unfold element_and_attribute, att. apply with_conditions; [conditions; split; [reflexivity|]; cbn [sch children]; solve_ok|]. repeats.
  eapply (listed_twice _ [] _ [] [] []); [left; reflexivity|]. vm_compute. reflexivity.
Qed.
Print Assumptions C67_attribute_refuted.
(** The same element at two places of a sequence. *)
Definition element_twice : node := sch [cty "Line" [seq [typed "x" "xs:int"; typed "y" "xs:int"; typed "x" "xs:int"]]].
Theorem C67_repeated_refuted : forall u, ambiguous u element_twice.
Proof.
  intros u. unfold element_twice. apply with_conditions; [conditions; split; [reflexivity|]; cbn [sch children]; solve_ok|]. repeats.
  eapply (listed_twice _ [] _ [] [_] []); [left; reflexivity|]. vm_compute. reflexivity.
Qed.
Print Assumptions C67_repeated_refuted.
(** Elements called differently. *)
Definition alike_elements : node := sch [cty "Line" [seq [typed "maxX" "xs:int"; typed "max_x" "xs:int"]]].
Theorem C67_alike_refuted : forall u, ambiguous u alike_elements.
Proof.
  intros u. unfold alike_elements. apply with_conditions; [conditions; split; [reflexivity|]; cbn [sch children]; solve_ok|]. repeats.
  eapply (listed_twice _ [] _ [] [] []); [left; reflexivity|]. vm_compute. reflexivity.
Qed.
Print Assumptions C67_alike_refuted.
(** An inherited element: it is left out only if it is called exactly like an own one. *)
Definition inherited_alike : node := sch [cty "Item" [seq [typed "name" "xs:string"]]; cty "Book" [ext "tt:Item" [seq [typed "Name" "xs:string"]]]].
Theorem C67_inherited_refuted : forall u, ambiguous u inherited_alike.
Proof.
  intros u. unfold inherited_alike. apply with_conditions; [conditions; split; [reflexivity|]; cbn [sch children]; solve_ok|]. repeats.
  eapply (listed_twice _ [] _ [] [] []); [right; right; left; reflexivity|]. vm_compute. reflexivity.
Qed.
Print Assumptions C67_inherited_refuted.
(** Values of an enumeration. *)
Definition alike_values : node := sch [named_string "Codec" [facet_node "enumeration" "h264"; facet_node "enumeration" "H264"]].
Theorem C67_values_refuted : forall u, ambiguous u alike_values.
Proof.
  intros u. unfold alike_values. apply with_conditions.
  { conditions; split; [reflexivity|]; cbn [sch children]. constructor; [do 2 right; left; apply enum_ok; facets|constructor]. }
  repeats. eapply (listed_twice _ [] _ [] [] [_]); [left; reflexivity|]. vm_compute. reflexivity.
Qed.
Print Assumptions C67_values_refuted.
(** Cases of a choice. *)
Definition alike_cases : node := sch [cty "Way" [el "choice" [] [typed "road" "xs:int"; typed "Road" "xs:string"]]].
Theorem C67_cases_refuted : forall u, ambiguous u alike_cases.
Proof.
  intros u. unfold alike_cases. apply with_conditions; [conditions; split; [reflexivity|]; cbn [sch children]; solve_ok|]. repeats.
  eapply (listed_twice _ [] _ [] [] [_]); [left; reflexivity|]. vm_compute. reflexivity.
Qed.
Print Assumptions C67_cases_refuted.
(** The members of a union, of the same name in different namespaces. *)
Definition alike_members : node := sch [named_string "token" []; el "simpleType" [("name", "Size")] [el "union" [("memberTypes", "xs:token tt:token")] []]].
Theorem C67_union_refuted : forall u, ambiguous u alike_members.
Proof.
  intros u. unfold alike_members. apply with_conditions.
  { conditions; split; [reflexivity|]; cbn [sch children]. constructor; [do 2 right; left; apply enum_ok; facets|].
    constructor; [do 2 right; left; eapply ok_global_simple; [t1|t1|solve_ok|]; do 2 right; apply ok_union; [t1|constructor]|constructor]. }
  repeats. eapply (listed_twice _ [] _ [] [] [_]); [do 2 right; left; reflexivity|]. vm_compute. reflexivity.
Qed.
Print Assumptions C67_union_refuted.
(** Two choices in a sequence: both the enum and the member are called after the type. *)
Definition two_choices : node := sch [cty "Way" [seq [el "choice" [] [typed "road" "xs:int"; typed "rail" "xs:string"]; el "choice" [] [typed "day" "xs:int"; typed "night" "xs:string"]]]].
Theorem C67_choices_refuted : forall u, clashing u two_choices /\
  exists f its, parse u [two_choices] = Ok f /\ file_items u f (rf_types f) its /\ ~ distinct_members its.
Proof.
  intros u. unfold two_choices. split.
  - apply with_conditions; [conditions; split; [reflexivity|]; cbn [sch children]; solve_ok|]. clashes.
    eapply (twice_defined _ [lit "way"] (rust u "WayChoice") [_] [] []). vm_compute. reflexivity.
  - eexists. eexists. split; [vm_compute; reflexivity|]. split; [cbn [rf_types]; repeat econstructor|].
    eapply (listed_twice _ [] _ [] [] []); [left; reflexivity|]. vm_compute. reflexivity.
Qed.
Print Assumptions C67_choices_refuted.
