(** Property theorems C33-C39, C44-C46, C56-C57: from schema documents to entities. *)
From Coq Require Import NArith ZArith Bool Ascii String List Lia.
From Verif Require Import Str SpecLex Xml Names Entity Parser ParserFacts SpecSchema ParserProofs.
Import ListNotations.
Local Open Scope string_scope.
Local Open Scope list_scope.
Local Open Scope N_scope.

(** Elements for the examples. *)
Definition el (t : string) (a : list (string * string)) (cs : list node) : node :=
  Elem (lit t) (map (fun '(x, y) => (lit x, lit y)) a) [] cs.
Definition u1 : uni := {| u_alphabetic := fun _ => false; u_numeric := fun _ => false;
                          u_lower := fun _ => false; u_upper := fun _ => false |}.

(** C33: the container of an element as a function of its occurrence attributes. *)
Theorem C33_container : forall n m, element_modifier n = m <-> container n m.
Proof. exact container_iff. Qed.
Print Assumptions C33_container.
(** Compared with XML Schema: for a consistent pair of bounds it is the natural one (Vec, Option,
    plain) unless the element is optional and has a written maxOccurs of 0 or 1; then it is plain. *)
Theorem C33_natural_container : forall n a b, xsd_min n a -> xsd_max n b -> at_most a b ->
  (natural a b (element_modifier n) <-> ~ (a = 0 /\ present n "maxOccurs" /\ (b = Some 0 \/ b = Some 1))) /\
  (~ natural a b (element_modifier n) -> element_modifier n = MNone).
Proof. exact natural_iff. Qed.
Print Assumptions C33_natural_container.
Theorem C33_natural_container_refuted : exists n a b, xsd_min n a /\ xsd_max n b /\ at_most a b /\
  ~ natural a b (element_modifier n).
Proof.
  exists (el "element" [("minOccurs", "0"); ("maxOccurs", "1")] []), 0, (Some 1).
  assert (C : forall s k, parse_unsigned u64_max (lit s) = Some k -> count_text (lit s) k) by (intros; apply count_text_iff; auto).
  split; [right; exists (lit "0"); split; [reflexivity|apply C; reflexivity]|].
  split; [right; right; exists (lit "1"), 1; repeat split; try reflexivity; apply (C "1"%string 1); reflexivity|].
  split; [cbn; lia|]. intros (_ & H & _). specialize (H (N.le_refl 1) eq_refl). discriminate.
Qed.
Print Assumptions C33_natural_container_refuted.
Example C33_ex1 : map element_modifier
  [el "element" [] []; el "element" [("minOccurs", "0")] []; el "element" [("minOccurs", "0"); ("maxOccurs", "unbounded")] [];
   el "element" [("maxOccurs", "+07")] []; el "element" [("minOccurs", "2")] []; el "element" [("minOccurs", "x")] [];
   el "element" [("minOccurs", "0"); ("maxOccurs", "1")] []; el "element" [("minOccurs", "0"); ("maxOccurs", "many")] []]
  = [MNone; MOption; MArray; MArray; MArray; MNone; MNone; MOption].
Proof. reflexivity. Qed.

(** C34: a local attribute; when it can be parsed. *)
Theorem C34_attribute : forall u n p anc e, calm p -> ~ tag "schema" p -> tag "attribute" n ->
  (parse_node u n (p :: anc) = Ok e <-> exists f, e = EField f /\ attribute_field n f).
Proof. exact attribute_iff. Qed.
Print Assumptions C34_attribute.
Theorem C34_attribute_accepted : forall u n p anc, calm p -> ~ tag "schema" p -> tag "attribute" n ->
  ((exists e, parse_node u n (p :: anc) = Ok e) <->
   (present n "name" \/ present n "ref") /\ exists m, use_means n m).
Proof. exact attribute_total. Qed.
Print Assumptions C34_attribute_accepted.
Example C34_ex1 : parse_node u1 (el "attribute" [("name", "a"); ("type", "xs:int"); ("use", "required")] []) [el "complexType" [] []]
  = Ok (EField {| fl_name := lit "a"; fl_type := lit "xs:int"; fl_comment := None; fl_subtypes := [];
                  fl_source := FromAttribute; fl_mods := [MNone] |}).
Proof. reflexivity. Qed.
Example C34_ex2 : parse_node u1 (el "attribute" [("ref", "xml:lang")] []) [el "complexType" [] []]
  = Ok (EField {| fl_name := lit "xml:lang"; fl_type := lit "xml:lang"; fl_comment := None; fl_subtypes := [];
                  fl_source := FromAttribute; fl_mods := [MOption] |}).
Proof. reflexivity. Qed.
Example C34_ex3 : parse_node u1 (el "attribute" [("name", "a"); ("use", "maybe")] []) [el "complexType" [] []] = Panic.
Proof. reflexivity. Qed.

(** C35: the entities of a schema are those of its declarations, one each, in order. *)
Theorem C35_declarations : forall u n anc f, tag "schema" n -> parse_schema u n anc = Ok f ->
  Forall2 declares (declarations n) (rf_types f) /\
  Forall2 declares_group (tagged_children ["attributeGroup"] n) (rf_groups f).
Proof. exact schema_ok. Qed.
Print Assumptions C35_declarations.
(** Top-level groups, notations, redefinitions and misplaced elements stop the parser. *)
Theorem C35_unsupported_declarations : forall u n anc c f, tag "schema" n -> In c (children n) ->
  one ["group"; "notation"; "redefine"; "key"; "keyRef"; "unique"; "field"; "selector"; "appInfo";
       "documentation"; "schema"; "extension"; "restriction"] c ->
  parse_schema u n anc <> Ok f.
Proof. exact top_level_fails. Qed.
Print Assumptions C35_unsupported_declarations.
Definition schema1 : node := el "schema" []
  [ Text (lit "x"); el "annotation" [] []; el "import" [("schemaLocation", "a.xsd"); ("namespace", "urn:a")] [];
    el "element" [("name", "E"); ("type", "T")] []; Other;
    el "attributeGroup" [("name", "G")] [el "attribute" [("name", "g")] []];
    el "complexType" [("name", "T")]
      [ el "sequence" [] [ el "element" [("name", "a"); ("type", "xs:int"); ("minOccurs", "0")] [];
                           el "element" [("name", "t"); ("type", "T")] [];
                           el "element" [("name", "b")] [el "simpleType" [] [el "restriction" [("base", "xs:string")] [el "enumeration" [("value", "x-1")] []]]];
                           el "choice" [] [el "element" [("name", "c"); ("type", "C")] []; el "sequence" [] []]; el "any" [] [] ];
        el "attribute" [("name", "at"); ("use", "prohibited")] [] ];
    el "simpleType" [("name", "S")] [el "union" [("memberTypes", " A  B ")] [el "simpleType" [] [el "list" [("itemType", "I")] []]]] ].
Example C35_ex1 : match parse_schema u1 schema1 [] with
  | Ok f => map entity_name (rf_types f) = [lit "urn:a"; lit "E"; lit "T"; lit "S"] /\ map entity_name (rf_groups f) = [lit "G"]
  | _ => False end.
Proof. vm_compute. auto. Qed.

(** C36: the fields of a sequence (or all). *)
Theorem C36_sequence_fields : forall u n anc e, one ["sequence"; "all"] n -> parse_node u n anc = Ok e ->
  exists P s, e = EStruct s /\ enclosing anc P /\ st_name s = P /\ st_groups s = [] /\ st_subtypes s = [] /\
    (forall p r, anc = p :: r -> comment_ok p (st_comment s)) /\
    Forall2 (fun c f => particle_field (fun t e => parse_node u t (c :: n :: anc) = Ok e) P c f) (particles n) (st_fields s).
Proof. exact sequence_ok. Qed.
Print Assumptions C36_sequence_fields.
(** Nested sequences, alls and groups are not supported: the parser panics. *)
Theorem C36_nested_model_group : forall u n anc c e, one ["sequence"; "all"] n -> In c (children n) ->
  one ["sequence"; "all"; "group"] c -> parse_node u n anc <> Ok e.
Proof. exact nested_group_fails. Qed.
Print Assumptions C36_nested_model_group.
Example C36_ex1 : match parse_schema u1 schema1 [] with
  | Ok {| rf_types := [_; _; EStruct s; _] |} =>
      map (fun f => (fl_name f, fl_type f, fl_mods f)) (st_fields s) =
      [(lit "a", lit "xs:int", [MOption]); (lit "t", lit "T", [MNone; MRecursive]); (lit "b", lit "bType", [MNone]);
       (lit "TChoice", lit "TChoice", []); (lit "any", lit "String", [MEmpty]); (lit "at", lit "String", [MEmpty])]
  | _ => False end.
Proof. vm_compute. auto. Qed.
Example C36_ex2 : parse_node u1 (el "sequence" [] [el "sequence" [] []]) [el "complexType" [("name", "T")] []] = Panic.
Proof. reflexivity. Qed.

(** C37: restrictions of simple types. *)
Theorem C37_restriction : forall u n p anc e, tag "restriction" n -> tag "simpleType" p ->
  parse_node u n (p :: anc) = Ok e ->
  exists b, has n "base" b /\
    (plain_enumeration u n -> exists P en, e = EEnum en /\ enclosing (p :: anc) P /\ en_name en = P ++ lit "Enum" /\
       en_type en = b /\ en_source en = OfRestriction /\ en_subtypes en = [] /\
       Forall2 enum_of_value (tagged_children ["enumeration"] n) (en_cases en)) /\
    (~ plain_enumeration u n -> exists t, e = ETuple t /\ tu_type t = b /\ tu_mods t = [] /\ tu_subtypes t = [] /\
       Forall2 facet_ok (tagged_children facet_names n) (tu_facets t)).
Proof. exact restriction_ok. Qed.
Print Assumptions C37_restriction.
Example C37_ex1 : match parse_node u1 (el "restriction" [("base", "xs:string")]
    [el "enumeration" [("value", "a")] []; Text (lit " "); el "maxLength" [("value", "3")] []; el "enumeration" [("value", "b-2")] []]) [el "simpleType" [("name", "S")] []] with
  | Ok (EEnum en) => en_name en = lit "SEnum" /\ map ec_value (en_cases en) = [lit "a"; lit "b-2"] | _ => False end.
Proof. vm_compute. auto. Qed.
Example C37_ex2 : match parse_node u1 (el "restriction" [("base", "xs:string")]
    [el "enumeration" [("value", "a")] []; el "enumeration" [("value", "b 2")] []; el "whiteSpace" [("value", "collapse")] []]) [el "simpleType" [("name", "S")] []] with
  | Ok (ETuple t) => map fa_type (tu_facets t) = [FEnumeration (lit "a"); FEnumeration (lit "b 2"); FWhiteSpace WsCollapse] | _ => False end.
Proof. vm_compute. auto. Qed.

(** C38: choices. *)
Theorem C38_choice : forall u n anc e, tag "choice" n -> parse_node u n anc = Ok e ->
  exists en, e = EEnum en /\ en_name en = [] /\ en_comment en = None /\ choice_enum n en.
Proof. exact choice_ok. Qed.
Print Assumptions C38_choice.
Example C38_ex1 : match parse_node u1 (el "choice" [] [el "element" [("name", "a"); ("type", "A"); ("maxOccurs", "5")] []; el "sequence" [] []; el "any" [] [];
      el "element" [("ref", "b"); ("name", "z")] []; el "element" [("name", "c")] [el "complexType" [] []]]) [] with
  | Ok (EEnum en) => map (fun k => (ec_name k, ec_type k, ec_mods k)) (en_cases en) =
      [(lit "a", Some (lit "A"), [MArray]); (lit "b", Some (lit "b"), [MNone]); (lit "c", None, [MNone])] | _ => False end.
Proof. vm_compute. auto. Qed.

(** C39: unions. *)
Theorem C39_union : forall u n anc e, tag "union" n -> parse_node u n anc = Ok e ->
  exists A, Forall2 attribute_field (attribute_children n) A /\
    (attribute_children n = [] -> exists en, e = EEnum en /\ en_name en = [] /\
       union_enum (fun c e => parse_node u c (n :: anc) = Ok e) n en) /\
    (attribute_children n <> [] -> exists s f P en, e = EStruct s /\ st_name s = [] /\ st_fields s = A ++ [f] /\
       enclosing anc P /\ fl_name f = P ++ lit "Choice" /\ fl_type f = P ++ lit "Choice" /\ fl_source f = FromElement /\
       fl_subtypes f = [EEnum en] /\ en_name en = P ++ lit "Choice" /\
       union_enum (fun c e => parse_node u c (n :: anc) = Ok e) n en).
Proof. exact union_ok. Qed.
Print Assumptions C39_union.
Theorem C39_tokens_unique : forall s a b, blank_tokens s a -> blank_tokens s b -> a = b.
Proof. exact blank_tokens_unique. Qed.
Print Assumptions C39_tokens_unique.
Example C39_ex1 : match parse_schema u1 schema1 [] with
  | Ok {| rf_types := [_; _; _; EEnum en] |} =>
      map (fun k => (ec_name k, ec_type k)) (en_cases en) =
        [(lit "A", Some (lit "A")); (lit "B", Some (lit "B")); (lit "EnumCase_0", Some (lit "EnumCaseType_0"))] /\
      map entity_name (en_subtypes en) = [lit "EnumCaseType_0"]
  | _ => False end.
Proof. vm_compute. auto. Qed.

(** C44: an element whose type name ends with the enclosing name gets [Vec], the others keep
    their container. *)
Theorem C44_recursive_types : forall u n anc s, one ["sequence"; "all"] n -> parse_node u n anc = Ok (EStruct s) ->
  Forall2 (fun c f => tag "element" c ->
    (suffix (st_name s) (fl_type f) -> forall t, modify_type t (fl_mods f) = lit "Vec<" ++ t ++ lit ">") /\
    (~ suffix (st_name s) (fl_type f) -> exists m, container c m /\ fl_mods f = [m])) (particles n) (st_fields s).
Proof. exact recursive_ok. Qed.
Print Assumptions C44_recursive_types.
(** Unrelated types are hit too: a required VideoSource in Source becomes a Vec. *)
Theorem C44_only_recursive_refuted : forall u, exists n anc s f, one ["sequence"; "all"] n /\
  enclosing anc (lit "Source") /\ parse_node u n anc = Ok (EStruct s) /\ st_fields s = [f] /\
  fl_type f = lit "VideoSource" /\ modify_type (fl_type f) (fl_mods f) = lit "Vec<VideoSource>".
Proof.
  intros u. exists (el "sequence" [] [el "element" [("name", "v"); ("type", "VideoSource")] []]), [el "complexType" [("name", "Source")] []].
  eexists _, _. split; [eexists; split; [left; reflexivity|reflexivity]|]. split; [apply enc_named; [discriminate|reflexivity]|].
  split; [reflexivity|]. split; [reflexivity|]. split; reflexivity.
Qed.
Print Assumptions C44_only_recursive_refuted.
(** Recursion through a choice or through another type is not broken: [B] holds an [A] and
    [A] holds a [B] without indirection. *)
Theorem C44_finite_size_refuted : forall u, exists n f a b fa fb, ok_schema n /\ parse_schema u n [] = Ok f /\
  rf_types f = [EStruct a; EStruct b] /\ st_fields a = [fa] /\ st_fields b = [fb] /\
  fl_type fa = st_name b /\ fl_type fb = st_name a /\
  modify_type (fl_type fa) (fl_mods fa) = st_name b /\ modify_type (fl_type fb) (fl_mods fb) = st_name a.
Proof.
  intros u.
  pose (ty := fun a b => el "complexType" [("name", a)] [el "sequence" [] [el "element" [("name", "x"); ("type", b)] []]]).
  assert (O : forall a b, ok GlobalComplex (ty a b)).
  { intros a b. apply ok_global_complex; [reflexivity|exists (lit a); reflexivity|]. constructor; [|constructor]. do 4 right. left.
    apply ok_sequence; [eexists; split; [left; reflexivity|reflexivity]|]. constructor; [|constructor]. right. left.
    apply ok_typed_element; [reflexivity|]. left. exists (lit b). reflexivity. }
  exists (el "schema" [] [ty "A" "B"; ty "B" "A"])%string. eexists _, _, _, _, _.
  split; [split; [reflexivity|constructor; [|constructor; [|constructor]]]; do 4 right; left; apply O|].
  split; [reflexivity|]. split; [reflexivity|]. repeat (split; [reflexivity|]). reflexivity.
Qed.
Print Assumptions C44_finite_size_refuted.

(** C45: the namespaces of the schema. *)
Theorem C45_namespaces : forall u n anc f, parse_schema u n anc = Ok f ->
  match attribute n (lit "targetNamespace") with
  | Some tn => is_first (fun a => ns_uri a = tn) (namespaces n) (rf_target_ns f)
  | None => rf_target_ns f = None
  end /\
  (let uri ns := ns_uri ns = lit "http://www.w3.org/2001/XMLSchema" in
   let named_uri ns := uri ns /\ ns_name ns <> None in
   (exists x, rf_xsd_ns f = Some x /\ first_such named_uri (namespaces n) x) \/
   ((forall x, In x (namespaces n) -> ~ named_uri x) /\ is_first uri (namespaces n) (rf_xsd_ns f))).
Proof. exact namespaces_ok. Qed.
Print Assumptions C45_namespaces.
Definition xs_ns (p : option string) : namespace :=
  {| ns_name := match p with Some q => Some (lit q) | None => None end; ns_uri := lit "http://www.w3.org/2001/XMLSchema" |}.
Definition tt_ns : namespace := {| ns_name := Some (lit "tt"); ns_uri := lit "urn:tt" |}.
Example C45_ex1 : parse_schema u1 (Elem (lit "schema") [(lit "targetNamespace", lit "urn:tt")] [xs_ns None; tt_ns; xs_ns (Some "xsd"%string); xs_ns (Some "xs"%string)] []) []
  = Ok {| rf_types := []; rf_groups := []; rf_target_ns := Some tt_ns; rf_xsd_ns := Some (xs_ns (Some "xsd"%string)) |}.
Proof. reflexivity. Qed.

(** C46: on the supported part of XML Schema the parser does not panic. *)
Theorem C46_supported : forall u n anc, ok_schema n -> Forall calm anc -> exists f, parse_schema u n anc = Ok f.
Proof. exact schema_supported. Qed.
Print Assumptions C46_supported.
Ltac t1 := reflexivity || (eexists; reflexivity).
Example C46_ex1 : ok_schema schema1.
Proof.
  assert (A : forall c, is_element c = false -> ignorable c) by (intros; left; auto).
  split; [reflexivity|]. unfold schema1. cbn [el children].
  constructor; [left; left; reflexivity|]. constructor; [left; right; reflexivity|].
  constructor; [right; left; apply ok_import; eexists; split; [left; reflexivity|reflexivity]|].
  constructor; [do 3 right; left; apply ok_global_element; [t1|t1|constructor]|].
  constructor; [left; left; reflexivity|].
  constructor; [do 6 right; apply ok_global_group; [t1|t1|constructor; [|constructor]]; right; left; apply ok_attribute; [t1|left; t1|exists MOption; apply use_absent; reflexivity]|].
  constructor.
  { do 4 right. left. apply ok_global_complex; [t1|t1|]. constructor; [|constructor; [|constructor]].
    - do 4 right. left. apply ok_sequence; [eexists; split; [left; reflexivity|reflexivity]|].
      constructor; [right; left; apply ok_typed_element; [t1|left; t1]|].
      constructor; [right; left; apply ok_typed_element; [t1|left; t1]|].
      constructor.
      { right. left. eapply (ok_anonymous_element _ [] _ []); [reflexivity|reflexivity|constructor|]. left.
        eapply ok_local_simple; [reflexivity|reflexivity| |].
        - exists [], []. split; [reflexivity|]. split; [reflexivity|]. split; [discriminate|]. split; constructor.
        - left. apply ok_simple_restriction; [t1|t1|]. constructor; [|constructor]. right. exists (FEnumeration (lit "x-1")). constructor; reflexivity. }
      constructor.
      { do 3 right. apply ok_choice; [t1|]. constructor; [right; eexists; split; [left; reflexivity|reflexivity]|].
        constructor; [right; eexists; split; [right; right; left; reflexivity|reflexivity]|constructor]. }
      constructor; [do 2 right; left; apply ok_any; t1|constructor].
    - right. left. apply ok_attribute; [t1|left; t1|exists MEmpty; apply use_prohibited; reflexivity]. }
  constructor; [|constructor]. do 2 right. left. eapply ok_global_simple; [t1|t1| |].
  - exists [], []. split; [reflexivity|]. split; [reflexivity|]. split; [discriminate|]. split; constructor.
  - do 2 right. apply ok_union; [t1|]. constructor; [|constructor]. right. eapply ok_local_simple; [t1|t1| |].
    + exists [], []. split; [reflexivity|]. split; [reflexivity|]. split; [discriminate|]. split; constructor.
    + right. left. apply ok_list_typed; t1.
Qed.

(** C56: the composition of a complex type: the fields of its (last) content, then its own
    attributes; a choice becomes the enum [NameChoice] beside a struct with the attributes. *)
Theorem C56_sequence_type : forall u n anc e c, tag "complexType" n -> parse_node u n anc = Ok e ->
  final (tagged_children content_tags n) c -> one ["sequence"; "all"] c -> has_elements c ->
  exists nm P s F A, e = EStruct s /\ type_name n anc nm /\ enclosing (n :: anc) P /\ st_name s = nm /\
    st_fields s = F ++ A /\ Forall2 attribute_field (attribute_children n) A /\
    Forall2 (fun x f => particle_field (fun t e => parse_node u t (x :: c :: n :: anc) = Ok e) P x f) (particles c) F /\
    comment_ok n (st_comment s) /\ st_groups s = [].
Proof. exact complex_sequence. Qed.
Print Assumptions C56_sequence_type.
Theorem C56_choice_type : forall u n anc e c, tag "complexType" n -> parse_node u n anc = Ok e ->
  final (tagged_children content_tags n) c -> tag "choice" c -> has_elements c ->
  exists nm en s A f, e = EEnum en /\ type_name n anc nm /\ en_name en = nm ++ lit "Choice" /\ en_source en = OfChoice /\
    Forall2 choice_case (tagged_children ["element"] c) (en_cases en) /\ en_subtypes en = [EStruct s] /\
    st_name s = nm /\ st_fields s = A ++ [f] /\ choice_field nm f /\
    Forall2 attribute_field (attribute_children n) A /\ Forall2 group_ref (group_children n) (st_groups s) /\
    comment_ok n (st_comment s).
Proof. exact complex_choice. Qed.
Print Assumptions C56_choice_type.
Theorem C56_attributes_only_type : forall u n anc e, tag "complexType" n -> parse_node u n anc = Ok e ->
  (forall c, final (tagged_children content_tags n) c -> ~ has_elements c) ->
  exists nm s, e = EStruct s /\ type_name n anc nm /\ st_name s = nm /\ comment_ok n (st_comment s) /\
    Forall2 attribute_field (attribute_children n) (st_fields s) /\ Forall2 group_ref (group_children n) (st_groups s).
Proof. exact complex_plain. Qed.
Print Assumptions C56_attributes_only_type.
(** A derived type: the content of the derivation, its attributes and the placeholder of the
    base, then the attributes written beside the content. *)
Theorem C56_derived_type : forall u n anc e c d t, tag "complexType" n -> parse_node u n anc = Ok e ->
  final (tagged_children content_tags n) c -> tag "complexContent" c -> final (particles c) d ->
  In t ["extension"; "restriction"] -> tag t d ->
  exists nm s B A b, e = EStruct s /\ type_name n anc nm /\ st_name s = nm /\ base_placeholder d b /\
    Forall2 attribute_field (attribute_children d) A /\ Forall2 attribute_field (attribute_children n) B /\
    comment_ok d (st_comment s) /\
    (forall q, final (tagged_children (derivation_tags t) d) q -> one ["sequence"; "all"] q ->
       exists P F, enclosing (d :: c :: n :: anc) P /\ st_fields s = F ++ A ++ [b] ++ B /\ st_groups s = [] /\
         Forall2 (fun x f => particle_field (fun t e => parse_node u t (x :: q :: d :: c :: n :: anc) = Ok e) P x f) (particles q) F) /\
    ((forall q, final (tagged_children (derivation_tags t) d) q -> ~ one ["sequence"; "all"] q) ->
       st_fields s = A ++ [b] ++ B /\ Forall2 group_ref (group_children d) (st_groups s)).
Proof. exact complex_derived. Qed.
Print Assumptions C56_derived_type.
Theorem C56_simple_content_type : forall u n anc e c d, tag "complexType" n -> parse_node u n anc = Ok e ->
  final (tagged_children content_tags n) c -> tag "simpleContent" c -> final (particles c) d -> tag "extension" d ->
  exists nm s B A b, e = EStruct s /\ type_name n anc nm /\ st_name s = nm /\ base_placeholder d b /\
    Forall2 attribute_field (attribute_children d) A /\ Forall2 attribute_field (attribute_children n) B /\
    comment_ok d (st_comment s) /\ st_fields s = A ++ [b] ++ B /\ Forall2 group_ref (group_children d) (st_groups s).
Proof. exact complex_simple. Qed.
Print Assumptions C56_simple_content_type.
(** The sequence of an extension is lost when a group reference follows it. *)
Theorem C56_extension_elements_refuted : forall u, exists n f s, ok_schema n /\ parse_schema u n [] = Ok f /\
  rf_types f = [EStruct s] /\ n = el "schema" [] [el "complexType" [("name", "T")] [el "complexContent" []
    [el "extension" [("base", "B")] [el "sequence" [] [el "element" [("name", "x"); ("type", "X")] []]; el "attributeGroup" [("ref", "G")] []]]]] /\
  map (fun g => fl_name g) (st_fields s) = [lit "__base__"].
Proof.
  intros u. eexists _, _, _. split; [|split; [|split; [|split; [reflexivity|]]]].
  - split; [reflexivity|]. constructor; [|constructor]. do 4 right. left. apply ok_global_complex; [t1|t1|]. constructor; [|constructor].
    do 6 right. left. eapply ok_complex_content; [t1| |].
    + exists [], []. split; [reflexivity|]. split; [reflexivity|]. split; [discriminate|]. split; constructor.
    + apply ok_derivation; [eexists; split; [left; reflexivity|reflexivity]|t1|]. constructor.
      * do 4 right. left. apply ok_sequence; [eexists; split; [left; reflexivity|reflexivity]|]. constructor; [|constructor]. right. left.
        apply ok_typed_element; [t1|left; t1].
      * constructor; [|constructor]. do 3 right. left. apply ok_group_reference; t1.
  - reflexivity.
  - reflexivity.
  - reflexivity.
Qed.
Print Assumptions C56_extension_elements_refuted.
(** A reference to an attribute group beside a sequence is lost. *)
Theorem C56_group_reference_refuted : forall u, exists n e s, tag "complexType" n /\ group_children n <> [] /\
  parse_node u n [el "schema" [] []] = Ok e /\ e = EStruct s /\ st_groups s = [].
Proof.
  intros u. exists (el "complexType" [("name", "T")] [el "sequence" [] [el "element" [("name", "x"); ("type", "X")] []]; el "attributeGroup" [("ref", "G")] []]).
  eexists _, _. split; [reflexivity|]. split; [discriminate|]. split; [reflexivity|]. split; reflexivity.
Qed.
Print Assumptions C56_group_reference_refuted.
Example C56_ex1 : match parse_node u1 (el "complexType" [("name", "T")] [el "complexContent" []
    [el "extension" [("base", "B")] [el "sequence" [] [el "element" [("name", "x"); ("type", "X")] []]; el "attribute" [("name", "a")] []]];
     el "attribute" [("name", "z")] []]) [el "schema" [] []] with
  | Ok (EStruct s) => map (fun f => fl_name f) (st_fields s) = [lit "x"; lit "a"; lit "__base__"; lit "z"] | _ => False end.
Proof. vm_compute. auto. Qed.
Example C56_ex2 : match parse_node u1 (el "complexType" [("name", "T")] [el "choice" [] [el "element" [("name", "x"); ("type", "X")] []]; el "attribute" [("name", "z")] []]) [el "schema" [] []] with
  | Ok (EEnum en) => en_name en = lit "TChoice" /\ map entity_name (en_subtypes en) = [lit "T"] | _ => False end.
Proof. vm_compute. auto. Qed.

(** C57: list types. *)
Theorem C57_list : forall u n anc e, tag "list" n -> parse_node u n anc = Ok e ->
  exists t, e = ETuple t /\
    (forall it, has n "itemType" it -> tu_type t = it /\ tu_mods t = [MArray] /\ tu_subtypes t = [] /\ tu_facets t = []) /\
    (absent n "itemType" -> exists c ec, first_child n "simpleType" c /\ parse_node u c (n :: anc) = Ok ec /\
       ((exists en, ec = EEnum en /\ tu_type t = en_name en /\ tu_mods t = [MArray] /\ tu_subtypes t = [EEnum en] /\ tu_facets t = []) \/
        (exists t0, ec = ETuple t0 /\ tu_type t = tu_type t0 /\ tu_mods t = tu_mods t0 ++ [MArray] /\
           tu_subtypes t = tu_subtypes t0 /\ tu_facets t = tu_facets t0))).
Proof. exact list_ok. Qed.
Print Assumptions C57_list.
(** The item type of a list of an anonymous union has no name: the generated text is [Vec<>]. *)
Theorem C57_item_type_named_refuted : forall u, exists n t, ok SimpleList n /\ parse_node u n [el "simpleType" [("name", "S")] []] = Ok (ETuple t) /\
  tu_type t = [] /\ modify_type (tu_type t) (tu_mods t) = lit "Vec<>".
Proof.
  intros u. exists (el "list" [] [el "simpleType" [] [el "union" [("memberTypes", "A B")] []]]). eexists. split.
  - eapply ok_list_nested; [t1|t1| |].
    + exists [], []. split; [reflexivity|]. split; [reflexivity|]. split; [discriminate|]. split; constructor.
    + eapply ok_local_simple; [t1|t1| |].
      * exists [], []. split; [reflexivity|]. split; [reflexivity|]. split; [discriminate|]. split; constructor.
      * do 2 right. apply ok_union; [t1|constructor].
  - split; [reflexivity|]. split; reflexivity.
Qed.
Print Assumptions C57_item_type_named_refuted.
Example C57_ex1 : match parse_node u1 (el "list" [] [el "simpleType" [] [el "restriction" [("base", "xs:string")] [el "enumeration" [("value", "x")] []]]]) [el "simpleType" [("name", "S")] []] with
  | Ok (ETuple t) => tu_type t = lit "SEnum" /\ modify_type (tu_type t) (tu_mods t) = lit "Vec<SEnum>" | _ => False end.
Proof. vm_compute. auto. Qed.
