(** Model of xsd-parser/src/parser/*.rs: from the schema element to entities.

    A node is given with the list of its ancestor elements, nearest first; the [parent]
    argument of the Rust functions is always the first of them.  The parser never returns an
    error value: the outcome is [Ok] or [Panic].  Recursion is on the tree: [parse_node] first
    takes the results of all children and hands them to the function for the element
    ([kids]: each child with its result, used only where the code calls [parse_node]). *)
From Coq Require Import List NArith Bool Ascii String.
From Verif Require Import Str Xml Names Entity.
Import ListNotations.
Local Open Scope N_scope.

(** Elements without data (xsd_elements.rs l.4-38) *)
Inductive kind :=
| KAll | KAnnotation | KAny | KAnyAttribute | KAppInfo | KAttribute | KAttributeGroup | KChoice
| KComplexContent | KComplexType | KDocumentation | KElement | KField | KGroup | KImport
| KInclude | KKey | KKeyRef | KList | KNotation | KRedefine | KSchema | KSelector | KSequence
| KSimpleContent | KSimpleType | KUnion | KUnique.
Scheme Equality for kind.

(** xsd_elements.rs l.4-38, 63-74 *)
Inductive extension_type := XComplexContent | XSimpleContent.
Inductive restriction_type := RComplexContent | RSimpleContent | RSimpleType.
Inductive etype :=
| TKind (k : kind)
| TExtension (x : extension_type)
| TRestriction (r : restriction_type)
| TFacet (f : facet_type)
| TUnknown
| TError.

(** [xsd_type() == k] for the element types without data *)
Definition is_kind (k : kind) (t : etype) : bool :=
  match t with TKind k' => kind_beq k k' | _ => false end.
(** [LIST.contains(&xsd_type())] *)
Definition one_of (ks : list kind) (t : etype) : bool := existsb (fun k => is_kind k t) ks.

(** The tags with a constant meaning (xsd_elements.rs l.89-139) *)
Definition kind_tags : list (str * kind) := map (fun '(a, b) => (lit a, b))
  [("all", KAll); ("annotation", KAnnotation); ("any", KAny); ("anyAttribute", KAnyAttribute);
   ("appInfo", KAppInfo); ("attribute", KAttribute); ("attributeGroup", KAttributeGroup);
   ("choice", KChoice); ("complexContent", KComplexContent); ("complexType", KComplexType);
   ("documentation", KDocumentation); ("element", KElement); ("field", KField);
   ("group", KGroup); ("import", KImport); ("include", KInclude); ("key", KKey);
   ("keyRef", KKeyRef); ("list", KList); ("notation", KNotation); ("redefine", KRedefine);
   ("schema", KSchema); ("selector", KSelector); ("sequence", KSequence);
   ("simpleContent", KSimpleContent); ("simpleType", KSimpleType); ("union", KUnion);
   ("unique", KUnique)]%string.

(** The facets with a text value (xsd_elements.rs l.140-150) *)
Definition facet_tags : list (str * (str -> facet_type)) := map (fun '(a, b) => (lit a, b))
  [("enumeration"%string, FEnumeration); ("fractionDigits"%string, FFractionDigits);
   ("length"%string, FLength); ("maxExclusive"%string, FMaxExclusive);
   ("maxInclusive"%string, FMaxInclusive); ("maxLength"%string, FMaxLength);
   ("minExclusive"%string, FMinExclusive); ("minInclusive"%string, FMinInclusive);
   ("minLength"%string, FMinLength); ("pattern"%string, FPattern);
   ("totalDigits"%string, FTotalDigits)].

(** xsd_elements.rs l.101-111 *)
Definition extension_of (anc : list node) : etype :=
  match anc with
  | p :: _ => if str_eqb (tag_name p) (lit "complexContent") then TExtension XComplexContent
              else if str_eqb (tag_name p) (lit "simpleContent") then TExtension XSimpleContent
              else TError
  | [] => TError
  end.
(** xsd_elements.rs l.121-132 *)
Definition restriction_of (anc : list node) : etype :=
  match anc with
  | p :: _ => if str_eqb (tag_name p) (lit "complexContent") then TRestriction RComplexContent
              else if str_eqb (tag_name p) (lit "simpleContent") then TRestriction RSimpleContent
              else if str_eqb (tag_name p) (lit "simpleType") then TRestriction RSimpleType
              else TError
  | [] => TError
  end.
(** xsd_elements.rs l.189-191; restriction.rs l.135-138 reads the value kept in the facet *)
Definition attr_value (n : node) : option str := attribute n (lit "value").
(** xsd_elements.rs l.151-159 *)
Definition white_space_of (n : node) : res etype :=
  match attr_value n with
  | Some v => if str_eqb v (lit "preserve") then Ok (TFacet (FWhiteSpace WsPreserve))
              else if str_eqb v (lit "replace") then Ok (TFacet (FWhiteSpace WsReplace))
              else if str_eqb v (lit "collapse") then Ok (TFacet (FWhiteSpace WsCollapse))
              else Panic
  | None => Panic
  end.

(** xsd_elements.rs l.86-163; l.193-197 *)
Definition xsd_type (n : node) (anc : list node) : res etype :=
  let t := tag_name n in
  match assoc t kind_tags with
  | Some k => Ok (TKind k)
  | None =>
    if str_eqb t (lit "extension") then Ok (extension_of anc)
    else if str_eqb t (lit "restriction") then Ok (restriction_of anc)
    else if str_eqb t (lit "whiteSpace") then white_space_of n
    else match assoc t facet_tags with
         | Some f => match attr_value n with
                     | Some v => Ok (TFacet (f v))
                     | None => Panic
                     end
         | None => Ok TUnknown
         end
  end.

(** xsd_elements.rs l.165-175 *)
Definition attr_name (n : node) : option str := attribute n (lit "name").
Definition attr_type (n : node) : option str := attribute n (lit "type").
Definition attr_ref (n : node) : option str := attribute n (lit "ref").
Definition has_attribute (n : node) (a : str) : bool :=
  match attribute n a with Some _ => true | None => false end.
Definition or_else {A} (a b : option A) : option A := match a with Some _ => a | None => b end.
Definition unwrap_or {A} (d : A) (a : option A) : A := match a with Some x => x | None => d end.
(** Option::expect / unwrap *)
Definition expect {A} (a : option A) : res A := match a with Some x => Ok x | None => Panic end.

(** xsd_elements.rs l.177-186, 199-203 *)
Inductive use_type := UseRequired | UseProhibited | UseOptional.
Definition attr_use (n : node) : res use_type :=
  let v := unwrap_or (lit "optional") (attribute n (lit "use")) in
  if str_eqb v (lit "optional") then Ok UseOptional
  else if str_eqb v (lit "prohibited") then Ok UseProhibited
  else if str_eqb v (lit "required") then Ok UseRequired
  else Panic.

(** xsd_elements.rs l.205-225 (usize has 64 bits) *)
Inductive max_occurs_t := MaxBounded (n : N) | MaxUnbounded | MaxNone.
Definition min_occurs (n : node) : N :=
  match attribute n (lit "minOccurs") with
  | Some v => unwrap_or 1 (parse_unsigned u64_max v)
  | None => 1
  end.
Definition max_occurs (n : node) : max_occurs_t :=
  match attribute n (lit "maxOccurs") with
  | Some s => if str_eqb s (lit "unbounded") then MaxUnbounded
              else match parse_unsigned u64_max s with Some k => MaxBounded k | None => MaxNone end
  | None => MaxNone
  end.

(** utils.rs l.12-17 *)
Definition target_namespace (n : node) : option namespace :=
  match attribute n (lit "targetNamespace") with
  | Some tn => find (fun a => str_eqb (ns_uri a) tn) (namespaces n)
  | None => None
  end.

(** utils.rs l.19-21 *)
Definition find_child (n : node) (tag : str) : option node :=
  find (fun e => is_element e && str_eqb (tag_name e) tag) (children n).

(** utils.rs l.23-27 *)
Definition get_documentation (n : node) : option str :=
  match find_child n (lit "annotation") with
  | Some a => match find_child a (lit "documentation") with Some d => text d | None => None end
  | None => None
  end.

(** utils.rs l.29-43: of the node whose ancestors are given *)
Fixpoint get_parent_name (anc : list node) : res str :=
  match anc with
  | p :: anc' =>
    bind (xsd_type p anc') (fun t =>
      if is_kind KSchema t then Ok (lit "SchemaElement")
      else match attribute p (lit "name") with
           | Some s => Ok s
           | None => get_parent_name anc'
           end)
  | [] => Ok (lit "UnsupportedName")
  end.

(** utils.rs l.45-47 *)
Definition get_base (n : node) : res str := expect (attribute n (lit "base")).

(** [parent.xsd_type() == Schema] *)
Definition parent_type (anc : list node) : res etype :=
  match anc with p :: anc' => xsd_type p anc' | [] => Ok TUnknown end.

(** ** Iterators: [filter] and [map] with closures that may panic *)
Fixpoint rfilter {A} (p : A -> res bool) (l : list A) : res (list A) :=
  match l with
  | [] => Ok []
  | x :: l' => bind (p x) (fun b => bind (rfilter p l') (fun r => Ok (if b then x :: r else r)))
  end.
Fixpoint rmapm {A B} (f : A -> res B) (l : list A) : res (list B) :=
  match l with
  | [] => Ok []
  | x :: l' => bind (f x) (fun y => bind (rmapm f l') (fun r => Ok (y :: r)))
  end.
Fixpoint last_opt {A} (l : list A) : option A :=
  match l with [] => None | [x] => Some x | _ :: l' => last_opt l' end.

(** A child and the result of [parse_node] on it. *)
Definition kid := (node * res entity)%type.

(** [children().filter(|n| n.is_element() && p(n.xsd_type()))] *)
Definition elements_where (p : etype -> bool) (anc : list node) (ks : list kid) : res (list kid) :=
  rfilter (fun k => if is_element (fst k) then rmap p (xsd_type (fst k) anc) else Ok false) ks.
(** [children().filter(|n| p(n.xsd_type()))] *)
Definition nodes_where (p : etype -> bool) (anc : list node) (ks : list kid) : res (list kid) :=
  rfilter (fun k => rmap p (xsd_type (fst k) anc)) ks.

(** The record updates of [..Default::default()] *)
Definition default_field : field entity :=
  {| fl_name := []; fl_type := []; fl_comment := None; fl_subtypes := []; fl_source := FromNA; fl_mods := [] |}.
Definition empty_struct (name : str) : strukt entity :=
  {| st_name := name; st_comment := None; st_fields := []; st_groups := []; st_subtypes := [] |}.
Definition new_alias (name original : str) (comment : option str) : alias entity :=
  {| al_name := name; al_original := original; al_comment := comment; al_subtypes := [] |}.

(** utils.rs l.49-59, attribute_group.rs l.38-48; [anc] includes the node itself. *)
Definition attributes_to_fields (anc : list node) (ks : list kid) : res (list (field entity)) :=
  bind (nodes_where (one_of [KAttribute; KAnyAttribute]) anc ks)
    (rmapm (fun k => bind (snd k) (fun e => match e with EField f => Ok f | _ => Panic end))).

(** utils.rs l.61-69 *)
Definition attribute_groups_to_aliases (anc : list node) (ks : list kid) : res (list (alias entity)) :=
  bind (nodes_where (is_kind KAttributeGroup) anc ks)
    (rmapm (fun k => bind (snd k) (fun e => match e with EAlias a => Ok a | _ => Panic end))).

(** utils.rs l.71-79 *)
Definition enum_to_field (en : enum entity) : field entity :=
  {| fl_name := en_name en; fl_type := en_name en; fl_comment := None; fl_subtypes := [EEnum en];
     fl_source := FromElement; fl_mods := [] |}.

(** element.rs l.142-170 *)
Definition element_modifier (n : node) : modifier :=
  let mx := max_occurs n in
  match min_occurs n with
  | 0 => match mx with
         | MaxNone => MOption
         | MaxUnbounded => MArray
         | MaxBounded v => if 1 <? v then MArray else MNone
         end
  | 1 => match mx with
         | MaxNone => MNone
         | MaxUnbounded => MArray
         | MaxBounded v => if 1 <? v then MArray else MNone
         end
  | _ => MArray
  end.

(** import.rs *)
Definition parse_import (n : node) : entity :=
  EImport {| im_name := unwrap_or [] (attribute n (lit "namespace"));
             im_location := unwrap_or [] (attribute n (lit "schemaLocation")); im_comment := None |}.

(** any.rs *)
Definition parse_any (n : node) : entity :=
  EField {| fl_name := lit "any"; fl_type := lit "String"; fl_comment := get_documentation n;
            fl_subtypes := []; fl_source := FromElement; fl_mods := [MEmpty] |}.
(** any_attribute.rs *)
Definition parse_any_attribute (n : node) : entity :=
  EField {| fl_name := lit "any_attribute"; fl_type := lit "String"; fl_comment := get_documentation n;
            fl_subtypes := []; fl_source := FromAttribute; fl_mods := [MEmpty] |}.

(** attribute.rs l.39-69 *)
Definition parse_global_attribute (n : node) (anc : list node) (ks : list kid) : res entity :=
  match attr_ref n with
  | Some r => Ok (EAlias (new_alias r r (get_documentation n)))
  | None =>
    bind (expect (attr_name n)) (fun name =>
      match attr_type n with
      | Some ty => Ok (EAlias (new_alias name ty (get_documentation n)))
      | None =>
        bind (elements_where (is_kind KSimpleType) (n :: anc) ks) (fun l =>
          match last_opt l with
          | Some k => rmap (set_name name) (snd k)
          | None => Ok (EStruct (empty_struct name))
          end)
      end)
  end.

(** attribute.rs l.10-37 *)
Definition parse_attribute (n : node) (anc : list node) (ks : list kid) : res entity :=
  bind (parent_type anc) (fun pt =>
    if is_kind KSchema pt then parse_global_attribute n anc ks
    else
      bind (expect (or_else (attr_name n) (attr_ref n))) (fun name =>
        let type_name := unwrap_or (lit "String") (or_else (attr_type n) (attr_ref n)) in
        bind (attr_use n) (fun use =>
          let m := match use with
                   | UseOptional => MOption
                   | UseProhibited => MEmpty
                   | UseRequired => MNone
                   end in
          Ok (EField {| fl_name := name; fl_type := type_name; fl_comment := get_documentation n;
                        fl_subtypes := []; fl_source := FromAttribute; fl_mods := [m] |})))).

(** attribute_group.rs l.10-36 *)
Definition parse_attribute_group (n : node) (anc : list node) (ks : list kid) : res entity :=
  bind (parent_type anc) (fun pt =>
    if is_kind KSchema pt then
      bind (expect (attr_name n)) (fun name =>
        bind (attributes_to_fields (n :: anc) ks) (fun fields =>
          Ok (EStruct (st_set_fields fields (empty_struct name)))))
    else
      bind (expect (attr_ref n)) (fun r =>
        Ok (EAlias (new_alias r r (get_documentation n))))).

(** element.rs l.26-34 *)
Definition element_default (n : node) : entity :=
  EAlias (new_alias (lit "UNSUPPORTED") (unwrap_or (lit "UNSUPPORTED") (attr_type n)) (get_documentation n)).

(** element.rs l.36-71 *)
Definition parse_case_of_choice (n : node) : entity :=
  let case name ty :=
    ECase {| ec_name := name; ec_comment := get_documentation n; ec_value := []; ec_type := ty;
             ec_mods := [element_modifier n]; ec_source := OfChoice |} in
  match attr_ref n with
  | Some r => case r (Some r)
  | None => case (unwrap_or (lit "UNSUPPORTED_ELEMENT_NAME") (attr_name n)) (attr_type n)
  end.

(** element.rs l.13-14 *)
Definition element_content : list kind := [KSimpleType; KComplexType].

(** element.rs l.73-111 *)
Definition parse_field_of_sequence (n : node) (anc : list node) (ks : list kid) : res entity :=
  let name := unwrap_or (unwrap_or (lit "UNSUPPORTED_ELEMENT_NAME") (attr_ref n)) (attr_name n) in
  if has_attribute n (lit "type") || has_attribute n (lit "ref") then
    let type_name := unwrap_or (unwrap_or (lit "String") (attr_ref n)) (attr_type n) in
    Ok (EField {| fl_name := name; fl_type := type_name; fl_comment := get_documentation n;
                  fl_subtypes := []; fl_source := FromElement; fl_mods := [element_modifier n] |})
  else
    bind (nodes_where (one_of element_content) (n :: anc) ks) (fun l =>
      bind (expect (last_opt l)) (fun k =>
        bind (snd k) (fun e =>
          let ft := set_name (name ++ lit "Type")%list e in
          Ok (EField {| fl_name := name; fl_type := entity_name ft; fl_comment := get_documentation n;
                        fl_subtypes := [ft]; fl_source := FromElement; fl_mods := [element_modifier n] |})))).

(** element.rs l.113-140 *)
Definition parse_global_element (n : node) (anc : list node) (ks : list kid) : res entity :=
  bind (expect (attr_name n)) (fun name =>
    match attr_type n with
    | Some ty => Ok (EAlias (new_alias name ty (get_documentation n)))
    | None =>
      bind (nodes_where (one_of element_content) (n :: anc) ks) (fun l =>
        match last_opt l with
        | Some k => rmap (set_name name) (snd k)
        | None => Ok (EStruct (st_set_comment (get_documentation n) (empty_struct name)))
        end)
    end).

(** element.rs l.16-24 *)
Definition parse_element (n : node) (anc : list node) (ks : list kid) : res entity :=
  bind (parent_type anc) (fun pt =>
    match pt with
    | TKind KSchema => parse_global_element n anc ks
    | TKind KAll => parse_field_of_sequence n anc ks
    | TKind KSequence => parse_field_of_sequence n anc ks
    | TKind KChoice => Ok (parse_case_of_choice n)
    | _ => Ok (element_default n)
    end).

(** sequence.rs l.23-41, all.rs l.23-41: the body of [map] *)
Definition to_field (parent_name : str) (e : entity) : res (field entity) :=
  match e with
  | EField sf =>
    Ok (if ends_with parent_name (fl_type sf) then
          {| fl_name := fl_name sf; fl_type := fl_type sf; fl_comment := fl_comment sf;
             fl_subtypes := fl_subtypes sf; fl_source := fl_source sf;
             fl_mods := fl_mods sf ++ [MRecursive] |}
        else sf)
  | EEnum en => Ok (enum_to_field (en_set_name (parent_name ++ lit "Choice") en))
  | _ => Panic
  end%list.
Definition not_annotation (t : etype) : bool := negb (is_kind KAnnotation t).
Definition elements_to_fields (anc : list node) (ks : list kid) (parent_name : str) : res (list (field entity)) :=
  bind (elements_where not_annotation anc ks)
    (rmapm (fun k => bind (snd k) (to_field parent_name))).

(** sequence.rs l.12-21, all.rs l.12-21 *)
Definition parse_sequence (n : node) (anc : list node) (ks : list kid) : res entity :=
  bind (get_parent_name anc) (fun name =>
    bind (elements_to_fields (n :: anc) ks name) (fun fields =>
      Ok (EStruct {| st_name := name;
                     st_comment := match anc with p :: _ => get_documentation p | [] => None end;
                     st_fields := fields; st_groups := []; st_subtypes := [] |}))).

(** choice.rs l.9-25 *)
Definition parse_choice (n : node) (anc : list node) (ks : list kid) : res entity :=
  bind (elements_where (is_kind KElement) (n :: anc) ks) (fun l =>
    bind (rmapm (fun k => bind (snd k) (fun e => match e with ECase c => Ok c | _ => Panic end)) l)
      (fun cases =>
        Ok (EEnum {| en_name := []; en_cases := cases; en_comment := None; en_type := lit "String";
                     en_subtypes := []; en_source := OfChoice |}))).

(** complex_content.rs l.9-17, simple_content.rs l.9-17 *)
Definition parse_content (n : node) (anc : list node) (ks : list kid) : res entity :=
  bind (elements_where not_annotation (n :: anc) ks) (fun l =>
    bind (expect (last_opt l)) (fun k => snd k)).

(** complex_type.rs l.16-23 *)
Definition complex_content_types : list kind :=
  [KAll; KChoice; KComplexContent; KGroup; KSequence; KSimpleContent].

(** complex_type.rs l.53-77 *)
Definition finish_complex (n : node) (anc : list node) (ks : list kid) (name : str)
    (fields : list (field entity)) (res_ : entity) : res entity :=
  match res_ with
  | EStruct st => Ok (EStruct (st_set_name name (st_set_fields (st_fields st ++ fields) st)))
  | EEnum en =>
    let choice := (name ++ lit "Choice")%list in
    bind (attribute_groups_to_aliases (n :: anc) ks) (fun groups =>
      Ok (EEnum {| en_name := choice; en_cases := en_cases en; en_comment := en_comment en;
                   en_type := en_type en; en_source := en_source en;
                   en_subtypes := [EStruct {| st_name := name; st_comment := get_documentation n;
                     st_fields := fields ++ [{| fl_name := choice; fl_type := choice; fl_comment := None;
                                                fl_subtypes := []; fl_source := FromChoice; fl_mods := [] |}];
                     st_groups := groups; st_subtypes := [] |}] |}))
  | e => Ok e
  end%list.

(** complex_type.rs l.25-78 *)
Definition parse_complex_type (n : node) (anc : list node) (ks : list kid) : res entity :=
  bind (parent_type anc) (fun pt =>
    bind (if is_kind KSchema pt then expect (attr_name n) else get_parent_name anc) (fun name =>
      bind (attributes_to_fields (n :: anc) ks) (fun fields =>
        bind (elements_where (one_of complex_content_types) (n :: anc) ks) (fun l =>
          let only_attributes :=
            bind (attribute_groups_to_aliases (n :: anc) ks) (fun groups =>
              Ok (EStruct {| st_name := name; st_comment := get_documentation n; st_fields := fields;
                             st_groups := groups; st_subtypes := [] |})) in
          match last_opt l with
          | None => only_attributes
          | Some k => if existsb is_element (children (fst k))
                      then bind (snd k) (finish_complex n anc ks name fields)
                      else only_attributes
          end)))).

(** The field holding the base type (extension.rs l.35-41, 57-63; restriction.rs l.69-75) *)
Definition base_tag : str := lit "__base__".
Definition base_field (n : node) (base : str) : field entity :=
  {| fl_name := base_tag; fl_type := base; fl_comment := get_documentation n; fl_subtypes := [];
     fl_source := FromBase; fl_mods := [] |}.

(** extension.rs l.31-50 *)
Definition simple_content_extension (n : node) (anc : list node) (ks : list kid) : res entity :=
  bind (get_base n) (fun base =>
    bind (attributes_to_fields (n :: anc) ks) (fun fields =>
      bind (attribute_groups_to_aliases (n :: anc) ks) (fun groups =>
        Ok (EStruct {| st_name := []; st_comment := get_documentation n;
                       st_fields := fields ++ [base_field n base];
                       st_groups := groups; st_subtypes := [] |})))).

(** extension.rs l.52-89 and restriction.rs l.65-101, which differ in the content kinds *)
Definition complex_derivation (content_kinds : list kind) (n : node) (anc : list node) (ks : list kid) : res entity :=
  bind (get_base n) (fun base =>
    bind (attributes_to_fields (n :: anc) ks) (fun attrs =>
      let fields := (attrs ++ [base_field n base])%list in
      let plain :=
        bind (attribute_groups_to_aliases (n :: anc) ks) (fun groups =>
          Ok (EStruct {| st_name := []; st_comment := get_documentation n; st_fields := fields;
                         st_groups := groups; st_subtypes := [] |})) in
      bind (elements_where (fun t => negb (is_kind KAttribute t) && one_of content_kinds t) (n :: anc) ks)
        (fun l =>
          match last_opt l with
          | Some k => bind (snd k) (fun e =>
                        match e with
                        | EStruct s => Ok (EStruct (st_set_comment (get_documentation n)
                                             (st_set_fields (st_fields s ++ fields) s)))
                        | _ => plain
                        end)
          | None => plain
          end))).
(** extension.rs l.13-20 *)
Definition extension_kinds : list kind := [KAll; KAttribute; KAttributeGroup; KChoice; KGroup; KSequence].
(** restriction.rs l.19-27 *)
Definition restriction_kinds : list kind :=
  [KAll; KAnyAttribute; KAttribute; KAttributeGroup; KChoice; KGroup; KSequence].

(** extension.rs l.22-29 *)
Definition parse_extension (x : extension_type) (n : node) (anc : list node) (ks : list kid) : res entity :=
  match x with
  | XSimpleContent => simple_content_extension n anc ks
  | XComplexContent => complex_derivation extension_kinds n anc ks
  end.

(** restriction.rs l.103-110 *)
Fixpoint facets (anc : list node) (ks : list kid) : res (list facet) :=
  match ks with
  | [] => Ok []
  | k :: ks' =>
    bind (xsd_type (fst k) anc) (fun t =>
      bind (facets anc ks') (fun l =>
        Ok (match t with
            | TFacet f => {| fa_type := f; fa_comment := get_documentation (fst k) |} :: l
            | _ => l
            end)))
  end.

(** restriction.rs l.112-127 *)
Fixpoint cases (fs : list facet) : list enum_case :=
  match fs with
  | [] => []
  | f :: fs' =>
    match fa_type f with
    | FEnumeration v =>
      {| ec_name := v; ec_comment := fa_comment f; ec_value := v; ec_type := None; ec_mods := [];
         ec_source := OfRestriction |} :: cases fs'
    | _ => cases fs'
    end
  end.

(** restriction.rs l.129-138; by the facets, whose values are the [value] attributes *)
Definition is_simple_enumeration (u : uni) (v : str) : bool :=
  negb (is_empty v) && forallb (fun c => is_alphanumeric u c || (c =? 45)) v.
Definition is_simple_enumerations (u : uni) (fs : list facet) : bool :=
  forallb (fun f => match fa_type f with FEnumeration v => is_simple_enumeration u v | _ => true end) fs.

(** restriction.rs l.39-57 *)
Definition simple_type_restriction (u : uni) (n : node) (anc : list node) (ks : list kid) : res entity :=
  bind (get_base n) (fun base =>
    bind (facets (n :: anc) ks) (fun fs =>
      let tup := ETuple {| tu_name := []; tu_comment := None; tu_type := base; tu_subtypes := [];
                           tu_mods := []; tu_facets := fs |} in
      if is_simple_enumerations u fs && negb (is_empty (cases fs)) then
        bind (get_parent_name anc) (fun pn =>
          Ok (EEnum {| en_name := (pn ++ lit "Enum")%list; en_cases := cases fs; en_comment := None;
                       en_type := base; en_subtypes := []; en_source := OfRestriction |}))
      else Ok tup)).

(** restriction.rs l.29-37, 59-61 *)
Definition parse_restriction (u : uni) (r : restriction_type) (n : node) (anc : list node) (ks : list kid) : res entity :=
  match r with
  | RSimpleType => simple_type_restriction u n anc ks
  | RSimpleContent => Panic
  | RComplexContent => complex_derivation restriction_kinds n anc ks
  end.

(** list.rs l.10-31 *)
Definition parse_list (n : node) (ks : list kid) : res entity :=
  bind (match attribute n (lit "itemType") with
        | Some it => Ok {| tu_name := []; tu_comment := None; tu_type := it; tu_subtypes := [];
                           tu_mods := []; tu_facets := [] |}
        | None =>
          bind (expect (find (fun k : kid => is_element (fst k) && str_eqb (tag_name (fst k)) (lit "simpleType")) ks))
            (fun k => bind (snd k) (fun e =>
              match e with
              | EEnum en => Ok {| tu_name := []; tu_comment := None; tu_type := en_name en;
                                  tu_subtypes := [EEnum en]; tu_mods := []; tu_facets := [] |}
              | ETuple ts => Ok ts
              | _ => Panic
              end))
        end)
    (fun t => Ok (ETuple {| tu_name := tu_name t; tu_comment := tu_comment t; tu_type := tu_type t;
                            tu_subtypes := tu_subtypes t; tu_mods := tu_mods t ++ [MArray];
                            tu_facets := tu_facets t |}))%list.

(** union.rs l.57-68 *)
Definition union_case (name : str) (ty : str) : enum_case :=
  {| ec_name := name; ec_comment := None; ec_value := []; ec_type := Some ty; ec_mods := [];
     ec_source := OfUnion |}.
Definition create_enum_cases (member_types : str) : list enum_case :=
  map (fun mt => union_case mt mt) (filter (fun s => negb (is_empty s)) (split_on 32 member_types)).

(** union.rs l.17-22, 70-74 *)
Fixpoint union_subtypes (i : N) (ks : list kid) : res (list entity) :=
  match ks with
  | [] => Ok []
  | k :: ks' =>
    bind (snd k) (fun e =>
      bind (union_subtypes (i + 1) ks') (fun l =>
        Ok (set_name (lit "EnumCaseType_" ++ dec i) e :: l)))
  end%list.
(** union.rs l.24-35 *)
Fixpoint union_sub_cases (i : N) (es : list entity) : list enum_case :=
  match es with
  | [] => []
  | e :: es' => union_case (lit "EnumCase_" ++ dec i)%list (entity_name e) :: union_sub_cases (i + 1) es'
  end.

(** union.rs l.13-55 *)
Definition parse_union (n : node) (anc : list node) (ks : list kid) : res entity :=
  let members := match attribute n (lit "memberTypes") with Some m => create_enum_cases m | None => [] end in
  bind (elements_where (is_kind KSimpleType) (n :: anc) ks) (fun l =>
    bind (union_subtypes 0 l) (fun subs =>
      let en name := {| en_name := name; en_cases := (members ++ union_sub_cases 0 subs)%list;
                        en_comment := get_documentation n; en_type := lit "String";
                        en_subtypes := subs; en_source := OfUnion |} in
      bind (attributes_to_fields (n :: anc) ks) (fun fields =>
        match fields with
        | [] => Ok (EEnum (en []))
        | _ => bind (get_parent_name anc) (fun pn =>
                 Ok (EStruct (st_set_fields (fields ++ [enum_to_field (en (pn ++ lit "Choice"))])
                                (empty_struct []))))
        end)))%list.

(** simple_type.rs l.10-34 *)
Definition parse_simple_type (n : node) (anc : list node) (ks : list kid) : res entity :=
  let name := attr_name n in
  bind (parent_type anc) (fun pt =>
    if negb (Bool.eqb (is_kind KSchema pt) (match name with Some _ => true | None => false end)) then Panic
    else
      bind (elements_where not_annotation (n :: anc) ks) (fun l =>
        bind (expect (last_opt l)) (fun k =>
          bind (snd k) (fun e =>
            let e := match name with Some nm => set_name nm e | None => e end in
            Ok (set_comment (get_documentation n) e))))).

(** node_parser.rs l.25-49 *)
Definition parse_step (u : uni) (n : node) (anc : list node) (ks : list kid) : res entity :=
  bind (xsd_type n anc) (fun t =>
    match t with
    | TKind KAll => parse_sequence n anc ks
    | TKind KAny => Ok (parse_any n)
    | TKind KAnyAttribute => Ok (parse_any_attribute n)
    | TKind KAttribute => parse_attribute n anc ks
    | TKind KAttributeGroup => parse_attribute_group n anc ks
    | TKind KChoice => parse_choice n anc ks
    | TKind KComplexContent => parse_content n anc ks
    | TKind KComplexType => parse_complex_type n anc ks
    | TKind KElement => parse_element n anc ks
    | TExtension x => parse_extension x n anc ks
    | TKind KImport | TKind KInclude => Ok (parse_import n)
    | TKind KList => parse_list n ks
    | TRestriction r => parse_restriction u r n anc ks
    | TKind KSequence => parse_sequence n anc ks
    | TKind KSimpleContent => parse_content n anc ks
    | TKind KSimpleType => parse_simple_type n anc ks
    | TKind KUnion => parse_union n anc ks
    | _ => Panic
    end).

Fixpoint parse_node (u : uni) (n : node) (anc : list node) {struct n} : res entity :=
  parse_step u n anc
    match n with
    | Elem _ _ _ cs => map (fun c => (c, parse_node u c (n :: anc))) cs
    | _ => []
    end.

(** The children of a node with their results. *)
Definition kids (u : uni) (n : node) (anc : list node) : list kid :=
  map (fun c => (c, parse_node u c (n :: anc))) (children n).

(** schema.rs l.10-39 *)
Definition xsd_uri : str := lit "http://www.w3.org/2001/XMLSchema".
Definition xsd_namespace (n : node) : option namespace :=
  let l := filter (fun ns => str_eqb (ns_uri ns) xsd_uri) (namespaces n) in
  or_else (find (fun ns => match ns_name ns with Some _ => true | None => false end) l) (hd_error l).
Definition parse_schema (u : uni) (n : node) (anc : list node) : res rs_file :=
  bind (elements_where (fun t => not_annotation t && negb (is_kind KAttributeGroup t)) (n :: anc) (kids u n anc))
    (fun ts =>
      bind (rmapm snd ts) (fun types =>
        bind (elements_where (is_kind KAttributeGroup) (n :: anc) (kids u n anc)) (fun gs =>
          bind (rmapm snd gs) (fun groups =>
            Ok {| rf_types := types; rf_groups := groups;
                  rf_target_ns := target_namespace n; rf_xsd_ns := xsd_namespace n |})))).
