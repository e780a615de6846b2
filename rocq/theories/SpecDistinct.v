(** Distinct names: generated code defines nothing twice, and no definition in a module hides
    one outside of it.

    rustc rejects two types, two modules, two members or two variants of one name in one
    place, and two implementations of one trait for one type; a type of an inner module takes
    the place of one of the same name outside, and any type that of a library type. *)
From Coq Require Import NArith ZArith Bool Ascii String List.
From Verif Require Import Str SpecLex SpecNames SpecBuiltin Xml Names Entity SpecSchema SpecRust SpecGen SpecScope SpecTraits.
Import ListNotations.
Local Open Scope string_scope.
Local Open Scope list_scope.
Local Open Scope N_scope.

(** ** Generated code *)
(** The modules of an item, by their paths; the members of a struct, the variants of an enum. *)
Fixpoint modules (path : list str) (i : item) : list (list str) :=
  match i with
  | IMod m is => (path ++ [m]) :: List.concat (map (modules (path ++ [m])) is)
  | _ => []
  end.
Definition member_names (i : item) : list str :=
  match i with IStruct _ _ _ fs => map rf_name fs | IEnum _ _ _ vs => map va_name vs | _ => [] end.
Definition distinct_types (its : list item) : Prop :=
  let I := List.concat (map (introduces []) its) in
  NoDup I /\ (forall p r n, In (p, n) I -> In (p ++ r, n) I -> r = []) /\
  NoDup (List.concat (map (modules []) its)) /\
  NoDup (List.concat (map (validated []) its)) /\ NoDup (List.concat (map (defaulted []) its)) /\
  (forall p n, In (p, n) I -> unborrowed n) /\
  forall p, In p (List.concat (map (modules []) its)) -> last p [] <> lit "xs".
Definition distinct_members (its : list item) : Prop :=
  forall p i, In (p, i) (List.concat (map (placed []) its)) -> NoDup (member_names i).

(** ** Documents *)
Definition among (ts : list string) (n : node) : bool := existsb (fun t => tagged t n) ts.
Definition inside (ts : list string) (anc : list node) : bool :=
  match anc with p :: _ => among ts p | [] => false end.
Definition given_attr (n : node) (a : string) : bool := match attribute n (lit a) with Some _ => true | None => false end.
(** The name of the nearest enclosing named component ([enclosing] as a function). *)
Fixpoint outer (anc : list node) : str :=
  match anc with
  | [] => lit "UnsupportedName"
  | p :: r => if tagged "schema" p then lit "SchemaElement"
              else match attribute p (lit "name") with Some s => s | None => outer r end
  end.
(** The documentation of a component ([documented] as a function). *)
Definition doc_text (n : node) : option str :=
  match find (tagged "annotation") (children n) with
  | Some a => match find (tagged "documentation") (children a) with
              | Some x => match children x with Text d :: _ => Some d | _ => None end
              | None => None
              end
  | None => None
  end.
Definition voiced (n : node) : bool := match doc_words (doc_text n) with [] => false | _ => true end.
(** The text after the last colon. *)
Fixpoint local_part (q : str) : str :=
  match q with
  | [] => []
  | c :: r => if existsb (N.eqb 58) q then local_part r else q
  end.

Section Document.
Context (schema : node).

(** *** Types
    The names given to the anonymous types of a component: to the type of an element, the enum
    of a choice in a sequence, the item type of a list, the members of a union.  The types of
    the cases of a choice and of local attributes are not generated. *)
Fixpoint case_types (i : N) (cs : list node) : list str :=
  match cs with [] => [] | _ :: r => (lit "EnumCaseType_" ++ dec i) :: case_types (i + 1) r end.
Definition given_here (anc : list node) (n : node) : list str :=
  if tagged "element" n then
    if inside ["sequence"; "all"] anc && negb (given_attr n "type") && negb (given_attr n "ref") then [element_name n ++ lit "Type"] else []
  else if tagged "choice" n then
    if inside ["sequence"; "all"] anc then [outer (tl anc) ++ lit "Choice"] else []
  else if tagged "list" n then
    if given_attr n "itemType" then [] else [outer (n :: anc) ++ lit "Enum"]
  else if tagged "union" n then case_types 0 (tagged_children ["simpleType"] n)
  else [].
Definition closed (anc : list node) (n : node) : bool :=
  among ["choice"; "annotation"] n || tagged "attribute" n && negb (inside ["schema"] anc).
Fixpoint given (anc : list node) (n : node) : list str :=
  given_here anc n ++
  if closed anc n then []
  else match n with Elem _ _ _ cs => List.concat (map (given (n :: anc)) cs) | _ => [] end.

(** The components whose content a component takes over, and all it is then made of.  The
    relation has no derivation if a component takes over itself. *)
Definition base_here (anc : list node) (n : node) : list str :=
  if among ["extension"; "restriction"] n && inside ["complexContent"; "simpleContent"] anc
  then match attribute n (lit "base") with Some b => [b] | None => [] end else [].
Definition group_here (anc : list node) (n : node) : list str :=
  if tagged "attributeGroup" n && negb (inside ["schema"] anc)
  then match attribute n (lit "ref") with Some b => [b] | None => [] end else [].
Fixpoint spliced (anc : list node) (n : node) : list str :=
  base_here anc n ++ group_here anc n ++
  if closed anc n then []
  else match n with Elem _ _ _ cs => List.concat (map (spliced (n :: anc)) cs) | _ => [] end.
Definition declared_as (q : str) : list node :=
  filter (fun d => match attribute d (lit "name") with Some v => str_eqb v (local_part q) | None => false end) (children schema).
Definition sources (qs : list str) : list node := List.concat (map declared_as qs).
Inductive expands : list node -> list str -> Prop :=
| expands_nil : expands [] []
| expands_cons d ds a b : expands (sources (spliced [schema] d)) a -> expands ds b ->
    expands (d :: ds) (given [schema] d ++ a ++ b).

(** The names a declaration introduces outside of modules: its own, that of the enum of its
    choice, and those of its anonymous types unless it is a struct. *)
Definition last_child (ts : list string) (n : node) (p : node -> bool) : bool :=
  match last (map Some (tagged_children ts n)) None with Some c => p c | None => false end.
Definition choice_content (n : node) : bool := last_child content_tags n (fun c => tagged "choice" c && existsb is_element (children c)).
Definition name_of (n : node) : list str := match attribute n (lit "name") with Some v => [v] | None => [] end.
Definition own_names (d : node) : list str :=
  if tagged "simpleType" d then name_of d
  else if tagged "complexType" d then
    name_of d ++ if choice_content d then map (fun v => v ++ lit "Choice") (name_of d) else []
  else if tagged "element" d then if negb (given_attr d "type") || voiced d then name_of d else []
  else if tagged "attribute" d then
    match attribute d (lit "ref") with
    | Some r => if voiced d then [r] else []
    | None => if negb (given_attr d "type") || voiced d then name_of d else []
    end
  else [].
(** Complex types and elements of an anonymous complex type become structs; their anonymous
    types live in a module. *)
Definition structured (d : node) : bool :=
  tagged "complexType" d || tagged "element" d && last_child ["simpleType"; "complexType"] d (tagged "complexType").
Definition outside_names (d : node) : list str := own_names d ++ if structured d then [] else given [schema] d.
Definition outsides : list str := List.concat (map outside_names (children schema)).
(** The names in the module of a declaration. *)
Definition inside_names (d : node) (ns : list str) : Prop :=
  if structured d then expands [d] ns else ns = [].

(** The modules of the declarations. *)
Definition module_names (ident : str -> str) (nss : list (list str)) : list str :=
  List.concat (map (fun p => match snd p with [] => [] | _ => map ident (name_of (fst p)) end) (combine (children schema) nss)).

(** Under the names of types and modules, no two are the same: outside of modules, in a
    module together with what is outside, and among the modules; and none is a name of the
    library. *)
Definition separate_types (type_text : str -> list token) (ident : str -> str) : Prop :=
  NoDup (map type_text outsides) /\
  exists nss, Forall2 inside_names (children schema) nss /\
    Forall (fun ns => NoDup (map type_text (ns ++ outsides)) /\ NoDup (map ident ns)) nss /\
    NoDup (module_names ident nss) /\
    Forall (fun n => unborrowed (type_text n)) (outsides ++ List.concat nss) /\
    Forall (fun m => m <> lit "xs") (module_names ident nss ++ map ident (List.concat nss)).

(** *** Members
    What becomes a member of the struct of a component: elements, attributes that are not
    prohibited, the enum of a choice. *)
Definition attribute_slot (n : node) : list str :=
  match attribute n (lit "use") with
  | Some v => if str_eqb v (lit "prohibited") then [] else [pick (attribute n (lit "name")) (attribute n (lit "ref")) []]
  | None => [pick (attribute n (lit "name")) (attribute n (lit "ref")) []]
  end.
Fixpoint slots (anc : list node) (n : node) : list str :=
  if tagged "attribute" n then if inside ["schema"] anc then [] else attribute_slot n
  else if tagged "element" n && negb (inside ["schema"] anc) then [element_name n]
  else if tagged "choice" n then [outer (if inside ["sequence"; "all"] anc then tl anc else anc) ++ lit "Choice"]
  else if among ["complexType"; "element"; "sequence"; "all"; "complexContent"; "simpleContent"; "extension"; "restriction"; "attributeGroup"] n
  then match n with Elem _ _ _ cs => List.concat (map (slots (n :: anc)) cs) | _ => [] end
  else [].
(** The bases and groups of the component itself, not of the anonymous types of its elements. *)
Definition apart (anc : list node) (n : node) : bool :=
  among ["choice"; "annotation"; "attribute"] n || tagged "element" n && negb (inside ["schema"] anc).
Fixpoint bases (anc : list node) (n : node) : list str :=
  base_here anc n ++
  if apart anc n then [] else match n with Elem _ _ _ cs => List.concat (map (bases (n :: anc)) cs) | _ => [] end.
Fixpoint groups (anc : list node) (n : node) : list str :=
  group_here anc n ++
  if apart anc n then [] else match n with Elem _ _ _ cs => List.concat (map (groups (n :: anc)) cs) | _ => [] end.
(** A struct has its own members, those of its base it does not redeclare, those of its groups. *)
Definition unlisted (own l : list str) : list str := filter (fun x => negb (existsb (str_eqb x) own)) l.
Definition merge (own a g : list str) : list str := own ++ unlisted own a ++ g.
Inductive contributes : list node -> list str -> Prop :=
| contributes_nil : contributes [] []
| contributes_cons d ds a g b : contributes (sources (bases [schema] d)) a -> NoDup a ->
    contributes (sources (groups [schema] d)) g -> contributes ds b ->
    contributes (d :: ds) (merge (slots [schema] d) a g ++ b).
Inductive located : list node -> node -> Prop :=
| located_root : located [] schema
| located_child anc n c : located anc n -> In c (children n) -> ~ tag "annotation" c -> located (n :: anc) c.

(** The cases of an enumeration, of a choice, of a union. *)
Definition value_of (n : node) : str := pick (attribute n (lit "value")) None [].
Definition case_name (n : node) : str := pick (attribute n (lit "ref")) (attribute n (lit "name")) (lit "UNSUPPORTED_ELEMENT_NAME").
Fixpoint member_cases (i : N) (cs : list node) : list str :=
  match cs with [] => [] | _ :: r => (lit "EnumCase_" ++ dec i) :: member_cases (i + 1) r end.
(** An anonymous type that derives from another may keep a member that stands for the base. *)
Definition mark (anc : list node) (n : node) : list str :=
  if inside ["schema"] anc || inside ["schema"] (tl anc) then [] else match bases anc n with [] => [] | _ => [lit "__base__"] end.
Definition separate_members (u : uni) (ident variant : str -> str) : Prop :=
  forall anc x, located anc x ->
    (tag "complexType" x -> exists a g, contributes (sources (bases anc x)) a /\ NoDup a /\
       contributes (sources (groups anc x)) g /\ NoDup (map ident (mark anc x ++ merge (slots anc x) a g))) /\
    (tag "restriction" x -> plain_enumeration u x ->
       NoDup (lit "__Unknown__" :: map variant (map value_of (tagged_children ["enumeration"] x)))) /\
    (tag "choice" x -> NoDup (lit "__Unknown__" :: map variant (map case_name (tagged_children ["element"] x)))) /\
    (tag "union" x -> forall ts, member_tokens x ts ->
       NoDup (lit "__Unknown__" :: map variant (ts ++ member_cases 0 (tagged_children ["simpleType"] x)))) /\
    (* references to attribute groups name attribute groups, or nothing of this document *)
    (tag "attributeGroup" x -> forall q, has x "ref" q -> declared_as q = [] \/ exists d, In d (declared_as q) /\ tag "attributeGroup" d).
End Document.
