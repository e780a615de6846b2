(** Specification notions for schema documents and what the parser should make of them.
    Only the XML tree (Xml.v) and the entity data types (Entity.v) are used here. *)
From Coq Require Import NArith ZArith Bool Ascii String List.
From Verif Require Import Str SpecLex Xml Names Entity.
Import ListNotations.
Local Open Scope string_scope.
Local Open Scope list_scope.
Local Open Scope N_scope.

(** ** Reading the document *)
Definition tag (t : string) (n : node) : Prop := tag_name n = lit t.
Definition one (ts : list string) (n : node) : Prop := exists t, In t ts /\ tag t n.
Definition has (n : node) (a : string) (v : str) : Prop := attribute n (lit a) = Some v.
Definition present (n : node) (a : string) : Prop := exists v, has n a v.
Definition absent (n : node) (a : string) : Prop := attribute n (lit a) = None.
Definition tagged (t : string) (n : node) : bool := str_eqb (tag_name n) (lit t).

(** Child elements other than annotations; child elements with one of some tags. *)
Definition particles (n : node) : list node :=
  filter (fun c => is_element c && negb (tagged "annotation" c)) (children n).
Definition tagged_children (ts : list string) (n : node) : list node :=
  filter (fun c => existsb (fun t => tagged t c) ts) (children n).

(** The first child element with a tag. *)
Definition first_child (n : node) (t : string) (c : node) : Prop :=
  exists l r, children n = l ++ c :: r /\ tag t c /\ forall y, In y l -> ~ tag t y.
(** The documentation of a component: the leading text of the first documentation element of
    the first annotation. *)
Definition documented (n : node) (d : str) : Prop :=
  exists a x r, first_child n "annotation" a /\ first_child a "documentation" x /\ children x = Text d :: r.
Definition comment_ok (n : node) (c : option str) : Prop :=
  match c with Some d => documented n d | None => forall d, ~ documented n d end.

(** The name of the nearest enclosing named component. *)
Inductive enclosing : list node -> str -> Prop :=
| enc_root : enclosing [] (lit "UnsupportedName")
| enc_schema p anc : tag "schema" p -> enclosing (p :: anc) (lit "SchemaElement")
| enc_named p anc s : ~ tag "schema" p -> has p "name" s -> enclosing (p :: anc) s
| enc_up p anc s : ~ tag "schema" p -> absent p "name" -> enclosing anc s -> enclosing (p :: anc) s.

(** ** Occurrence constraints *)
(** A non-negative integer literal that fits in 64 bits. *)
Definition count_text (s : str) (k : N) : Prop :=
  (num s k \/ exists t, s = lit "+" ++ t /\ num t k) /\ k < 2 ^ 64.
Definition min_is (n : node) (k : N) : Prop :=
  (exists s, has n "minOccurs" s /\ count_text s k) \/
  (k = 1 /\ forall s j, has n "minOccurs" s -> ~ count_text s j).
Definition max_known (n : node) : Prop :=
  has n "maxOccurs" (lit "unbounded") \/ exists s k, has n "maxOccurs" s /\ count_text s k.
Definition max_many (n : node) : Prop :=
  has n "maxOccurs" (lit "unbounded") \/ exists s k, has n "maxOccurs" s /\ count_text s k /\ 1 < k.
(** What the code makes of them: [Vec], [Option] or the plain type. *)
Inductive container (n : node) : modifier -> Prop :=
| c_vec : (exists k, min_is n k /\ 1 < k) \/ max_many n -> container n MArray
| c_option : min_is n 0 -> ~ max_known n -> container n MOption
| c_plain : ~ max_many n -> min_is n 1 \/ (min_is n 0 /\ max_known n) -> container n MNone.

(** What XML Schema says: both default to one; [None] is unbounded. *)
Definition xsd_min (n : node) (a : N) : Prop :=
  (absent n "minOccurs" /\ a = 1) \/ exists s, has n "minOccurs" s /\ count_text s a.
Definition xsd_max (n : node) (b : option N) : Prop :=
  (absent n "maxOccurs" /\ b = Some 1) \/ (has n "maxOccurs" (lit "unbounded") /\ b = None) \/
  exists s k, has n "maxOccurs" s /\ count_text s k /\ b = Some k.
Definition at_most (a : N) (b : option N) : Prop := match b with Some k => a <= k | None => True end.
(** The natural Rust container. *)
Definition natural (a : N) (b : option N) (m : modifier) : Prop :=
  match b with
  | None => m = MArray
  | Some k => (1 < k -> m = MArray) /\ (k <= 1 -> a = 0 -> m = MOption) /\ (k <= 1 -> a <> 0 -> m = MNone)
  end.

(** ** Attributes *)
Definition pick (a b : option str) (d : str) : str :=
  match a, b with Some x, _ => x | None, Some y => y | None, None => d end.
Inductive use_means (n : node) : modifier -> Prop :=
| use_absent : absent n "use" -> use_means n MOption
| use_optional : has n "use" (lit "optional") -> use_means n MOption
| use_prohibited : has n "use" (lit "prohibited") -> use_means n MEmpty
| use_required : has n "use" (lit "required") -> use_means n MNone.

Definition attribute_field (c : node) (f : field entity) : Prop :=
  fl_source f = FromAttribute /\ fl_subtypes f = [] /\ comment_ok c (fl_comment f) /\
  (tag "attribute" c ->
     (has c "name" (fl_name f) \/ absent c "name" /\ has c "ref" (fl_name f)) /\
     fl_type f = pick (attribute c (lit "type")) (attribute c (lit "ref")) (lit "String") /\
     exists m, use_means c m /\ fl_mods f = [m]) /\
  (tag "anyAttribute" c ->
     fl_name f = lit "any_attribute" /\ fl_type f = lit "String" /\ fl_mods f = [MEmpty]).

(** ** Particles *)
Definition element_name (c : node) : str :=
  pick (attribute c (lit "name")) (attribute c (lit "ref")) (lit "UNSUPPORTED_ELEMENT_NAME").
Definition suffix (p s : str) : Prop := exists a, s = a ++ p.

(** The last one counts. *)
Definition final (l : list node) (c : node) : Prop := exists a, l = a ++ [c].
(** A reference to an attribute group. *)
Definition group_ref (c : node) (a : alias entity) : Prop :=
  has c "ref" (al_original a) /\ al_name a = al_original a /\ al_subtypes a = [] /\ comment_ok c (al_comment a).

(** One case of a choice. *)
Definition choice_case (c : node) (k : enum_case) : Prop :=
  ec_source k = OfChoice /\ ec_value k = [] /\ comment_ok c (ec_comment k) /\
  (exists m, container c m /\ ec_mods k = [m]) /\
  match attribute c (lit "ref") with
  | Some r => ec_name k = r /\ ec_type k = Some r
  | None => ec_name k = pick (attribute c (lit "name")) None (lit "UNSUPPORTED_ELEMENT_NAME") /\
            ec_type k = attribute c (lit "type")
  end.
Definition choice_enum (n : node) (en : enum entity) : Prop :=
  en_source en = OfChoice /\ en_type en = lit "String" /\ en_subtypes en = [] /\
  Forall2 choice_case (tagged_children ["element"] n) (en_cases en).

(** The field of one particle of the sequence (or all) in the component named [P];
    [anon t e]: the anonymous type [t] is parsed to [e]. *)
Definition particle_field (anon : node -> entity -> Prop) (P : str) (c : node) (f : field entity) : Prop :=
  (tag "element" c ->
     fl_name f = element_name c /\ fl_source f = FromElement /\ comment_ok c (fl_comment f) /\
     (exists m r, container c m /\ fl_mods f = m :: r /\
        (suffix P (fl_type f) -> r = [MRecursive]) /\ (~ suffix P (fl_type f) -> r = [])) /\
     match attribute c (lit "type"), attribute c (lit "ref") with
     | Some t, _ | None, Some t => fl_type f = t /\ fl_subtypes f = []
     | None, None =>
       exists t e, final (tagged_children ["simpleType"; "complexType"] c) t /\ anon t e /\
         fl_type f = element_name c ++ lit "Type" /\
         fl_subtypes f = [set_name (element_name c ++ lit "Type") e]
     end) /\
  (tag "any" c ->
     fl_name f = lit "any" /\ fl_type f = lit "String" /\ fl_source f = FromElement /\
     fl_subtypes f = [] /\ hd_error (fl_mods f) = Some MEmpty /\ comment_ok c (fl_comment f)) /\
  (tag "choice" c ->
     fl_name f = P ++ lit "Choice" /\ fl_type f = P ++ lit "Choice" /\ fl_source f = FromElement /\
     fl_mods f = [] /\ exists en, fl_subtypes f = [EEnum en] /\ en_name en = P ++ lit "Choice" /\ choice_enum c en).

(** ** Complex types *)
Definition content_tags : list string :=
  ["all"; "choice"; "complexContent"; "group"; "sequence"; "simpleContent"].
Definition attribute_children (n : node) : list node := tagged_children ["attribute"; "anyAttribute"] n.
Definition group_children (n : node) : list node := tagged_children ["attributeGroup"] n.
Definition has_elements (n : node) : Prop := exists c, In c (children n) /\ is_element c = true.
(** The name of a complex type whose ancestors are [anc]. *)
Definition type_name (n : node) (anc : list node) (nm : str) : Prop :=
  match anc with
  | p :: _ => (tag "schema" p -> has n "name" nm) /\ (~ tag "schema" p -> enclosing anc nm)
  | [] => enclosing [] nm
  end.
(** The placeholder of the base type. *)
Definition base_placeholder (n : node) (f : field entity) : Prop :=
  has n "base" (fl_type f) /\ fl_name f = lit "__base__" /\ fl_source f = FromBase /\ fl_mods f = [] /\
  fl_subtypes f = [] /\ comment_ok n (fl_comment f).
(** The content candidates of a derivation. *)
Definition derivation_tags (t : string) : list string :=
  if String.eqb t "restriction" then ["all"; "anyAttribute"; "attributeGroup"; "choice"; "group"; "sequence"]
  else ["all"; "attributeGroup"; "choice"; "group"; "sequence"].
Definition choice_field (nm : str) (f : field entity) : Prop :=
  fl_name f = nm ++ lit "Choice" /\ fl_type f = nm ++ lit "Choice" /\ fl_source f = FromChoice /\
  fl_mods f = [] /\ fl_subtypes f = [] /\ fl_comment f = None.

(** ** Simple types *)
Definition plain_value (u : uni) (v : str) : Prop :=
  v <> [] /\ forall c, In c v -> is_alphanumeric u c = true \/ c = 45.
(** The facet a child element of a restriction stands for. *)
Inductive facet_of : node -> facet_type -> Prop :=
| fo_enumeration n v : tag "enumeration" n -> has n "value" v -> facet_of n (FEnumeration v)
| fo_fraction n v : tag "fractionDigits" n -> has n "value" v -> facet_of n (FFractionDigits v)
| fo_length n v : tag "length" n -> has n "value" v -> facet_of n (FLength v)
| fo_max_ex n v : tag "maxExclusive" n -> has n "value" v -> facet_of n (FMaxExclusive v)
| fo_max_in n v : tag "maxInclusive" n -> has n "value" v -> facet_of n (FMaxInclusive v)
| fo_max_len n v : tag "maxLength" n -> has n "value" v -> facet_of n (FMaxLength v)
| fo_min_ex n v : tag "minExclusive" n -> has n "value" v -> facet_of n (FMinExclusive v)
| fo_min_in n v : tag "minInclusive" n -> has n "value" v -> facet_of n (FMinInclusive v)
| fo_min_len n v : tag "minLength" n -> has n "value" v -> facet_of n (FMinLength v)
| fo_pattern n v : tag "pattern" n -> has n "value" v -> facet_of n (FPattern v)
| fo_total n v : tag "totalDigits" n -> has n "value" v -> facet_of n (FTotalDigits v)
| fo_ws_p n : tag "whiteSpace" n -> has n "value" (lit "preserve") -> facet_of n (FWhiteSpace WsPreserve)
| fo_ws_r n : tag "whiteSpace" n -> has n "value" (lit "replace") -> facet_of n (FWhiteSpace WsReplace)
| fo_ws_c n : tag "whiteSpace" n -> has n "value" (lit "collapse") -> facet_of n (FWhiteSpace WsCollapse).
Definition facet_names : list string :=
  ["enumeration"; "fractionDigits"; "length"; "maxExclusive"; "maxInclusive"; "maxLength";
   "minExclusive"; "minInclusive"; "minLength"; "pattern"; "totalDigits"; "whiteSpace"]%string.

Definition enum_of_value (c : node) (k : enum_case) : Prop :=
  has c "value" (ec_value k) /\ ec_name k = ec_value k /\ ec_type k = None /\ ec_mods k = [] /\
  ec_source k = OfRestriction /\ comment_ok c (ec_comment k).

(** A facet element and its facet with documentation. *)
Definition facet_ok (c : node) (f : facet) : Prop := facet_of c (fa_type f) /\ comment_ok c (fa_comment f).
(** All enumeration values are plain and there is one. *)
Definition plain_enumeration (u : uni) (n : node) : Prop :=
  (exists c, In c (tagged_children ["enumeration"] n)) /\
  forall c, In c (tagged_children ["enumeration"] n) -> exists v, has c "value" v /\ plain_value u v.
(** The maximal pieces of a text without blanks (only U+0020 counts), non-empty. *)
Inductive blank_tokens : str -> list str -> Prop :=
| bt_end t : ~ In 32 t -> blank_tokens t (match t with [] => [] | _ => [t] end)
| bt_more t s ts : ~ In 32 t -> blank_tokens s ts ->
    blank_tokens (t ++ 32 :: s) (match t with [] => ts | _ => t :: ts end).

(** A number in decimal, without leading zeros. *)
Definition index_text (ds : str) (k : N) : Prop :=
  num ds k /\ (k = 0 -> ds = lit "0") /\ (k <> 0 -> exists c t, ds = c :: t /\ c <> 48).
(** A case of a union; the cases of the named members; the cases and types of the nested ones. *)
Definition member_case (name ty : str) (k : enum_case) : Prop :=
  ec_name k = name /\ ec_type k = Some ty /\ ec_value k = [] /\ ec_comment k = None /\ ec_mods k = [] /\
  ec_source k = OfUnion.
Inductive nested (anon : node -> entity -> Prop) : N -> list node -> list enum_case -> list entity -> Prop :=
| nested_nil i : nested anon i [] [] []
| nested_cons i d c cs k ks e es : anon c e -> index_text d i ->
    member_case (lit "EnumCase_" ++ d) (lit "EnumCaseType_" ++ d) k -> nested anon (i + 1) cs ks es ->
    nested anon i (c :: cs) (k :: ks) (set_name (lit "EnumCaseType_" ++ d) e :: es).
Definition member_tokens (n : node) (ts : list str) : Prop :=
  match attribute n (lit "memberTypes") with Some m => blank_tokens m ts | None => ts = [] end.
Definition union_enum (anon : node -> entity -> Prop) (n : node) (en : enum entity) : Prop :=
  en_source en = OfUnion /\ en_type en = lit "String" /\ comment_ok n (en_comment en) /\
  exists ts K1 K2, member_tokens n ts /\ Forall2 (fun t k => member_case t t k) ts K1 /\
    en_cases en = K1 ++ K2 /\ nested anon 0 (tagged_children ["simpleType"] n) K2 (en_subtypes en).

(** ** The supported part of XML Schema *)
Definition ignorable (n : node) : Prop := is_element n = false \/ tag "annotation" n.
Definition only (n c : node) : Prop :=
  exists a b, children n = a ++ c :: b /\ is_element c = true /\ ~ tag "annotation" c /\
    Forall ignorable a /\ Forall ignorable b.

Inductive role :=
| GlobalSimple | LocalSimple | SimpleRestriction | SimpleList | SimpleUnion
| GlobalElement | LocalElement | GlobalComplex | LocalComplex | Sequence | Choice
| ComplexContent | SimpleContent | ComplexDerivation | SimpleExtension
| Attribute | AnyAttribute | GroupReference | GlobalAttribute | GlobalGroup | Any | Import.

Inductive ok : role -> node -> Prop :=
(* simple types *)
| ok_global_simple n c : tag "simpleType" n -> present n "name" -> only n c ->
    ok SimpleRestriction c \/ ok SimpleList c \/ ok SimpleUnion c -> ok GlobalSimple n
| ok_local_simple n c : tag "simpleType" n -> absent n "name" -> only n c ->
    ok SimpleRestriction c \/ ok SimpleList c \/ ok SimpleUnion c -> ok LocalSimple n
| ok_simple_restriction n : tag "restriction" n -> present n "base" ->
    Forall (fun c => ignorable c \/ exists f, facet_of c f) (children n) -> ok SimpleRestriction n
| ok_list_typed n : tag "list" n -> present n "itemType" -> ok SimpleList n
| ok_list_nested n c : tag "list" n -> absent n "itemType" -> only n c -> ok LocalSimple c -> ok SimpleList n
| ok_union n : tag "union" n -> Forall (fun c => ignorable c \/ ok LocalSimple c) (children n) -> ok SimpleUnion n
(* attributes *)
| ok_attribute n : tag "attribute" n -> present n "name" \/ present n "ref" -> (exists m, use_means n m) ->
    ok Attribute n
| ok_any_attribute n : tag "anyAttribute" n -> ok AnyAttribute n
| ok_group_reference n : tag "attributeGroup" n -> present n "ref" -> ok GroupReference n
| ok_global_attribute n : tag "attribute" n -> present n "name" ->
    Forall (fun c => ignorable c \/ ok LocalSimple c) (children n) -> ok GlobalAttribute n
| ok_global_group n : tag "attributeGroup" n -> present n "name" ->
    Forall (fun c => ignorable c \/ ok Attribute c \/ ok AnyAttribute c \/ ok GroupReference c) (children n) ->
    ok GlobalGroup n
(* elements *)
| ok_global_element n : tag "element" n -> present n "name" ->
    Forall (fun c => ignorable c \/ one ["key"; "keyref"; "unique"]%string c \/ ok LocalSimple c \/ ok LocalComplex c)
      (children n) -> ok GlobalElement n
| ok_typed_element n : tag "element" n -> present n "type" \/ present n "ref" -> ok LocalElement n
| ok_anonymous_element n a c b : tag "element" n -> children n = a ++ c :: b ->
    Forall (fun c => ignorable c \/ one ["key"; "keyref"; "unique"]%string c) (a ++ b) ->
    ok LocalSimple c \/ ok LocalComplex c -> ok LocalElement n
| ok_any n : tag "any" n -> ok Any n
| ok_import n : one ["import"; "include"]%string n -> ok Import n
(* complex types *)
| ok_global_complex n : tag "complexType" n -> present n "name" ->
    Forall (fun c => ignorable c \/ ok Attribute c \/ ok AnyAttribute c \/ ok GroupReference c \/
      ok Sequence c \/ ok Choice c \/ ok ComplexContent c \/ ok SimpleContent c) (children n) -> ok GlobalComplex n
| ok_local_complex n : tag "complexType" n ->
    Forall (fun c => ignorable c \/ ok Attribute c \/ ok AnyAttribute c \/ ok GroupReference c \/
      ok Sequence c \/ ok Choice c \/ ok ComplexContent c \/ ok SimpleContent c) (children n) -> ok LocalComplex n
| ok_sequence n : one ["sequence"; "all"]%string n ->
    Forall (fun c => ignorable c \/ ok LocalElement c \/ ok Any c \/ ok Choice c) (children n) -> ok Sequence n
| ok_choice n : tag "choice" n ->
    Forall (fun c => ignorable c \/ one ["element"; "any"; "sequence"; "choice"; "group"]%string c) (children n) ->
    ok Choice n
| ok_complex_content n c : tag "complexContent" n -> only n c -> ok ComplexDerivation c -> ok ComplexContent n
| ok_simple_content n c : tag "simpleContent" n -> only n c -> ok SimpleExtension c -> ok SimpleContent n
| ok_derivation n : one ["extension"; "restriction"]%string n -> present n "base" ->
    Forall (fun c => ignorable c \/ ok Attribute c \/ ok AnyAttribute c \/ ok GroupReference c \/
      ok Sequence c \/ ok Choice c) (children n) -> ok ComplexDerivation n
| ok_simple_extension n : tag "extension" n -> present n "base" ->
    Forall (fun c => ignorable c \/ ok Attribute c \/ ok AnyAttribute c \/ ok GroupReference c) (children n) ->
    ok SimpleExtension n.

Definition ok_schema (n : node) : Prop :=
  tag "schema" n /\
  Forall (fun c => ignorable c \/ ok Import c \/ ok GlobalSimple c \/ ok GlobalElement c \/ ok GlobalComplex c \/
    ok GlobalAttribute c \/ ok GlobalGroup c) (children n).

(** ** Declarations of a schema *)
Definition declarations (n : node) : list node :=
  filter (fun c => is_element c && negb (tagged "annotation" c) && negb (tagged "attributeGroup" c)) (children n).
(** Component named [nm]: an entity of that name, or the enum of its choice next to it. *)
Definition named (nm : str) (e : entity) : Prop :=
  entity_name e = nm \/
  exists en s, e = EEnum en /\ en_name en = nm ++ lit "Choice" /\ en_subtypes en = [EStruct s] /\ st_name s = nm.
(** Content of the derivations is as XML Schema has it. *)
Definition sane_content (d : node) : Prop :=
  forall c x, In c (children d) -> one ["complexContent"; "simpleContent"] c -> In x (particles c) ->
    one ["extension"; "restriction"] x.
Definition declares (d : node) (e : entity) : Prop :=
  (one ["import"; "include"] d -> exists i, e = EImport i /\
     im_name i = pick (attribute d (lit "namespace")) None [] /\
     im_location i = pick (attribute d (lit "schemaLocation")) None []) /\
  (one ["element"; "simpleType"] d -> has d "name" (entity_name e)) /\
  (forall t, tag "element" d -> has d "type" t ->
     exists a, e = EAlias a /\ al_original a = t /\ al_subtypes a = [] /\ comment_ok d (al_comment a)) /\
  (tag "element" d -> absent d "type" -> tagged_children ["simpleType"; "complexType"] d = [] ->
     exists s, e = EStruct s /\ st_fields s = [] /\ comment_ok d (st_comment s)) /\
  (tag "attribute" d ->
     has d "ref" (entity_name e) \/ absent d "ref" /\ has d "name" (entity_name e)) /\
  (tag "complexType" d -> exists nm, has d "name" nm /\ (sane_content d -> named nm e)).
Definition declares_group (d : node) (e : entity) : Prop :=
  exists s, e = EStruct s /\ has d "name" (st_name s) /\
    Forall2 attribute_field (attribute_children d) (st_fields s).

(** ** Namespaces *)
Inductive first_such {A} (P : A -> Prop) : list A -> A -> Prop :=
| first_here x l : P x -> first_such P (x :: l) x
| first_later x l y : ~ P x -> first_such P l y -> first_such P (x :: l) y.
Definition is_first {A} (P : A -> Prop) (l : list A) (o : option A) : Prop :=
  match o with Some x => first_such P l x | None => forall x, In x l -> ~ P x end.
