(** Instances: what XML Schema lets an instance document contain, and what the generated types
    can hold. *)
From Coq Require Import NArith ZArith Bool Ascii String List Permutation.
From Verif Require Import Str SpecLex SpecNames SpecBuiltin Xml Names Entity SpecSchema SpecRust SpecGen SpecDoc SpecScope SpecTraits SpecSize SpecDistinct.
Import ListNotations.
Local Open Scope string_scope.
Local Open Scope list_scope.
Local Open Scope N_scope.

(** An element of an instance document: name, attributes, child elements, and its text without
    the white space around the child elements.  Names are a prefix and a local name; the
    prefixes are those of the schema document.  The attributes of the schema instance namespace
    (xsi:type, xsi:nil, ...) are not looked at. *)
Definition qname : Type := option str * str.
Inductive inst := Inst (name : qname) (attrs : list (qname * str)) (kids : list inst) (text : str).
Definition inst_name (i : inst) : qname := let 'Inst n _ _ _ := i in n.

(** ** Validity, after XML Schema Part 1 *)
Section Valid.
Context (schema : node) (own xsd : option str).   (* the prefixes of the target namespace and of XML Schema *)
Context (R : node -> Prop).                       (* the complex types the instance may use *)

(** The names of elements and attributes in instances. *)
Definition formed (n : node) (default : string) : Prop :=
  has n "form" (lit "qualified") \/ absent n "form" /\ has schema default (lit "qualified").
Inductive element_named (e : node) : qname -> Prop :=
| en_qualified nm : has e "name" nm -> formed e "elementFormDefault" -> element_named e (own, nm)
| en_unqualified nm : has e "name" nm -> ~ formed e "elementFormDefault" -> element_named e (None, nm)
| en_ref q l : absent e "name" -> has e "ref" q -> to_own own xsd q l -> element_named e (own, l).
Inductive attribute_named (a : node) : qname -> Prop :=
| an_qualified nm : has a "name" nm -> formed a "attributeFormDefault" -> attribute_named a (own, nm)
| an_unqualified nm : has a "name" nm -> ~ formed a "attributeFormDefault" -> attribute_named a (None, nm)
| an_ref q p l : absent a "name" -> has a "ref" q -> qualified q p l -> attribute_named a (p, l).

(** Types: simple ones, by name or definition, and complex ones, by their definition. *)
Inductive sref := Named (q : str) | Within (t : node).
Inductive typ := Simple (s : sref) | Complex (t : node).
Definition declared (t : string) (l : str) (d : node) : Prop := In d (children schema) /\ tag t d /\ has d "name" l.
Inductive type_named : str -> typ -> Prop :=
| tn_builtin q l : qualified q xsd l -> builtin_name l -> type_named q (Simple (Named q))
| tn_simple q l d : to_own own xsd q l -> declared "simpleType" l d -> type_named q (Simple (Named q))
| tn_complex q l d : to_own own xsd q l -> declared "complexType" l d -> type_named q (Complex d).
(** The type of an element: the one named, that of the element referred to, the one inside. *)
Inductive type_of : node -> typ -> Prop :=
| to_named e q T : has e "type" q -> type_named q T -> type_of e T
| to_ref e q l d T : absent e "type" -> has e "ref" q -> to_own own xsd q l -> declared "element" l d -> absent d "ref" -> type_of d T -> type_of e T
| to_simple e t : absent e "type" -> absent e "ref" -> tagged_children ["simpleType"; "complexType"] e = [t] -> tag "simpleType" t -> type_of e (Simple (Within t))
| to_complex e t : absent e "type" -> absent e "ref" -> tagged_children ["simpleType"; "complexType"] e = [t] -> tag "complexType" t -> type_of e (Complex t).

(** Content models: the child elements, each with its declaration or wildcard. *)
Definition occurs (p : node) (k : N) : Prop := exists a b, xsd_min p a /\ xsd_max p b /\ a <= k /\ at_most k b.
Inductive arranged : node -> list (node * inst) -> Prop :=
| arranged_runs p runs : occurs p (N.of_nat (List.length runs)) -> Forall (once p) runs -> arranged p (List.concat runs)
with once : node -> list (node * inst) -> Prop :=
| once_element e k : tag "element" e -> once e [(e, k)]
| once_any e k : tag "any" e -> once e [(e, k)]
| once_sequence g parts : tag "sequence" g -> Forall2 arranged (particles g) parts -> once g (List.concat parts)
| once_all g parts l : tag "all" g -> Forall2 arranged (particles g) parts -> Permutation (List.concat parts) l -> once g l
| once_choice g p l : tag "choice" g -> In p (particles g) -> arranged p l -> once g l.

(** The attributes declared in a type or derivation, those of attribute groups included. *)
Inductive attributed : list node -> list node -> Prop :=
| at_nil : attributed [] []
| at_attribute a l r : tag "attribute" a -> attributed l r -> attributed (a :: l) (a :: r)
| at_group g q k d l r r' : tag "attributeGroup" g -> has g "ref" q -> local q k -> declared "attributeGroup" k d ->
    attributed (children d) r -> attributed l r' -> attributed (g :: l) (r ++ r')
| at_other c l r : ~ one ["attribute"; "attributeGroup"; "anyAttribute"] c -> attributed l r -> attributed (c :: l) r.
(** The groups of a type or derivation. *)
Definition groups_of (n : node) : list node := tagged_children ["sequence"; "all"; "choice"] n.

(** The attributes and groups of a complex type; an extension adds its own to those of the
    base.  [true]: the content is text. *)
Inductive composed : node -> bool -> list node -> list node -> Prop :=
| composed_plain t r : R t -> tagged_children ["complexContent"; "simpleContent"] t = [] -> attributed (children t) r -> composed t false (groups_of t) r
| composed_extension t c d q l b s gs r r' : R t -> tagged_children ["complexContent"; "simpleContent"] t = [c] ->
    tag "complexContent" c -> only c d -> tag "extension" d -> has d "base" q -> to_own own xsd q l -> declared "complexType" l b ->
    composed b s gs r -> attributed (children d) r' -> composed t s (gs ++ groups_of d) (r ++ r')
| composed_text t c d q r' : R t -> tagged_children ["complexContent"; "simpleContent"] t = [c] ->
    tag "simpleContent" c -> only c d -> tag "extension" d -> has d "base" q -> type_named q (Simple (Named q)) ->
    attributed (children d) r' -> composed t true [] r'.

(** The type of an attribute: the one named, that of the attribute referred to, the one inside.
    An attribute without a type may have any text. *)
Inductive attribute_typed : node -> sref -> Prop :=
| ay_named a q : has a "type" q -> attribute_typed a (Named q)
| ay_within a t : absent a "type" -> absent a "ref" -> tagged_children ["simpleType"] a = [t] -> attribute_typed a (Within t)
| ay_ref a q l d s : absent a "type" -> has a "ref" q -> to_own own xsd q l -> declared "attribute" l d -> attribute_typed d s -> attribute_typed a s.

Context (V : sref -> str -> Prop).                (* the texts of the simple types *)
Definition attributes_fit (r : list node) (attrs : list (qname * str)) : Prop :=
  (forall n v, In (n, v) attrs -> exists a, In a r /\ attribute_named a n /\ ~ has a "use" (lit "prohibited") /\ forall s, attribute_typed a s -> V s v) /\
  (forall a n, In a r -> has a "use" (lit "required") -> attribute_named a n -> In n (map fst attrs)).

(** The instances of a type. *)
Inductive valid : typ -> inst -> Prop :=
| valid_simple s n x : V s x -> valid (Simple s) (Inst n [] [] x)
| valid_complex t s gs r n attrs parts x (typing : node -> typ) :
    composed t s gs r -> attributes_fit r attrs -> Forall2 arranged gs parts ->
    x = [] \/ s = true \/ has t "mixed" (lit "true") ->
    (forall e k, In (e, k) (List.concat parts) -> tag "element" e -> element_named e (inst_name k)) ->
    (forall e k, In (e, k) (List.concat parts) -> tag "element" e -> type_of e (typing e)) ->
    (forall e k, In (e, k) (List.concat parts) -> tag "element" e -> valid (typing e) k) ->
    valid (Complex t) (Inst n attrs (map snd (List.concat parts)) x).
End Valid.
(** All texts: the values are not looked at. *)
Definition any_text (s : sref) (x : str) : Prop := True.

(** ** Types the generated code is right about *)
Section Regular.
Context (schema : node) (own xsd : option str).
(** An element of a sequence has a name or refers to an element of the target namespace.  If
    named, it is itself in the target namespace; if it refers to another element, that one has a
    Rust type.  It is not both optional and of a written maxOccurs of 0 or 1.  Its type is not a
    list type of XML Schema. *)
Definition regular_type (q : str) : Prop := forall l, qualified q xsd l -> ~ In (l, STexts) xsd_builtins.
Definition regular_element (e : node) : Prop :=
  tag "element" e /\ (present e "name" \/ present e "ref") /\
  (present e "name" -> formed schema e "elementFormDefault" /\ absent e "ref") /\
  (forall q, has e "ref" q -> exists l, to_own own xsd q l) /\
  (forall q l d, has e "ref" q -> to_own own xsd q l -> declared schema "element" l d ->
     (forall t, has d "type" t -> regular_type t /\ exists c, SpecSchema.documented d c /\ SpecGen.documented (Some c))) /\
  ~ (xsd_min e 0 /\ present e "maxOccurs" /\ (xsd_max e (Some 0) \/ xsd_max e (Some 1))) /\
  (forall q, has e "type" q -> regular_type q).
(** An attribute: local and in no namespace, or a reference with a prefix. *)
Definition regular_attribute (a : node) : Prop :=
  (present a "name" -> ~ formed schema a "attributeFormDefault") /\
  (absent a "name" -> forall q, has a "ref" q -> exists p l, qualified q (Some p) l).
(** One sequence or all group of elements, once; attributes; no attribute groups or wildcards. *)
Definition regular_body (n : node) : Prop :=
  (tagged_children content_tags n = [] \/
   exists c, tagged_children content_tags n = [c] /\ one ["sequence"; "all"] c /\ absent c "minOccurs" /\ absent c "maxOccurs" /\
     Forall regular_element (particles c)) /\
  tagged_children ["attributeGroup"; "anyAttribute"] n = [] /\
  Forall regular_attribute (tagged_children ["attribute"] n).
(** The base of an extension: the only declaration of its name that makes a struct, and
    declared before everything that contains the extension. *)
Definition base_before (t : node) (q : str) : Prop :=
  forall l b, to_own own xsd q l -> declared schema "complexType" l b ->
    (forall pre D post, children schema = pre ++ D :: post -> part t D -> In b pre) /\
    (forall pre post x, children schema = pre ++ b :: post -> In x (pre ++ post) -> has x "name" l -> one ["element"; "attribute"] x /\ present x "type").
Definition local_name (n : node) : option str :=
  match attribute n (lit "name") with Some v => Some v | None => match attribute n (lit "ref") with Some q => Some (local_part q) | None => None end end.
Definition regular (t : node) : Prop :=
  ~ has t "mixed" (lit "true") /\
  (regular_body t \/
   exists c d q, tagged_children content_tags t = [c] /\ tagged_children ["attribute"; "attributeGroup"; "anyAttribute"] t = [] /\
     tag "complexContent" c /\ only c d /\ tag "extension" d /\ has d "base" q /\ base_before t q /\ regular_body d) /\
  (* no two elements or attributes, inherited ones included, have one name *)
  (forall s gs r, composed schema own xsd (fun _ => True) t s gs r ->
     NoDup (map local_name (List.concat (map particles gs) ++ r))).
End Regular.

(** ** What generated types hold *)
Section Fit.
Context (u : uni) (P : list (list str * item)).   (* the items of the code, with the module path *)
(** What a type name stands for. *)
Definition names (path : list str) (t : list token) (p : list str) (i : item) : Prop :=
  seen u P path t p i /\ forall p' i', seen u P path t p' i' -> p' = p /\ i' = i.

(** The members of a struct, after the attributes yaserde reads. *)
Definition argued (f : rfield) (k : string) (v : option str) : Prop := exists l, In (AYaserde l) (rf_attrs f) /\ In (k, v) l.
Definition in_instance (f : rfield) (n : qname) : Prop :=
  argued f "rename" (Some (snd n)) /\ ~ argued f "flatten" None /\
  match fst n with Some p => argued f "prefix" (Some p) | None => forall p, ~ argued f "prefix" p end.
Definition attribute_member (f : rfield) (n : qname) : Prop := argued f "attribute" None /\ in_instance f n.
Definition element_member (f : rfield) (n : qname) : Prop := ~ argued f "attribute" None /\ in_instance f n.
(** [holds t c k]: [k] values of type [c] fit in a [t]. *)
Definition holds (t c : list token) (k : N) : Prop :=
  t = c /\ k = 1 \/ t = rust u "Option<" ++ c ++ rust u ">" /\ k <= 1 \/ t = rust u "Vec<" ++ c ++ rust u ">".
Definition name_eqb (a b : qname) : bool :=
  match fst a, fst b with Some p, Some q => str_eqb p q | None, None => true | _, _ => false end && str_eqb (snd a) (snd b).
Definition number (n : qname) (l : list inst) : N := N.of_nat (List.length (filter (fun i => name_eqb (inst_name i) n) l)).
(** An enum whose values are texts: an enumeration or a union. *)
Definition text_enum (attrs : list attr) (vs : list variant) : Prop :=
  In union_derive attrs \/ forall v, In v vs -> va_name v <> lit "__Unknown__" -> va_type v = None.

(** [fits path t i]: a value of the type written [t] at [path] can hold all of [i], and has no
    part that [i] does not provide.  [text path t x]: the type written [t] at [path], one for
    texts, can hold [x]. *)
Context (text : list str -> list token -> str -> Prop).
Inductive fits : list str -> list token -> inst -> Prop :=
| fits_library path s n x : In s library_types -> text path (rust u s) x -> fits path (rust u s) (Inst n [] [] x)
| fits_alias path t p d m t' i : names path t p (IType d m t') -> fits p t' i -> fits path t i
| fits_tuple path t p d a m c n x : names path t p (ITuple d a m c) -> text path t x -> fits path t (Inst n [] [] x)
| fits_enum path t p d a m vs n x : names path t p (IEnum d a m vs) -> text_enum a vs -> text path t x -> fits path t (Inst n [] [] x)
| fits_struct path t p d a m fs n attrs kids : names path t p (IStruct d a m fs) ->
    (forall x v, In (x, v) attrs -> exists f, In f fs /\ attribute_member f x) ->
    (forall f x, In f fs -> attribute_member f x -> exists c, holds (rf_type f) c 1 /\ forall v, In (x, v) attrs -> text p c v) ->
    (forall f x, In f fs -> attribute_member f x -> ~ In x (map fst attrs) -> exists c, rf_type f = rust u "Option<" ++ c ++ rust u ">") ->
    (forall k, In k kids -> exists f, In f fs /\ element_member f (inst_name k)) ->
    (forall f x, In f fs -> element_member f x -> exists c, holds (rf_type f) c (number x kids) /\
       forall k, In k kids -> inst_name k = x -> fits p c k) ->
    (forall f, In f fs -> exists x, attribute_member f x \/ element_member f x) ->
    fits path t (Inst n attrs kids []).
End Fit.
(** The texts are not looked at. *)
Definition any_texts (path : list str) (t : list token) (x : str) : Prop := True.
