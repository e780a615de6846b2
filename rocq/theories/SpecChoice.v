(** Types whose content is a choice: their instances, and what the generated types can hold. *)
From Coq Require Import NArith ZArith Bool Ascii String List Permutation.
From Verif Require Import Str SpecLex SpecNames SpecBuiltin Xml Names Entity SpecSchema SpecRust SpecGen SpecDoc SpecScope SpecTraits SpecSize SpecDistinct SpecFit.
Import ListNotations.
Local Open Scope string_scope.
Local Open Scope list_scope.
Local Open Scope N_scope.

Section Chosen.
Context (schema : node) (own xsd : option str).   (* the prefixes of the target namespace and of XML Schema *)
(** An alternative that occurs once: an element with a name and a type by name, whose name in
    instances has no prefix; or a reference, with the prefix of the target namespace, to an
    element that has a Rust type. *)
Definition simple_alternative (e : node) : Prop :=
  tag "element" e /\ xsd_min e 1 /\ xsd_max e (Some 1) /\
  ((exists nm q, has e "name" nm /\ absent e "ref" /\ has e "type" q /\ regular_type xsd q /\ (own = None \/ ~ formed schema e "elementFormDefault")) \/
   (exists q l, absent e "name" /\ absent e "type" /\ has e "ref" q /\ qualified q own l /\ to_own own xsd q l /\
      forall d, declared schema "element" l d ->
        (forall t, has d "type" t -> regular_type xsd t /\ exists c, SpecSchema.documented d c /\ SpecGen.documented (Some c)) /\
        (forall t, absent d "type" -> type_of schema own xsd d (Complex t) -> regular schema own xsd t))).
(** A complex type with one choice, once, of such alternatives, and attributes. *)
Definition choice_type (t c : node) : Prop :=
  ~ has t "mixed" (lit "true") /\
  tagged_children content_tags t = [c] /\ tag "choice" c /\ absent c "minOccurs" /\ absent c "maxOccurs" /\
  particles c <> [] /\ Forall simple_alternative (particles c) /\
  NoDup (map local_name (particles c)) /\ ~ In (Some (lit "__Unknown__")) (map local_name (particles c)) /\
  tagged_children ["attributeGroup"; "anyAttribute"] t = [] /\
  Forall (regular_attribute schema) (tagged_children ["attribute"] t) /\ NoDup (map local_name (tagged_children ["attribute"] t)).

(** Instances of regular types, and of choice types with an instance of such a type inside: the
    rule of [SpecFit.valid] for types that are not derived. *)
Inductive chosen : typ -> inst -> Prop :=
| chosen_regular T i : valid schema own xsd (regular schema own xsd) any_text T i -> chosen T i
| chosen_one t c r n attrs l (typing : node -> typ) : choice_type t c ->
    attributed schema (children t) r -> attributes_fit schema own xsd any_text r attrs -> arranged c l ->
    (forall e k, In (e, k) l -> element_named schema own xsd e (inst_name k)) ->
    (forall e k, In (e, k) l -> type_of schema own xsd e (typing e)) ->
    (forall e k, In (e, k) l -> chosen (typing e) k) ->
    chosen (Complex t) (Inst n attrs (map snd l) []).
End Chosen.

(** ** What generated types hold *)
Section Fit.
Context (u : uni) (P : list (list str * item)).   (* the items of the code, with the module path *)
(** The element a variant of an enum is read from. *)
Definition variant_argued (v : variant) (k : string) (x : option str) : Prop := exists l, In (AYaserde l) (va_attrs v) /\ In (k, x) l.
Definition variant_member (v : variant) (n : qname) : Prop :=
  (variant_argued v "rename" (Some (snd n)) \/ (forall x, ~ variant_argued v "rename" x) /\ va_name v = snd n) /\
  match fst n with Some p => variant_argued v "prefix" (Some p) | None => forall p, ~ variant_argued v "prefix" p end.

(** [fits_all]: as [SpecFit.fits], with flattened members.  A struct with a flattened member
    of an enum holds the attributes and one child element, if exactly one variant of the enum is
    read from elements of its name and the type in the variant holds the child. *)
Inductive fits_all : list str -> list token -> inst -> Prop :=
| fits_plain path t i : fits u P any_texts path t i -> fits_all path t i
| fits_renamed path t p d m t' i : names u P path t p (IType d m t') -> fits_all p t' i -> fits_all path t i
| fits_flat path t p d a m fs n attrs k f p' d' a' m' vs v c : names u P path t p (IStruct d a m fs) ->
    (forall x y, In (x, y) attrs -> exists g, In g fs /\ attribute_member g x) ->
    (forall g x, In g fs -> attribute_member g x -> ~ In x (map fst attrs) -> exists c, rf_type g = rust u "Option<" ++ c ++ rust u ">") ->
    In f fs -> argued f "flatten" None -> (forall g, In g fs -> g = f \/ exists x, attribute_member g x) ->
    names u P p (rf_type f) p' (IEnum d' a' m' vs) -> In choice_derive a' ->
    In v vs -> variant_member v (inst_name k) -> (forall w, In w vs -> variant_member w (inst_name k) -> w = v) ->
    va_type v = Some c -> fits_all p' c k ->
    fits_all path t (Inst n attrs [k] []).
End Fit.
