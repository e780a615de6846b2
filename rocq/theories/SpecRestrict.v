(** Types derived by restriction: their instances. *)
From Coq Require Import NArith ZArith Bool Ascii String List Permutation.
From Verif Require Import Str SpecLex SpecNames SpecBuiltin Xml Names Entity SpecSchema SpecRust SpecGen SpecDoc SpecScope SpecTraits SpecSize SpecDistinct SpecFit.
Import ListNotations.
Local Open Scope string_scope.
Local Open Scope list_scope.
Local Open Scope N_scope.

Section Restricted.
Context (schema : node) (own xsd : option str).   (* the prefixes of the target namespace and of XML Schema *)
Notation regular := (regular schema own xsd).
(** The elements and attributes a restriction declares. *)
Definition restated (d : node) : list node := List.concat (map particles (groups_of d)) ++ tagged_children ["attribute"] d.
(** What of [l] has a name that is not declared in [own]. *)
Definition kept (own l : list node) : list node := filter (fun x => negb (existsb (fun y => opt_str_eqb (local_name y) (local_name x)) own)) l.

(** [restricts t d b]: [t] is derived from the regular type [b] by the restriction [d].  The
    base is declared before; the restriction has elements in one sequence or all group, and
    attributes, each once; what it declares again it names as the base does; what it drops the
    base lets occur zero times. *)
Definition restricts (t d b : node) : Prop :=
  ~ has t "mixed" (lit "true") /\
  (exists c q l, tagged_children content_tags t = [c] /\ tagged_children ["attribute"; "attributeGroup"; "anyAttribute"] t = [] /\
     tag "complexContent" c /\ only c d /\ tag "restriction" d /\ has d "base" q /\ base_before schema own xsd t q /\
     to_own own xsd q l /\ declared schema "complexType" l b) /\
  regular_body schema own xsd d /\ NoDup (map local_name (restated d)) /\ regular b /\
  forall s gs r, composed schema own xsd regular b s gs r ->
    (forall x y, In x (restated d) -> In y (List.concat (map particles gs) ++ r) -> local_name x = local_name y ->
       (tag "element" x <-> tag "element" y) /\ attribute x (lit "name") = attribute y (lit "name") /\ attribute x (lit "ref") = attribute y (lit "ref")) /\
    (forall e, In e (kept (restated d) (List.concat (map particles gs))) -> occurs e 0).

(** Instances whose complex types are regular or such restrictions.  A restriction has the child
    elements it declares; its attributes are its own and those of the base it does not declare
    again. *)
Inductive sound : typ -> inst -> Prop :=
| sound_simple s n x : sound (Simple s) (Inst n [] [] x)
| sound_regular t s gs r n attrs parts (typing : node -> typ) :
    composed schema own xsd regular t s gs r -> attributes_fit schema own xsd any_text r attrs -> Forall2 arranged gs parts ->
    (forall e k, In (e, k) (List.concat parts) -> tag "element" e -> element_named schema own xsd e (inst_name k)) ->
    (forall e k, In (e, k) (List.concat parts) -> tag "element" e -> type_of schema own xsd e (typing e)) ->
    (forall e k, In (e, k) (List.concat parts) -> tag "element" e -> sound (typing e) k) ->
    sound (Complex t) (Inst n attrs (map snd (List.concat parts)) [])
| sound_restricted t d b s gs r n attrs parts (typing : node -> typ) :
    restricts t d b -> composed schema own xsd regular b s gs r ->
    attributes_fit schema own xsd any_text (tagged_children ["attribute"] d ++ kept (restated d) r) attrs -> Forall2 arranged (groups_of d) parts ->
    (forall e k, In (e, k) (List.concat parts) -> tag "element" e -> element_named schema own xsd e (inst_name k)) ->
    (forall e k, In (e, k) (List.concat parts) -> tag "element" e -> type_of schema own xsd e (typing e)) ->
    (forall e k, In (e, k) (List.concat parts) -> tag "element" e -> sound (typing e) k) ->
    sound (Complex t) (Inst n attrs (map snd (List.concat parts)) []).
End Restricted.
