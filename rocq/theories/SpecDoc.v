(** Whole documents: what a schema document has to be like for the generated code to be
    well-formed.  Nothing here mentions parsed entities. *)
From Coq Require Import NArith ZArith Bool Ascii String List.
From Verif Require Import Str SpecLex SpecNames Xml SpecSchema SpecRust SpecGen.
Import ListNotations.
Local Open Scope string_scope.
Local Open Scope list_scope.
Local Open Scope N_scope.

(** The document node's children [roots] with the schema element, which is the last element. *)
Definition document (roots : list node) (schema : node) : Prop :=
  exists a b, roots = a ++ schema :: b /\ is_element schema = true /\ forall n, In n b -> is_element n = false.

(** [part x n]: [x] is [n] or inside it, but not in an annotation. *)
Inductive part : node -> node -> Prop :=
| part_self n : part n n
| part_child x c n : In c (children n) -> ~ tag "annotation" c -> part x c -> part x n.

(** Texts without double quotes, slashes, backslashes and line feeds; every name and every
    list of names allowed by XML is one. *)
Definition quiet (s : str) : Prop := forall c, In c s -> c <> 34 /\ c <> 47 /\ c <> 92 /\ c <> 10.
Definition naming : list string := ["name"; "type"; "ref"; "base"; "itemType"; "memberTypes"].

(** The attributes the generated code is made from: names are names, bounds do not break out
    of their quotes, lengths are 32-bit numbers, locations have one line.  Simple types and
    derivations contain what XML Schema lets them contain. *)
Definition tidy_element (x : node) : Prop :=
  (forall a v, In a naming -> has x a v -> quiet v) /\
  (forall v, one ["maxExclusive"; "maxInclusive"; "minExclusive"; "minInclusive"] x -> has x "value" v -> literal v) /\
  (forall v, one ["length"; "maxLength"; "minLength"] x -> has x "value" v -> exists k, u32_text v k) /\
  (forall v, one ["import"; "include"] x -> has x "namespace" v \/ has x "schemaLocation" v -> one_line v) /\
  (tag "simpleType" x -> forall c, In c (particles x) -> one ["restriction"; "list"; "union"] c) /\
  (one ["complexContent"; "simpleContent"] x -> forall c, In c (particles x) -> one ["extension"; "restriction"] c).
Definition tidy_namespace (t : namespace) : Prop := literal (ns_uri t) /\ forall p, ns_name t = Some p -> literal p.
Definition tidy (schema : node) : Prop :=
  (forall x, part x schema -> tidy_element x) /\ forall t, In t (namespaces schema) -> tidy_namespace t.

(** Nothing derives, at any depth, from a type with the name of the declaration it is in; the
    name the code uses for its own purposes does not occur. *)
Definition not_self_derived (schema : node) : Prop :=
  (forall d nm x b k, In d (children schema) -> has d "name" nm -> part x d -> has x "base" b -> local b k -> k <> nm) /\
  (forall x, part x schema -> ~ has x "name" (lit "__base__") /\ ~ has x "ref" (lit "__base__")).
