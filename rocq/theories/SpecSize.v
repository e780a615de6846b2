(** Sizes: generated types must not contain themselves except through a vector.

    rustc rejects a struct, tuple or enum with a component of its own type, direct or through
    other types, and a type alias that is its own expansion; only [Vec] puts its elements
    elsewhere. *)
From Coq Require Import NArith ZArith Bool Ascii String List.
From Verif Require Import Str SpecLex SpecNames SpecBuiltin Xml Names Entity SpecSchema SpecRust SpecGen SpecScope SpecTraits.
Import ListNotations.
Local Open Scope string_scope.
Local Open Scope list_scope.
Local Open Scope N_scope.

(** ** Generated code *)
Definition defines (i : item) (n : list token) : Prop :=
  match i with IStruct _ _ m _ | ITuple _ _ m _ | IEnum _ _ m _ | IType _ m _ => m = n | _ => False end.
(** The types a value of the defined type is made of; of an alias, what it stands for. *)
Definition parts_of (i : item) : list (list token) :=
  match i with IType _ _ t => [t] | _ => components i end.

Section Sized.
Context (u : uni) (nss : list namespace) (own xsd : option str) (P : list (list str * item)).   (* the items of the code, with the module path *)
(** The items a name may stand for at a path. *)
Inductive seen (path : list str) : list token -> list str -> item -> Prop :=
| seen_above w p r i : path = p ++ r -> In (p, i) P -> defines i [TWord w] -> seen path [TWord w] p i
| seen_module m w i : In (path ++ [m], i) P -> defines i [TWord w] -> seen path ([TWord m] ++ rust u "::" ++ [TWord w]) (path ++ [m]) i.
(** [sized path t]: the type written [t] at [path] has a finite size.  A name has if all it
    may stand for have; the types of other namespaces are not looked at. *)
Inductive sized : list str -> list token -> Prop :=
| sized_library path s : In s library_types -> sized path (rust u s)
| sized_vec path t : sized path (rust u "Vec<" ++ t ++ rust u ">")
| sized_option path t : sized path t -> sized path (rust u "Option<" ++ t ++ rust u ">")
| sized_foreign path t : foreign u nss own xsd t -> sized path t
| sized_name path t : (exists p i, seen path t p i) ->
    (forall p i c, seen path t p i -> In c (parts_of i) -> sized p c) -> sized path t.
(** No name is defined twice, nor hidden by a definition in an inner module, and no name of the
    library is hidden. *)
Definition unshadowed : Prop :=
  (forall p r n i j, In (p, i) P -> In (p ++ r, j) P -> defines i n -> defines j n -> r = [] /\ i = j) /\
  forall p i n, In (p, i) P -> defines i n -> unborrowed n /\ ~ In (lit "xs") p.
End Sized.
(** All types of the code have a finite size. *)
Definition finite (u : uni) (nss : list namespace) (own xsd : option str) (its : list item) : Prop :=
  let P := List.concat (map (placed []) its) in
  forall path i c, In (path, i) P -> In c (parts_of i) -> sized u nss own xsd P path c.

(** ** Documents *)
Section Document.
Context (schema : node) (own xsd : option str).
(** An element that may occur more than once. *)
Definition repeated (x : node) : Prop := (exists k, min_is x k /\ 1 < k) \/ max_many x.
Definition global (anc : list node) : Prop := exists p r, anc = p :: r /\ tag "schema" p.
(** What is kept in a vector: the items of a list, the repeated elements. *)
Definition indirect (anc : list node) (n : node) : Prop := tag "list" n \/ tag "element" n /\ repeated n /\ ~ global anc.
(** The elements at or below a node that are not inside an indirect one, with their ancestors. *)
Inductive inline : list node -> node -> list node -> node -> Prop :=
| inline_self anc n : inline anc n anc n
| inline_child anc n c anc' x : ~ indirect anc n -> In c (children n) -> ~ tag "annotation" c ->
    inline (n :: anc) c anc' x -> inline anc n anc' x.
(** The one recursion the code looks for: an element of a sequence or all group whose type
    name ends in the name of the enclosing component. *)
Definition boxed (anc : list node) (q : str) : Prop :=
  exists p r e, anc = p :: r /\ one ["sequence"; "all"] p /\ enclosing r e /\ suffix e q.
(** A value of the component contains a value of type [q]: an element, an attribute, a base,
    a member of a union. *)
Inductive value (anc : list node) (x : node) (q : str) : Prop :=
| value_element : tag "element" x -> has x "type" q \/ has x "ref" q -> ~ repeated x \/ global anc -> ~ boxed anc q -> value anc x q
| value_attribute : tag "attribute" x -> has x "type" q \/ has x "ref" q -> value anc x q
| value_base : has x "base" q -> value anc x q
| value_member m ts : has x "memberTypes" m -> blank_tokens m ts -> In q ts -> value anc x q.
(** The component takes the content of another: a base, an attribute group. *)
Definition splice (x : node) (q : str) : Prop := has x "base" q \/ tag "attributeGroup" x /\ has x "ref" q.
Definition direct (d : node) (l : str) : Prop :=
  exists anc x q, inline [schema] d anc x /\ (value anc x q /\ to_own own xsd q l \/ splice x q /\ local q l).
(** A declaration of no type: an element or attribute that only refers to one, without a
    comment. *)
Definition silent (d : node) : Prop :=
  (one ["element"; "attribute"] d /\ present d "type" \/ tag "attribute" d /\ present d "ref") /\
  ~ exists c, SpecSchema.documented d c /\ SpecGen.documented (Some c).
Definition contains (l l' : str) : Prop := exists d, In d (children schema) /\ has d "name" l /\ ~ silent d /\ direct d l'.
(** No chain of declarations, each containing the next, is infinite. *)
Definition grounded : Prop := forall l, Acc (fun b a => contains a b) l.
End Document.
