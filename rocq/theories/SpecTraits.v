(** Traits: what generated code demands of the types it mentions, and what types provide.

    A derived implementation demands the trait of every component; the derive macros of
    xsd-macro-utils (tuple.rs, union.rs, lib.rs), the checks of Validate and the Default of an
    enum demand more. *)
From Coq Require Import NArith ZArith Bool Ascii String List.
From Verif Require Import Str SpecLex SpecNames SpecBuiltin Xml Names Entity SpecSchema SpecRust SpecGen SpecScope.
Import ListNotations.
Local Open Scope string_scope.
Local Open Scope list_scope.

(** Default, Clone, PartialEq, Debug, YaSerialize, YaDeserialize; Display, FromStr, PartialOrd,
    From<&str>, and a method [len]. *)
Inductive capability := CDefault | CClone | CEq | CDebug | CSer | CDe | CDisplay | CParse | COrd | CText | CSize.
Definition common : list capability := [CDefault; CClone; CEq; CDebug; CSer; CDe].

(** ** What types provide *)
(** The types of the standard library and of xsd-types: dates, times and the like have no order. *)
Definition unordered : list string :=
  ["xs::Date"; "xs::Time"; "xs::GDay"; "xs::GMonth"; "xs::GMonthDay"; "xs::GYear"; "xs::GYearMonth"].
Definition library_provides (s : string) (c : capability) : Prop :=
  match c with
  | COrd => ~ In s unordered
  | CText | CSize => s = "String"
  | _ => True
  end.
(** What a derive provides, of what it demands of the components, and of the type itself. *)
Definition derive_provides (d : string) : list capability :=
  match d with
  | "Default" => [CDefault] | "Clone" => [CClone] | "PartialEq" => [CEq] | "Debug" => [CDebug]
  | "YaSerialize" => [CSer] | "YaDeserialize" => [CDe]
  | "UtilsTupleIo" => [CParse; CDisplay]
  | "UtilsDefaultSerde" | "UtilsUnionSerDe" => [CSer; CDe]
  | _ => []
  end.
Definition derive_demands (d : string) : list capability :=
  match d with
  | "Default" => [CDefault] | "Clone" => [CClone] | "PartialEq" => [CEq] | "Debug" => [CDebug]
  | "YaSerialize" => [CSer] | "YaDeserialize" => [CDe]
  | "UtilsUnionSerDe" => [CParse; CDisplay]   (* the macro passes over __Unknown__, whose type is String in a union *)
  | _ => []
  end.
Definition derive_demands_self (d : string) : list capability :=
  match d with "UtilsDefaultSerde" => [CParse; CDisplay] | _ => [] end.
Definition derives (l : list attr) (d : string) : Prop := exists ds, In (ADerive ds) l /\ In d ds.

(** The definitions of generated code, with the module path. *)
Inductive def := DStruct (l : list attr) | DTuple (l : list attr) (t : list token) | DEnum (l : list attr) | DAlias (t : list token).
Fixpoint definitions (path : list str) (i : item) : list (list str * list token * def) :=
  match i with
  | IStruct _ l n _ => [(path, n, DStruct l)]
  | ITuple _ l n t => [(path, n, DTuple l t)]
  | IEnum _ l n _ => [(path, n, DEnum l)]
  | IType _ n t => [(path, n, DAlias t)]
  | IMod m is => List.concat (map (definitions (path ++ [m])) is)
  | IDefault _ | IValidate _ _ | INote _ => []
  end.
Definition same_sort (d e : def) : Prop :=
  match d, e with
  | DStruct _, DStruct _ | DTuple _ _, DTuple _ _ | DEnum _, DEnum _ | DAlias _, DAlias _ => True
  | _, _ => False
  end.
(** No name is defined twice in a module, nor hidden by a definition of another sort, and no
    name of the library is hidden. *)
Definition consistent (D : list (list str * list token * def)) : Prop :=
  (forall p r n d e, In (p, n, d) D -> In (p ++ r, n, e) D -> same_sort d e /\ (r = [] -> d = e)) /\
  forall p n d, In (p, n, d) D -> unborrowed n /\ ~ In (lit "xs") p.

Section Able.
Context (u : uni) (nss : list namespace) (own xsd : option str) (D : list (list str * list token * def)) (dfl : list (list str * list token)).
(** The definitions a name may stand for at a path. *)
Inductive visible (path : list str) : list token -> list str -> def -> Prop :=
| visible_above w p q d : path = p ++ q -> In (p, [TWord w], d) D -> visible path [TWord w] p d
| visible_module m w d : In (path ++ [m], [TWord w], d) D -> visible path ([TWord m] ++ rust u "::" ++ [TWord w]) (path ++ [m]) d.
(** The last word of a path. *)
Definition last_word (t : list token) : list token := match rev t with x :: _ => [x] | [] => [] end.

(** [able path t c]: the type written [t] at [path] provides [c].  A name provides what all
    definitions it may stand for provide; what is in the modules of other namespaces is not
    looked at. *)
Inductive able : list str -> list token -> capability -> Prop :=
| able_library path s c : In s library_types -> library_provides s c -> able path (rust u s) c
| able_vec path t c : In c [CDefault; CSize] -> able path (rust u "Vec<" ++ t ++ rust u ">") c
| able_vec_of path t c : In c [CClone; CEq; CDebug; CSer; CDe; COrd] -> able path t c -> able path (rust u "Vec<" ++ t ++ rust u ">") c
| able_option path t : able path (rust u "Option<" ++ t ++ rust u ">") CDefault
| able_option_of path t c : In c [CClone; CEq; CDebug; CSer; CDe; COrd] -> able path t c -> able path (rust u "Option<" ++ t ++ rust u ">") c
| able_foreign path t c : foreign u nss own xsd t -> able path t c
| able_name path t c : (exists p d, visible path t p d) -> (forall p d, visible path t p d -> provides p (last_word t) d c) -> able path t c
with provides : list str -> list token -> def -> capability -> Prop :=
| provides_struct p n l s c : derives l s -> In c (derive_provides s) -> provides p n (DStruct l) c
| provides_tuple p n l t s c : derives l s -> In c (derive_provides s) -> provides p n (DTuple l t) c
| provides_enum p n l s c : derives l s -> In c (derive_provides s) -> provides p n (DEnum l) c
| provides_default p n d : In (p, n) dfl -> provides p n d CDefault
| provides_alias p n t c : able p t c -> provides p n (DAlias t) c.

(** ** What code demands *)
(** The component types of an item. *)
Definition payload (v : variant) : list (list token) := match va_type v with Some t => [t] | None => [] end.
Definition components (i : item) : list (list token) :=
  match i with
  | IStruct _ _ _ fs => map rf_type fs
  | ITuple _ _ _ t => [t]
  | IEnum _ _ _ vs => List.concat (map payload vs)
  | _ => []
  end.
Definition attributes_of (i : item) : list attr :=
  match i with IStruct _ l _ _ | ITuple _ l _ _ | IEnum _ l _ _ => l | _ => [] end.
(** A tuple that is read and written as text: its type is, or it is a vector of such. *)
Definition textual (path : list str) (t : list token) : Prop :=
  able path t CParse /\ able path t CDisplay \/
  exists e, t = rust u "Vec<" ++ e ++ rust u ">" /\ able path e CParse /\ able path e CDisplay.
Definition check_met (path : list str) (n : list token) (k : check) : Prop :=
  match ck_cond k with
  | CBound _ _ t => able path t CParse /\ able path t COrd /\ able path t CDisplay
  | CLen _ _ => forall l t, In (path, n, DTuple l t) D -> able path t CSize
  end.
Definition met (path : list str) (i : item) : Prop :=
  (forall s c t, derives (attributes_of i) s -> In c (derive_demands s) -> In t (components i) -> able path t c) /\
  (forall s c, derives (attributes_of i) s -> In c (derive_demands_self s) ->
     exists s', derives (attributes_of i) s' /\ In c (derive_provides s')) /\
  (derives (attributes_of i) "UtilsTupleIo" -> exists t, components i = [t] /\ textual path t) /\
  (forall d l n vs v, i = IEnum d l n vs -> In v vs -> va_name v = lit "__Unknown__" -> exists t, payload v = [t] /\ able path t CText) /\
  (forall n ks k, i = IValidate n ks -> In k ks -> check_met path n k).
End Able.
(** The items of code at all depths. *)
Fixpoint placed (path : list str) (i : item) : list (list str * item) :=
  (path, i) :: match i with IMod m is => List.concat (map (placed (path ++ [m])) is) | _ => [] end.
(** Everything that code demands is provided. *)
Definition well_equipped (u : uni) (nss : list namespace) (own xsd : option str) (its : list item) : Prop :=
  forall path i, In (path, i) (List.concat (map (placed []) its)) ->
    met u nss own xsd (List.concat (map (definitions []) its)) (List.concat (map (defaulted []) its)) path i.

(** ** Documents *)
Section Document.
Context (u : uni) (schema : node) (own xsd : option str).
(** A reference to a built-in type with a value space, into another namespace, to a
    declaration of the document. *)
Definition to_builtin (q : str) (v : space -> Prop) : Prop := exists l s, qualified q xsd l /\ In (l, s) xsd_builtins /\ v s.
Definition to_other (q : str) : Prop :=
  exists x l ns, qualified q (Some x) l /\ In ns (namespaces schema) /\ ns_name ns = Some x /\ own <> Some x /\ xsd <> Some x.
Definition to_own (q : str) (l : str) : Prop :=
  exists p, qualified q p l /\ ~ (p = xsd /\ builtin_name l) /\ (p = None \/ p = own).

Definition text_space (s : space) : Prop := match s with SText | SBytes => True | _ => False end.
Definition ordered_space (s : space) : Prop :=
  match s with STexts | SDate | STime | SGDay | SGMonth | SGMonthDay | SGYear | SGYearMonth => False | _ => True end.
(** The simple types that become tuples: lists, and restrictions other than enumerations. *)
Definition tuple_type (l : str) : Prop :=
  exists d, In d (children schema) /\ tag "simpleType" d /\ has d "name" l /\
    forall k, final (particles d) k -> tag "list" k \/ tag "restriction" k /\ ~ plain_enumeration u k.
Definition some_type (l : str) : Prop := exists d, In d (children schema) /\ one ["simpleType"; "complexType"] d /\ has d "name" l.
(** A type with a single value, read and written as text. *)
Definition scalar (q : str) : Prop :=
  to_builtin q (fun s => s <> STexts) \/ to_other q \/ exists l, to_own q l /\ tuple_type l.

Definition bounded (k : node) : Prop := exists c, In c (children k) /\ one ["maxExclusive"; "maxInclusive"; "minExclusive"; "minInclusive"] c.
Definition measured (k : node) : Prop := exists c, In c (children k) /\ one ["length"; "maxLength"; "minLength"] c.
(** No unions; restrictions of types with a text form, bounds on types with an order, lengths
    on texts and lists; enumerations of text; lists of single values. *)
Definition practical_restriction (k : node) : Prop :=
  forall b, has k "base" b ->
    (plain_enumeration u k -> to_builtin b text_space) /\
    (~ plain_enumeration u k -> (scalar b \/ to_builtin b (fun s => s = STexts)) /\
       (bounded k -> to_builtin b ordered_space \/ to_other b) /\
       (measured k -> to_builtin b (fun s => text_space s \/ s = STexts) \/ to_other b)).
Definition practical_list (k : node) : Prop :=
  (forall it, has k "itemType" it -> scalar it) /\
  (absent k "itemType" -> forall c r, first_child k "simpleType" c -> final (particles c) r ->
     tag "restriction" r /\ ~ plain_enumeration u r /\ ~ bounded r /\ forall b, has r "base" b -> scalar b).
Definition practical (x : node) : Prop :=
  ~ tag "union" x /\
  (tag "list" x -> practical_list x) /\
  (tag "simpleType" x -> forall k, In k (children x) -> tag "restriction" k -> practical_restriction k) /\
  (* a documented element or attribute of the schema is an alias of a type *)
  (tag "schema" x -> forall d c q, In d (children x) -> one ["element"; "attribute"] d -> SpecSchema.documented d c -> SpecGen.documented (Some c) ->
     has d "type" q \/ has d "ref" q -> to_builtin q (fun _ => True) \/ to_other q \/ exists l, to_own q l /\ some_type l).
End Document.
