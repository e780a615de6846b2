(** Scopes: which type names generated code mentions, and what they refer to.

    A module of generated code opens with [use super::*;], so what is defined in the enclosing
    modules can be named in it directly. *)
From Coq Require Import NArith ZArith Bool Ascii String List.
From Verif Require Import Str SpecLex SpecNames SpecBuiltin Xml Names Entity SpecSchema SpecRust SpecGen.
Import ListNotations.
Local Open Scope string_scope.
Local Open Scope list_scope.
Local Open Scope N_scope.

(** ** Generated code *)
(** The types mentioned by an item, and the types it introduces, with the module path. *)
Fixpoint mentions (path : list str) (i : item) : list (list str * list token) :=
  match i with
  | IStruct _ _ _ fs => map (fun f => (path, rf_type f)) fs
  | ITuple _ _ _ t => [(path, t)]
  | IEnum _ _ _ vs => List.concat (map (fun v => match va_type v with Some t => [(path, t)] | None => [] end) vs)
  | IValidate _ ks => List.concat (map (fun k => match ck_cond k with CBound _ _ t => [(path, t)] | CLen _ _ => [] end) ks)
  | IType _ _ t => [(path, t)]
  | IMod m l => List.concat (map (mentions (path ++ [m])) l)
  | IDefault _ | INote _ => []
  end.
Fixpoint introduces (path : list str) (i : item) : list (list str * list token) :=
  match i with
  | IStruct _ _ n _ | ITuple _ _ n _ | IEnum _ _ n _ | IType _ n _ => [(path, n)]
  | IMod m l => List.concat (map (introduces (path ++ [m])) l)
  | IDefault _ | IValidate _ _ | INote _ => []
  end.

(** Types of the standard library and of xsd-types (imported as [xs]). *)
Definition library_types : list string :=
  ["String"; "bool"; "i64"; "i32"; "i16"; "i8"; "u64"; "u32"; "u16"; "u8"; "f64";
   "xs::Integer"; "xs::NonNegativeInteger"; "xs::PositiveInteger"; "xs::NonPositiveInteger";
   "xs::NegativeInteger"; "xs::Decimal"; "xs::Date"; "xs::Time"; "xs::DateTime"; "xs::DateTimeStamp";
   "xs::Duration"; "xs::GDay"; "xs::GMonth"; "xs::GMonthDay"; "xs::GYear"; "xs::GYearMonth"].
(** The names generated code uses without a path and does not mean to define. *)
Definition borrowed : list string :=
  ["String"; "bool"; "i64"; "i32"; "i16"; "i8"; "u64"; "u32"; "u16"; "u8"; "f64";
   "Vec"; "Option"; "Result"; "Ok"; "Err"; "Default"; "Validate"].
Definition unborrowed (t : list token) : Prop := forall s, In s borrowed -> t <> [TWord (lit s)].

Section Resolution.
Context (u : uni).
(** [within t c]: the type [t] is [c] or containers around it. *)
Inductive within : list token -> list token -> Prop :=
| within_self t : within t t
| within_vec t c : within t c -> within (rust u "Vec<" ++ t ++ rust u ">") c
| within_option t c : within t c -> within (rust u "Option<" ++ t ++ rust u ">") c.

(** A name at a path: introduced there or in an enclosing module; or introduced in a module
    of this place and named with that module. *)
Inductive in_scope (intro : list (list str * list token)) (path : list str) : list token -> Prop :=
| scope_above w p q : path = p ++ q -> In (p, [TWord w]) intro -> in_scope intro path [TWord w]
| scope_module m w : In (path ++ [m], [TWord w]) intro -> in_scope intro path ([TWord m] ++ rust u "::" ++ [TWord w]).
(** A path into the module of another namespace of the document; [xs] is the module of xsd-types. *)
Definition foreign (nss : list namespace) (own xsd : option str) (t : list token) : Prop :=
  exists ns p w, In ns nss /\ ns_name ns = Some p /\ own <> Some p /\ xsd <> Some p /\ p <> lit "xs" /\ t = [TWord p] ++ rust u "::" ++ [TWord w].
Definition resolves (nss : list namespace) (own xsd : option str) (intro : list (list str * list token)) (path : list str) (t : list token) : Prop :=
  exists c, within t c /\
    ((exists s, In s library_types /\ c = rust u s) \/ foreign nss own xsd c \/ in_scope intro path c).
End Resolution.

(** ** Documents *)
Section Document.
Context (u : uni) (schema : node) (own xsd : option str).   (* the prefixes of the target namespace and of XML Schema *)
Definition builtin_name (l : str) : Prop := In l (map fst xsd_builtins).

(** The declarations that introduce a type: types, elements and attributes without a type
    attribute, and elements and attributes with a type attribute and documentation. *)
Definition introduced (nm : str) : Prop :=
  exists d, In d (children schema) /\ has d "name" nm /\ (tag "attribute" d -> absent d "ref") /\
    (one ["simpleType"; "complexType"] d \/ one ["element"; "attribute"] d /\ absent d "type" \/
     one ["element"; "attribute"] d /\ present d "type" /\ exists c, SpecSchema.documented d c /\ SpecGen.documented (Some c)).
Definition letter_first (s : str) : Prop := exists c t, s = c :: t /\ letter c.
Definition plain_word (s : str) : Prop := letter_first s /\ forall c, In c s -> alnum c \/ c = 95.

(** A reference to a built-in type, to a declaration that introduces a type, or into another
    namespace. *)
Definition known (q : str) : Prop :=
  exists p l, qualified q p l /\
    (p = xsd /\ builtin_name l \/
     ~ (p = xsd /\ builtin_name l) /\ (p = None \/ p = own) /\ introduced l \/
     exists x ns, p = Some x /\ In ns (namespaces schema) /\ ns_name ns = Some x /\ own <> Some x /\ xsd <> Some x /\ x <> lit "xs" /\ plain_word x /\ letter_first l).
Definition referring (x : node) (q : str) : Prop :=
  one ["element"; "attribute"] x /\ (has x "type" q \/ has x "ref" q) \/ has x "base" q \/ has x "itemType" q \/
  exists m ts, has x "memberTypes" m /\ blank_tokens m ts /\ In q ts.

(** A name that starts with a letter and has no colon, that is not taken for a built-in type
    (nor with Type appended), and whose module is not called like the target namespace. *)
Definition clear_name (nm : str) : Prop :=
  letter_first nm /\ ~ In 58 nm /\
  (xsd = None -> ~ builtin_name nm /\ ~ builtin_name (nm ++ lit "Type")) /\
  own <> Some (format_name u nm) /\ own <> Some (format_name u (nm ++ lit "Type")).

Definition orderly (x : node) : Prop :=
  (forall q, referring x q -> known q) /\
  (forall nm, has x "name" nm -> clear_name nm) /\
  (tag "element" x -> absent x "type" -> absent x "ref" -> present x "name") /\
  (tag "union" x -> tagged_children ["attribute"; "anyAttribute"] x = []) /\
  (* no list of an anonymous union *)
  (tag "list" x -> forall c k, In c (children x) -> tag "simpleType" c -> final (particles c) k -> ~ tag "union" k) /\
  (* no choice as the content of an anonymous complex type *)
  (~ tag "schema" x -> forall c k, In c (children x) -> tag "complexType" c ->
     final (tagged_children content_tags c) k -> tag "choice" k -> ~ has_elements k).
End Document.
