(** Sequences, extensions, restrictions and choices inside each other: their instances, and what
    the generated types can hold. *)
From Coq Require Import NArith ZArith Bool Ascii String List Permutation.
From Verif Require Import Str SpecLex SpecNames SpecBuiltin Xml Names Entity SpecSchema SpecRust SpecGen SpecDoc SpecScope SpecTraits SpecSize SpecDistinct SpecFit SpecRestrict SpecWrite SpecChoice.
Import ListNotations.
Local Open Scope string_scope.
Local Open Scope list_scope.
Local Open Scope N_scope.

Section Nested.
Context (schema : node) (own xsd : option str).   (* the prefixes of the target namespace and of XML Schema *)
Context (B : node -> Prop) (V : sref -> str -> Prop).   (* the declarations of attributes, and the texts of simple types, that occur *)
Notation regular := (regular schema own xsd).
(** An element whose type is a choice has the type by name. *)
Definition choice_by_name (e : node) (T : typ) : Prop := forall t c, T = Complex t -> choice_type schema own xsd t c -> exists q, has e "type" q.

(** Instances whose complex types are regular ones, restrictions or choices, at each level. *)
Inductive nested : typ -> inst -> Prop :=
| nested_simple s n x : V s x -> nested (Simple s) (Inst n [] [] x)
| nested_regular t s gs r n attrs parts (typing : node -> typ) :
    composed schema own xsd regular t s gs r -> Forall B r -> attributes_fit schema own xsd V r attrs -> Forall2 arranged gs parts ->
    (forall e k, In (e, k) (List.concat parts) -> tag "element" e -> element_named schema own xsd e (inst_name k)) ->
    (forall e k, In (e, k) (List.concat parts) -> tag "element" e -> type_of schema own xsd e (typing e) /\ choice_by_name e (typing e)) ->
    (forall e k, In (e, k) (List.concat parts) -> tag "element" e -> nested (typing e) k) ->
    nested (Complex t) (Inst n attrs (map snd (List.concat parts)) [])
| nested_restricted t d b s gs r n attrs parts (typing : node -> typ) :
    restricts schema own xsd t d b -> composed schema own xsd regular b s gs r ->
    Forall B (tagged_children ["attribute"] d ++ kept (restated d) r) ->
    attributes_fit schema own xsd V (tagged_children ["attribute"] d ++ kept (restated d) r) attrs -> Forall2 arranged (groups_of d) parts ->
    (forall e k, In (e, k) (List.concat parts) -> tag "element" e -> element_named schema own xsd e (inst_name k)) ->
    (forall e k, In (e, k) (List.concat parts) -> tag "element" e -> type_of schema own xsd e (typing e) /\ choice_by_name e (typing e)) ->
    (forall e k, In (e, k) (List.concat parts) -> tag "element" e -> nested (typing e) k) ->
    nested (Complex t) (Inst n attrs (map snd (List.concat parts)) [])
| nested_choice t c r n attrs l (typing : node -> typ) : choice_type schema own xsd t c ->
    attributed schema (children t) r -> Forall B r -> attributes_fit schema own xsd V r attrs -> arranged c l ->
    (forall e k, In (e, k) l -> element_named schema own xsd e (inst_name k)) ->
    (forall e k, In (e, k) l -> type_of schema own xsd e (typing e)) ->
    (forall e k, In (e, k) l -> nested (typing e) k) ->
    nested (Complex t) (Inst n attrs (map snd l) []).
End Nested.

(** ** What is kept, with values
    The elements and attributes a complex type of one of the kinds declares. *)
Section Kept.
Context (schema : node) (own xsd : option str) (W : sref -> str -> str -> Prop).   (* two texts of a simple type have one value *)
Definition content_of (t : node) (es r : list node) : Prop :=
  (exists s gs, composed schema own xsd (regular schema own xsd) t s gs r /\ es = List.concat (map particles gs)) \/
  (exists d b s gs r', restricts schema own xsd t d b /\ composed schema own xsd (regular schema own xsd) b s gs r' /\
     es = List.concat (map particles (groups_of d)) /\ r = tagged_children ["attribute"] d ++ kept (restated d) r') \/
  (exists c, choice_type schema own xsd t c /\ attributed schema (children t) r /\ es = particles c).
(** As [SpecWrite.same], for types of all kinds. *)
Inductive same_deep : typ -> inst -> inst -> Prop :=
| same_deep_simple s n x y : W s x y -> same_deep (Simple s) (Inst n [] [] x) (Inst n [] [] y)
| same_deep_complex t es r n attrs attrs' kids (pairs : list (inst * inst)) :
    content_of t es r ->
    (forall m v, In (m, v) attrs -> exists a w, In a r /\ attribute_named schema own a m /\ In (m, w) attrs' /\ same_attribute schema own xsd W a v w) ->
    (forall m w, In (m, w) attrs' -> exists a v, In a r /\ attribute_named schema own a m /\ In (m, v) attrs /\ same_attribute schema own xsd W a v w) ->
    (forall y, those y (map fst pairs) = those y kids) ->
    (forall k o, In (k, o) pairs -> inst_name k = inst_name o) ->
    (forall k o, In (k, o) pairs -> exists e T, In e es /\ element_named schema own xsd e (inst_name k) /\ type_of schema own xsd e T /\ same_deep T k o) ->
    same_deep (Complex t) (Inst n attrs kids []) (Inst n attrs' (map snd pairs) []).
End Kept.

(** The declarations of attributes are not looked at. *)
Definition any_attribute (a : node) : Prop := True.

(** ** What generated types hold *)
Section Fit.
Context (u : uni) (P : list (list str * item)).   (* the items of the code, with the module path *)
Context (text : list str -> list token -> str -> Prop).   (* the texts that a type, at a path, reads *)
Context (wtext : list str -> list token -> str -> str -> Prop).   (* and what it writes for them *)
(** [fits_deep]: the rules of [SpecFit.fits] and of [SpecChoice.fits_all], for children held in
    either way. *)
Inductive fits_deep : list str -> list token -> inst -> Prop :=
| deep_library path s n x : In s library_types -> text path (rust u s) x -> fits_deep path (rust u s) (Inst n [] [] x)
| deep_alias path t p d m t' i : names u P path t p (IType d m t') -> fits_deep p t' i -> fits_deep path t i
| deep_tuple path t p d a m c n x : names u P path t p (ITuple d a m c) -> text path t x -> fits_deep path t (Inst n [] [] x)
| deep_enum path t p d a m vs n x : names u P path t p (IEnum d a m vs) -> text_enum a vs -> text path t x -> fits_deep path t (Inst n [] [] x)
| deep_struct path t p d a m fs n attrs kids : names u P path t p (IStruct d a m fs) ->
    (forall x v, In (x, v) attrs -> exists f, In f fs /\ attribute_member f x) ->
    (forall f x, In f fs -> attribute_member f x -> exists c, holds u (rf_type f) c 1 /\ forall v, In (x, v) attrs -> text p c v) ->
    (forall f x, In f fs -> attribute_member f x -> ~ In x (map fst attrs) -> exists c, rf_type f = rust u "Option<" ++ c ++ rust u ">") ->
    (forall k, In k kids -> exists f, In f fs /\ element_member f (inst_name k)) ->
    (forall f x, In f fs -> element_member f x -> exists c, holds u (rf_type f) c (number x kids) /\
       forall k, In k kids -> inst_name k = x -> fits_deep p c k) ->
    (forall f, In f fs -> exists x, attribute_member f x \/ element_member f x) ->
    fits_deep path t (Inst n attrs kids [])
| deep_flat path t p d a m fs n attrs k f p' d' a' m' vs v c : names u P path t p (IStruct d a m fs) ->
    (forall x y, In (x, y) attrs -> exists g, In g fs /\ attribute_member g x) ->
    (forall g x, In g fs -> attribute_member g x -> exists c, holds u (rf_type g) c 1 /\ forall v, In (x, v) attrs -> text p c v) ->
    (forall g x, In g fs -> attribute_member g x -> ~ In x (map fst attrs) -> exists c, rf_type g = rust u "Option<" ++ c ++ rust u ">") ->
    In f fs -> argued f "flatten" None -> (forall g, In g fs -> g = f \/ exists x, attribute_member g x) ->
    names u P p (rf_type f) p' (IEnum d' a' m' vs) -> In choice_derive a' ->
    In v vs -> variant_member v (inst_name k) -> (forall w, In w vs -> variant_member w (inst_name k) -> w = v) ->
    va_type v = Some c -> fits_deep p' c k ->
    fits_deep path t (Inst n attrs [k] []).

(** ** What is written
    [written_deep]: the rules of [SpecWrite.written] and of
    [SpecFlat.written_all], for children written in either way. *)
Inductive written_deep : list str -> list token -> inst -> inst -> Prop :=
| writes_library path s n x y : In s library_types -> wtext path (rust u s) x y -> written_deep path (rust u s) (Inst n [] [] x) (Inst n [] [] y)
| writes_alias path t p d m t' i o : names u P path t p (IType d m t') -> written_deep p t' i o -> written_deep path t i o
| writes_tuple path t p d a m c n x y : names u P path t p (ITuple d a m c) -> wtext path t x y -> written_deep path t (Inst n [] [] x) (Inst n [] [] y)
| writes_enum path t p d a m vs n x y : names u P path t p (IEnum d a m vs) -> text_enum a vs -> wtext path t x y -> written_deep path t (Inst n [] [] x) (Inst n [] [] y)
| writes_struct path t p d a m fs n attrs kids (outs : list (rfield * (list (qname * str) * list (inst * inst)))) :
    names u P path t p (IStruct d a m fs) -> map fst outs = fs ->
    (forall f l ks, In (f, (l, ks)) outs -> exists x,
       attribute_member f x /\ ks = [] /\ (exists c, holds u (rf_type f) c 1 /\ Forall2 (wtext p c) (values x attrs) (map snd l)) /\ (forall a, In a l -> fst a = x) \/
       element_member f x /\ l = [] /\ map fst ks = those x kids /\
       exists c, holds u (rf_type f) c (number x kids) /\ forall k o, In (k, o) ks -> written_deep p c k o) ->
    written_deep path t (Inst n attrs kids [])
      (Inst n (List.concat (map (fun o => fst (snd o)) outs)) (map snd (List.concat (map (fun o => snd (snd o)) outs))) [])
| writes_flat path t p d a m fs n attrs k k' (outs : list (rfield * list (qname * str))) f p' d' a' m' vs v c :
    names u P path t p (IStruct d a m fs) -> map fst outs = fs ->
    In f fs -> argued f "flatten" None ->
    (forall g l, In (g, l) outs -> g = f /\ l = [] \/
       exists x, attribute_member g x /\ (exists c, holds u (rf_type g) c 1 /\ Forall2 (wtext p c) (values x attrs) (map snd l)) /\ forall b, In b l -> fst b = x) ->
    names u P p (rf_type f) p' (IEnum d' a' m' vs) -> In choice_derive a' ->
    In v vs -> variant_member v (inst_name k) -> (forall w, In w vs -> variant_member w (inst_name k) -> w = v) ->
    va_type v = Some c -> written_deep p' c k k' ->
    written_deep path t (Inst n attrs [k] []) (Inst n (List.concat (map snd outs)) [k'] []).
End Fit.
