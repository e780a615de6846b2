(** Writing: the instance that comes out when a value read from an instance is written again. *)
From Coq Require Import NArith Bool String List.
From Verif Require Import Str SpecNames Xml Names Entity SpecSchema SpecRust SpecGen SpecScope SpecTraits SpecSize SpecFit.
Import ListNotations.
Local Open Scope string_scope.
Local Open Scope list_scope.
Local Open Scope N_scope.

Definition values (x : qname) (l : list (qname * str)) : list str := map snd (filter (fun a => name_eqb (fst a) x) l).
Definition those (x : qname) (l : list inst) : list inst := filter (fun i => name_eqb (inst_name i) x) l.

(** ** What yaserde writes *)
Section Written.
Context (u : uni) (P : list (list str * item)).   (* the items of the code, with the module path *)
(** [written path t i o]: [o] is written for the value of the type [t] that was read from [i].
    [text path t x y]: of a type for texts, [y] is written for [x].  The members of a struct are written one after another,
    in the order of the struct: an attribute, or the child elements of one name in the order they
    were read.  [outs] has for each member its attributes, and its child elements as read and as
    written. *)
Context (text : list str -> list token -> str -> str -> Prop).
Inductive written : list str -> list token -> inst -> inst -> Prop :=
| written_library path s n x y : In s library_types -> text path (rust u s) x y -> written path (rust u s) (Inst n [] [] x) (Inst n [] [] y)
| written_alias path t p d m t' i o : names u P path t p (IType d m t') -> written p t' i o -> written path t i o
| written_tuple path t p d a m c n x y : names u P path t p (ITuple d a m c) -> text path t x y -> written path t (Inst n [] [] x) (Inst n [] [] y)
| written_enum path t p d a m vs n x y : names u P path t p (IEnum d a m vs) -> text_enum a vs -> text path t x y -> written path t (Inst n [] [] x) (Inst n [] [] y)
| written_struct path t p d a m fs n attrs kids (outs : list (rfield * (list (qname * str) * list (inst * inst)))) :
    names u P path t p (IStruct d a m fs) -> map fst outs = fs ->
    (forall f l ks, In (f, (l, ks)) outs -> exists x,
       attribute_member f x /\ ks = [] /\
       (exists c, holds u (rf_type f) c 1 /\ Forall2 (fun v w => text p c v w) (values x attrs) (map snd l)) /\ (forall a, In a l -> fst a = x) \/
       element_member f x /\ l = [] /\ map fst ks = those x kids /\
       exists c, holds u (rf_type f) c (number x kids) /\ forall k o, In (k, o) ks -> written p c k o) ->
    written path t (Inst n attrs kids [])
      (Inst n (List.concat (map (fun o => fst (snd o)) outs)) (map snd (List.concat (map (fun o => snd (snd o)) outs))) []).
End Written.

(** Texts written as they were read. *)
Definition same_text (path : list str) (t : list token) (x y : str) : Prop := x = y.

(** ** What is kept
    Two instances alike: the same name, attributes and text, and for every name the same child
    elements in the same order, each alike. *)
Inductive alike : inst -> inst -> Prop :=
| alike_intro n attrs attrs' kids (pairs : list (inst * inst)) x :
    (forall a, In a attrs <-> In a attrs') ->
    (forall y, those y (map fst pairs) = those y kids) ->
    (forall k o, In (k, o) pairs -> inst_name k = inst_name o) ->
    (forall k o, In (k, o) pairs -> alike k o) ->
    alike (Inst n attrs kids x) (Inst n attrs' (map snd pairs) x).

(** ** Types written in order
    At most one of the groups of a type, those of its base types included, has elements. *)
Definition one_content (schema : node) (own xsd : option str) (t : node) : Prop :=
  forall s gs r, composed schema own xsd (fun _ => True) t s gs r ->
    forall a g b h c, gs = a ++ g :: b ++ h :: c -> particles g = [] \/ particles h = [].

(** ** What is kept, with values
    [W s x y]: the texts [x] and [y] of the simple type [s] have one value.  Two instances of a
    type are the same: texts of the same values where the type is simple, and for every name the
    same attributes and child elements. *)
Section Same.
Context (schema : node) (own xsd : option str) (W : sref -> str -> str -> Prop).
Definition same_attribute (a : node) (v w : str) : Prop := v = w \/ exists s, attribute_typed schema own xsd a s /\ W s v w.
Inductive same : typ -> inst -> inst -> Prop :=
| same_simple s n x y : W s x y -> same (Simple s) (Inst n [] [] x) (Inst n [] [] y)
| same_complex t s gs r n attrs attrs' kids (pairs : list (inst * inst)) x :
    composed schema own xsd (fun _ => True) t s gs r ->
    (forall m v, In (m, v) attrs -> exists a w, In a r /\ attribute_named schema own a m /\ In (m, w) attrs' /\ same_attribute a v w) ->
    (forall m w, In (m, w) attrs' -> exists a v, In a r /\ attribute_named schema own a m /\ In (m, v) attrs /\ same_attribute a v w) ->
    (forall y, those y (map fst pairs) = those y kids) ->
    (forall k o, In (k, o) pairs -> inst_name k = inst_name o) ->
    (forall k o, In (k, o) pairs -> exists e T, In e (List.concat (map particles gs)) /\ element_named schema own xsd e (inst_name k) /\ type_of schema own xsd e T /\ same T k o) ->
    same (Complex t) (Inst n attrs kids x) (Inst n attrs' (map snd pairs) x).
End Same.
