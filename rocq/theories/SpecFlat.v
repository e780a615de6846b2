(** What is written from generated types whose content is a choice. *)
From Coq Require Import NArith ZArith Bool Ascii String List.
From Verif Require Import Str SpecLex SpecNames SpecBuiltin Xml Names Entity SpecSchema SpecRust SpecGen SpecDoc SpecScope SpecTraits SpecSize SpecDistinct SpecFit SpecWrite SpecChoice.
Import ListNotations.
Local Open Scope string_scope.
Local Open Scope list_scope.

Section Written.
Context (u : uni) (P : list (list str * item)).   (* the items of the code, with the module path *)
(** [written_all]: as [SpecWrite.written], with flattened members.  A struct with a flattened
    member of an enum writes its attributes, member by member, and the element of the variant that
    was read. *)
Inductive written_all : list str -> list token -> inst -> inst -> Prop :=
| written_plain path t i o : written u P same_text path t i o -> written_all path t i o
| written_renamed path t p d m t' i o : names u P path t p (IType d m t') -> written_all p t' i o -> written_all path t i o
| written_flat path t p d a m fs n attrs k k' (outs : list (rfield * list (qname * str))) f p' d' a' m' vs v c :
    names u P path t p (IStruct d a m fs) -> map fst outs = fs ->
    In f fs -> argued f "flatten" None ->
    (forall g l, In (g, l) outs -> g = f /\ l = [] \/
       exists x, attribute_member g x /\ map snd l = values x attrs /\ forall b, In b l -> fst b = x) ->
    names u P p (rf_type f) p' (IEnum d' a' m' vs) -> In choice_derive a' ->
    In v vs -> variant_member v (inst_name k) -> (forall w, In w vs -> variant_member w (inst_name k) -> w = v) ->
    va_type v = Some c -> written_all p' c k k' ->
    written_all path t (Inst n attrs [k] []) (Inst n (List.concat (map snd outs)) [k'] []).
End Written.
