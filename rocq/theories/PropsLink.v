(** Property theorems C40-C43: base types and attribute groups. *)
From Coq Require Import NArith ZArith Bool Ascii String List Lia.
From Verif Require Import Str SpecLex SpecNames Xml Names Entity Parser ParserFacts SpecSchema ParserProofs Link SpecLink LinkProofs PropsParser.
Import ListNotations.
Local Open Scope string_scope.
Local Open Scope list_scope.

(** Documents for the examples. *)
Definition typed (n t : string) : node := el "element" [("name", n); ("type", t)] [].
Definition seq (cs : list node) : node := el "sequence" [] cs.
Definition ext (b : string) (cs : list node) : node := el "complexContent" [] [el "extension" [("base", b)] cs].
Definition cty (n : string) (cs : list node) : node := el "complexType" [("name", n)] cs.
Definition anon (n : string) (cs : list node) : node := el "element" [("name", n)] [el "complexType" [] cs].
(** Proves that a literal document is in the supported subset. *)
Ltac solve_ok :=
  lazymatch goal with
  | |- ok_schema _ => split; [reflexivity|solve_ok]
  | |- ok GlobalComplex _ => apply ok_global_complex; [reflexivity|eexists; reflexivity|solve_ok]
  | |- ok LocalComplex _ => apply ok_local_complex; [reflexivity|solve_ok]
  | |- ok GlobalElement _ => apply ok_global_element; [reflexivity|eexists; reflexivity|solve_ok]
  | |- ok GlobalGroup _ => apply ok_global_group; [reflexivity|eexists; reflexivity|solve_ok]
  | |- ok GroupReference _ => apply ok_group_reference; [reflexivity|eexists; reflexivity]
  | |- ok Attribute _ => apply ok_attribute; [reflexivity|left; eexists; reflexivity|exists MOption; apply use_absent; reflexivity]
  | |- ok Sequence _ => apply ok_sequence; [eexists; split; [left; reflexivity|reflexivity]|solve_ok]
  | |- ok Choice _ => apply ok_choice; [reflexivity|solve_ok]
  | |- ok ComplexContent _ => eapply ok_complex_content; [reflexivity|solve_ok|solve_ok]
  | |- ok ComplexDerivation _ => apply ok_derivation; [eexists; split; [left; reflexivity|reflexivity]|eexists; reflexivity|solve_ok]
  | |- ok LocalElement _ => (apply ok_typed_element; [reflexivity|(left; eexists; reflexivity) || (right; eexists; reflexivity)]) ||
      (eapply (ok_anonymous_element _ [] _ []); [reflexivity|reflexivity|constructor|solve_ok])
  | |- only _ _ => exists [], []; split; [reflexivity|split; [reflexivity|split; [discriminate|split; constructor]]]
  | |- ok _ _ => fail
  | |- ignorable _ => (left; reflexivity) || (right; reflexivity)
  | |- one _ _ => exists "element"; split; [left; reflexivity|reflexivity]
  | |- Forall _ [] => constructor
  | |- Forall _ (_ :: _) => constructor; [solve_ok|solve_ok]
  | |- Forall _ _ => progress cbn [children el typed seq ext cty anon]; solve_ok
  | |- _ \/ _ => (left; solve_ok) || (right; solve_ok)
  end.

Definition names (s : strukt entity) : list str := map fl_name (st_fields s).
Definition schema2 : node := el "schema" []
  [ el "attributeGroup" [("name", "G")] [el "attribute" [("name", "g")] []];
    cty "A" [seq [typed "x" "xs:int"; typed "y" "xs:int"]; el "attribute" [("name", "k")] []];
    cty "B" [ext "t:A" [seq [typed "y" "xs:string"; anon "n" [ext "A" [seq [typed "z" "xs:int"]]]]]];
    cty "C" [ext "B" [el "attribute" [("name", "w")] []; el "attributeGroup" [("ref", "G")] []]];
    el "element" [("name", "e"); ("type", "C")] [] ].

(** C40: what resolution makes of every type, in any order of declaration. *)
Theorem C40_resolution : forall f f', link f = Ok f' ->
  rf_groups f' = rf_groups f /\ rf_target_ns f' = rf_target_ns f /\ rf_xsd_ns f' = rf_xsd_ns f /\
  List.length (rf_types f') = List.length (rf_types f) /\
  (forall i e, nth_error (rf_types f) i = Some e -> (forall s, e <> EStruct s) -> nth_error (rf_types f') i = Some e) /\
  (forall i s, struct_at (rf_types f) i s ->
     exists t, struct_at (rf_types f') i t /\ resolved (top_level f) (top_level f') i s t).
Proof. exact link_ok. Qed.
Print Assumptions C40_resolution.
(** When every base is declared before: the own fields, then the finished fields of the base
    that are not redeclared, then those of the attribute groups. *)
Theorem C40_bases_first : forall f f' i s, link f = Ok f' -> bases_first f -> groups_found f -> struct_at (rf_types f) i s ->
  exists t own cs gs, struct_at (rf_types f') i t /\ same_struct s t /\
    Forall2 (same_field (completed (finished (top_level f) (top_level f')))) (st_fields s) own /\
    Forall2 (fun b c => finished (top_level f) (top_level f') (fl_type b) c) (placeholders own) cs /\
    Forall2 (fun a g => finished (top_level f) (top_level f) (al_original a) g) (st_groups s) gs /\
    st_fields t = proper own ++ not_redeclared own (List.concat cs) ++ List.concat gs.
Proof. exact link_finished. Qed.
Print Assumptions C40_bases_first.
(** Then every field written by an ancestor, at any distance, is there. *)
Theorem C40_inherited : forall f f' i j g, link f = Ok f' -> bases_first f -> groups_found f -> ancestor f i j -> writes f j g ->
  exists t g', struct_at (rf_types f') i t /\ In g' (st_fields t) /\ fl_name g' = fl_name g.
Proof. exact inherited_all. Qed.
Print Assumptions C40_inherited.
Theorem C40_own_fields : forall f f' i g, link f = Ok f' -> bases_first f -> groups_found f -> writes f i g ->
  exists t g', struct_at (rf_types f') i t /\ In g' (st_fields t) /\ copy g g'.
Proof. exact inherited_own. Qed.
Print Assumptions C40_own_fields.
(** And nothing else is. *)
Theorem C40_nothing_else : forall f f' i, link f = Ok f' -> bases_first f -> groups_found f -> plain_groups f ->
  forall t g', struct_at (rf_types f') i t -> In g' (st_fields t) ->
  ~ placeholder g' /\ exists j g, (j = i \/ ancestor f i j) /\ writes f j g /\ copy g g'.
Proof. exact inherited_only. Qed.
Print Assumptions C40_nothing_else.
(** If a base is declared after the type and has a base itself, the fields of the latter are lost. *)
Theorem C40_any_order_refuted : forall u, exists n f f' c a, ok_schema n /\ parse_schema u n [] = Ok f /\ link f = Ok f' /\
  ancestor f 0 2 /\ struct_at (rf_types f) 2 a /\ names a = [lit "x"] /\ struct_at (rf_types f') 0 c /\
  names c = [lit "z"; lit "y"].
Proof.
  intros u. exists (el "schema" [] [cty "C" [ext "B" [seq [typed "z" "xs:int"]]]; cty "B" [ext "A" [seq [typed "y" "xs:int"]]]; cty "A" [seq [typed "x" "xs:int"]]]).
  eexists _, _, _, _. split; [solve_ok|]. split; [vm_compute; reflexivity|]. split; [vm_compute; reflexivity|]. split.
  - assert (D : forall i s b j k r, nth_error [0; 1; 2]%nat i = Some i -> forall f, struct_at (rf_types f) i s -> In b (st_fields s) -> placeholder b ->
        local (fl_type b) k -> struct_at (top_level f) j r -> st_name r = k ->
        (forall j' r', struct_at (top_level f) j' r' -> st_name r' = k -> (j' <= j)%nat) -> derives f i j).
    { intros i s b j k r _ f A I P L R N M. exists s, b. repeat split; auto. exists k, r. auto. }
    assert (Loc : forall s, ~ In 58%N s -> local s s) by (intros s H; split; auto).
    econstructor 2; [|constructor 1].
    + eapply (D 0%nat _ _ 1%nat (lit "B")).
      { reflexivity. } { reflexivity. } { right; left; reflexivity. } { reflexivity. }
      { apply Loc; vm_compute; intuition discriminate. } { reflexivity. } { reflexivity. }
      intros [|[|[|[|j']]]] r' H X; vm_compute in H; try discriminate; injection H as <-; vm_compute in X; try discriminate; lia.
    + eapply (D 1%nat _ _ 2%nat (lit "A")).
      { reflexivity. } { reflexivity. } { right; left; reflexivity. } { reflexivity. }
      { apply Loc; vm_compute; intuition discriminate. } { reflexivity. } { reflexivity. }
      intros [|[|[|[|j']]]] r' H X; vm_compute in H; try discriminate; injection H as <-; vm_compute in X; try discriminate; lia.
  - split; [reflexivity|]. split; [reflexivity|]. split; reflexivity.
Qed.
Print Assumptions C40_any_order_refuted.
(** A global element with the name of the type it extends hides this type: nothing is inherited. *)
Theorem C40_same_name_refuted : forall u, exists n f f' t e, ok_schema n /\ parse_schema u n [] = Ok f /\ link f = Ok f' /\
  rf_types f' = [EStruct t; EStruct e] /\ names t = [lit "x"] /\ names e = [lit "y"] /\
  n = el "schema" [] [cty "T" [seq [typed "x" "xs:int"]]; anon "T" [ext "T" [seq [typed "y" "xs:int"]]]].
Proof.
  intros u. exists (el "schema" [] [cty "T" [seq [typed "x" "xs:int"]]; anon "T" [ext "T" [seq [typed "y" "xs:int"]]]]).
  eexists _, _, _, _. split; [solve_ok|]. split; [vm_compute; reflexivity|]. split; [vm_compute; reflexivity|]. split; [reflexivity|]. split; [reflexivity|]. split; reflexivity.
Qed.
Print Assumptions C40_same_name_refuted.
Example C40_ex1 : match parse u1 [Other; schema2] with
  | Ok {| rf_types := [EStruct a; EStruct b; EStruct c; EAlias _] |} =>
      names a = [lit "x"; lit "y"; lit "k"] /\ names b = [lit "y"; lit "n"; lit "x"; lit "k"] /\
      names c = [lit "w"; lit "y"; lit "n"; lit "x"; lit "k"; lit "g"]
  | _ => False end.
Proof. vm_compute. auto. Qed.

(** C41: no placeholder is left, in a type or in a type nested in its fields, when every base
    is declared before; at the top level, in any order. *)
Theorem C41_no_placeholder : forall f f' i, link f = Ok f' -> bases_first f -> groups_found f -> plain_groups f ->
  forall t d b, struct_at (rf_types f') i t -> within t d -> In b (st_fields d) -> ~ placeholder b.
Proof. exact placeholders_gone. Qed.
Print Assumptions C41_no_placeholder.
Theorem C41_top_level : forall f f' i t b, link f = Ok f' -> groups_found f -> plain_groups f -> struct_at (rf_types f') i t ->
  In b (st_fields t) -> ~ placeholder b.
Proof. exact top_level_gone. Qed.
Print Assumptions C41_top_level.
Theorem C41_groups_plain : forall u n anc f, tag "schema" n -> parse_schema u n anc = Ok f ->
  (forall g a, In g (tagged_children ["attributeGroup"] n) -> In a (attribute_children g) ->
     ~ has a "name" (lit "__base__") /\ ~ has a "ref" (lit "__base__")) -> plain_groups f.
Proof. intros u n anc f T H. exact (kinds_struct_named u n anc f T H (proj2 (schema_ok u n anc f T H))). Qed.
Print Assumptions C41_groups_plain.
(** In other orders a nested placeholder survives: [X] gets a copy of the unresolved field of [Y]. *)
Theorem C41_any_order_refuted : forall u, exists n f f' t g d b, ok_schema n /\ parse_schema u n [] = Ok f /\ link f = Ok f' /\
  struct_at (rf_types f') 1 t /\ In g (st_fields t) /\ nested_in g d /\ In b (st_fields d) /\ placeholder b.
Proof.
  intros u. exists (el "schema" [] [cty "Z" [seq [typed "z" "xs:int"]]; cty "X" [ext "Y" [seq [typed "x" "xs:int"]]];
     cty "Y" [seq [anon "n" [ext "Z" [seq [typed "y" "xs:int"]]]]]]).
  eexists _, _, _, _, _, _. split; [solve_ok|]. split; [vm_compute; reflexivity|]. split; [vm_compute; reflexivity|]. split; [reflexivity|].
  split; [right; left; reflexivity|]. split; [constructor 1; left; reflexivity|]. split; [right; left; reflexivity|reflexivity].
Qed.
Print Assumptions C41_any_order_refuted.
(** Without resolution (the WSDL tool) every derived type keeps its placeholder. *)
Theorem C41_unlinked_refuted : forall u, exists n f t b, ok_schema n /\ parse_schema u n [] = Ok f /\
  struct_at (rf_types f) 0 t /\ In b (st_fields t) /\ placeholder b.
Proof.
  intros u. exists (el "schema" [] [cty "C" [ext "B" [seq [typed "z" "xs:int"]]]]).
  eexists _, _, _. split; [solve_ok|]. split; [vm_compute; reflexivity|]. split; [reflexivity|]. split; [right; left; reflexivity|reflexivity].
Qed.
Print Assumptions C41_unlinked_refuted.

(** C42: resolution panics exactly when a type nested in a top-level type extends that type. *)
Theorem C42_panic : forall f,
  (link f = Panic <-> exists i, (i < List.length (rf_types f))%nat /\
     exists s g d b, struct_at (top_level f) i s /\ In g (st_fields s) /\ nested_in g d /\ In b (st_fields d) /\ placeholder b /\
       refers (top_level f) (fl_type b) i) /\ link f <> Err.
Proof. exact link_panic. Qed.
Print Assumptions C42_panic.
Theorem C42_never_panics_refuted : forall u, exists n, ok_schema n /\ parse u [n] = Panic.
Proof.
  intros u. exists (el "schema" [] [cty "T" [seq [anon "n" [ext "T" [seq [typed "y" "xs:int"]]]]]]). split; [solve_ok|reflexivity].
Qed.
Print Assumptions C42_never_panics_refuted.
(** The parsed file of a document is that of its last element, resolved; there is no file without one. *)
Theorem C42_document : forall u roots,
  (forall a schema b, roots = a ++ schema :: b -> is_element schema = true -> (forall n, In n b -> is_element n = false) ->
     (forall f', parse u roots = Ok f' <-> exists f, parse_schema u schema [] = Ok f /\ link f = Ok f') /\
     (parse u roots = Panic <-> parse_schema u schema [] = Panic \/ exists f, parse_schema u schema [] = Ok f /\ link f = Panic)) /\
  ((forall n, In n roots -> is_element n = false) -> parse u roots = Panic).
Proof. exact parse_document. Qed.
Print Assumptions C42_document.
(** The model of resolution leaves out types listed beside the fields of a struct; there are none. *)
Theorem C42_no_struct_subtypes : forall u n anc f, parse_schema u n anc = Ok f -> Forall flat (top_level f).
Proof. exact schema_flat. Qed.
Print Assumptions C42_no_struct_subtypes.
Example C42_ex1 : match parse u1 [schema2] with Ok _ => True | _ => False end.
Proof. vm_compute. exact I. Qed.
Example C42_ex2 : match parse u1 [el "schema" [] [cty "T" [ext "U" []]; cty "U" [ext "T" [seq [typed "x" "X"]]]; cty "V" [ext "V" [seq [typed "v" "X"]]]]] with
  | Ok {| rf_types := [EStruct t; EStruct u; EStruct v] |} => names t = [lit "x"] /\ names u = [lit "x"] /\ names v = [lit "v"]
  | _ => False end.
Proof. vm_compute. auto. Qed.

(** C43: attribute groups of a top-level type without content: their attributes follow its own. *)
Theorem C43_groups : forall f f' i s, link f = Ok f' -> groups_found f -> struct_at (rf_types f) i s ->
  placeholders (st_fields s) = [] ->
  exists t own gs, struct_at (rf_types f') i t /\
    Forall2 (same_field (completed (snapshot (top_level f) (top_level f') i))) (st_fields s) own /\
    st_fields t = own ++ List.concat gs /\
    Forall2 (fun a g => finished (top_level f) (top_level f) (al_original a) g) (st_groups s) gs.
Proof. exact groups_inlined. Qed.
Print Assumptions C43_groups.
(** A complex type with attributes and group references only: exactly these attributes. *)
Theorem C43_attribute_type : forall u n anc f f' c, tag "schema" n -> parse_schema u n anc = Ok f -> link f = Ok f' -> groups_found f ->
  In c (children n) -> tag "complexType" c -> tagged_children content_tags c = [] ->
  (forall a, In a (attribute_children c) -> ~ has a "name" (lit "__base__") /\ ~ has a "ref" (lit "__base__")) ->
  exists i t own gs, struct_at (rf_types f') i t /\ has c "name" (st_name t) /\ st_fields t = own ++ List.concat gs /\
    Forall2 attribute_field (attribute_children c) own /\
    Forall2 (fun r g => exists q, has r "ref" q /\ finished (top_level f) (top_level f) q g) (group_children c) gs.
Proof. exact attribute_type. Qed.
Print Assumptions C43_attribute_type.
(** Lost: references in anonymous types, in choice types, beside sequences, and in other groups. *)
Theorem C43_nested_refuted : forall u, exists n f t g d, ok_schema n /\ parse u [n] = Ok f /\
  rf_types f = [EStruct t] /\ st_fields t = [g] /\ fl_subtypes g = [EStruct d] /\ st_fields d = [] /\
  n = el "schema" [] [cty "T" [seq [anon "n" [el "attributeGroup" [("ref", "G")] []]]];
                      el "attributeGroup" [("name", "G")] [el "attribute" [("name", "g")] []]].
Proof.
  intros u. exists (el "schema" [] [cty "T" [seq [anon "n" [el "attributeGroup" [("ref", "G")] []]]];
                      el "attributeGroup" [("name", "G")] [el "attribute" [("name", "g")] []]]).
  eexists _, _, _, _. split; [solve_ok|]. split; [vm_compute; reflexivity|]. split; [reflexivity|]. split; [reflexivity|]. split; [reflexivity|]. split; reflexivity.
Qed.
Print Assumptions C43_nested_refuted.
Theorem C43_choice_refuted : forall u, exists n f e t g, ok_schema n /\ parse u [n] = Ok f /\
  rf_types f = [EEnum e] /\ en_subtypes e = [EStruct t] /\ st_fields t = [g] /\ fl_name g = lit "TChoice" /\
  n = el "schema" [] [cty "T" [el "choice" [] [typed "a" "xs:int"]; el "attributeGroup" [("ref", "G")] []];
                      el "attributeGroup" [("name", "G")] [el "attribute" [("name", "g")] []]].
Proof.
  intros u. exists (el "schema" [] [cty "T" [el "choice" [] [typed "a" "xs:int"]; el "attributeGroup" [("ref", "G")] []];
                      el "attributeGroup" [("name", "G")] [el "attribute" [("name", "g")] []]]).
  eexists _, _, _, _. split; [solve_ok|]. split; [vm_compute; reflexivity|]. split; [reflexivity|]. split; [reflexivity|]. split; [reflexivity|]. split; reflexivity.
Qed.
Print Assumptions C43_choice_refuted.
Theorem C43_sequence_refuted : forall u, exists n f t, ok_schema n /\ parse u [n] = Ok f /\
  rf_types f = [EStruct t] /\ names t = [lit "a"] /\
  n = el "schema" [] [cty "T" [seq [typed "a" "xs:int"]; el "attributeGroup" [("ref", "G")] []];
                      el "attributeGroup" [("name", "G")] [el "attribute" [("name", "g")] []]].
Proof.
  intros u. eexists _, _, _. split; [|split; [|split; [|split; [|reflexivity]]]]; [solve_ok|vm_compute; reflexivity|reflexivity|reflexivity].
Qed.
Print Assumptions C43_sequence_refuted.
Theorem C43_group_in_group_refuted : forall u, exists n f t, ok_schema n /\ parse u [n] = Ok f /\
  rf_types f = [EStruct t] /\ names t = [lit "h"] /\
  n = el "schema" [] [cty "T" [el "attributeGroup" [("ref", "H")] []];
                      el "attributeGroup" [("name", "G")] [el "attribute" [("name", "g")] []];
                      el "attributeGroup" [("name", "H")] [el "attribute" [("name", "h")] []; el "attributeGroup" [("ref", "G")] []]].
Proof.
  intros u. eexists _, _, _. split; [|split; [|split; [|split; [|reflexivity]]]]; [solve_ok|vm_compute; reflexivity|reflexivity|reflexivity].
Qed.
Print Assumptions C43_group_in_group_refuted.
(** An attribute written in the type and in the group appears twice. *)
Theorem C43_distinct_fields_refuted : forall u, exists n f t, ok_schema n /\ parse u [n] = Ok f /\
  rf_types f = [EStruct t] /\ names t = [lit "g"; lit "g"].
Proof.
  intros u. exists (el "schema" [] [cty "T" [el "attribute" [("name", "g")] []; el "attributeGroup" [("ref", "G")] []];
                      el "attributeGroup" [("name", "G")] [el "attribute" [("name", "g")] []]]).
  eexists _, _. split; [solve_ok|]. split; [vm_compute; reflexivity|]. split; reflexivity.
Qed.
Print Assumptions C43_distinct_fields_refuted.
Example C43_ex1 : match parse u1 [el "schema" [] [cty "T" [el "attribute" [("name", "a")] []; el "attributeGroup" [("ref", "x:G")] []; el "attributeGroup" [("ref", "H")] []];
      el "attributeGroup" [("name", "G")] [el "attribute" [("name", "g")] []; el "attribute" [("name", "g2")] []]]] with
  | Ok {| rf_types := [EStruct t] |} => names t = [lit "a"; lit "g"; lit "g2"] | _ => False end.
Proof. vm_compute. auto. Qed.
