(** Writing: properties. *)
From Coq Require Import Arith NArith ZArith Bool Ascii String List Permutation Lia.
From Verif Require Import Str SpecLex SpecNames SpecBuiltin Xml Names NamesProofs Entity Parser SpecSchema SpecLink Link Gen SpecRust SpecGen SpecDoc SpecScope SpecTraits SpecSize SpecDistinct SpecFit SpecWrite FitProofs FitProofs2 PropsParser PropsLink PropsGen PropsDoc PropsScope PropsTraits PropsSize PropsDistinct PropsMembers PropsFit.
Import ListNotations.
Local Open Scope string_scope.
Local Open Scope list_scope.
Local Open Scope N_scope.
Notation concat := List.concat.

(** C69: under the conditions of C68, a value of the generated type that was read from a valid
    instance can be written.  Whatever is written has the same attributes and, for each name, the
    same child elements in the same order, and so on for these.  If moreover at most one of the
    groups of each type used, base types included, has elements, what is written is a valid
    instance of the same type. *)
Theorem C69_written_instances : forall u roots schema f its, document roots schema -> ok_schema schema -> tidy schema -> parse u roots = Ok f ->
  (forall x, part x schema -> orderly u schema (ns_prefix (rf_target_ns f)) (ns_prefix (rf_xsd_ns f)) x) ->
  separate_types schema (type_name_of u f) (format_name u) -> file_items u f (rf_types f) its ->
  let own := ns_prefix (rf_target_ns f) in let xsd := ns_prefix (rf_xsd_ns f) in
  let R := fun t => regular schema own xsd t /\ SpecWrite.one_content schema own xsd t in
  let written := written u (concat (map (placed []) its)) same_text in
  forall T i path t, valid schema own xsd (regular schema own xsd) any_text T i ->
    (exists q, type_named schema own xsd q T /\ regular_type xsd q /\ t = type_name_of u f q) \/
    (exists l d, SpecFit.declared schema "element" l d /\ absent d "ref" /\ absent d "type" /\ type_of schema own xsd d T /\ t = type_name_of u f l) ->
    (exists o, written path t i o) /\
    (forall o, written path t i o -> alike i o) /\
    (valid schema own xsd R any_text T i -> forall o, written path t i o -> valid schema own xsd R any_text T o).
Proof. exact document_written. Qed.
Print Assumptions C69_written_instances.

(** ** A document, and an instance *)
Definition few_full (gs : list node) : bool := (List.length (filter (fun g => negb (is_empty (particles g))) gs) <=? 1)%nat.
Lemma one_content_ok schema own xsd t gs r : compose schema own xsd 9 t = Some (gs, r) -> few_full gs = true -> SpecWrite.one_content schema own xsd t.
Proof.
  intros E F s gs' r' C a g b h c Eg. destruct (compose_ok schema own xsd _ _ _ _ _ C 9 _ _ E) as [X _]. subst gs' gs. unfold few_full in F. apply Nat.leb_le in F.
  rewrite filter_app in F. cbn [filter] in F. rewrite app_length in F. destruct (particles g) eqn:Eg; [auto|]. destruct (particles h) eqn:Eh; [auto|]. exfalso. cbn in F. rewrite filter_app in F. cbn [filter] in F. rewrite Eh in F. cbn in F. rewrite app_length in F. cbn in F. lia.
Qed.
Definition marked : node := cty "Marked" [required_att "id" "xs:int"; att "lang" "xs:string"].
Definition letter : node := cty "Letter" [ext "tt:Marked" [seq [typed "subject" "xs:string"; many_typed "line" "tt:Line"]; att "since" "xs:date"]].
Definition letters : node := qsch [marked; letter; named_string "Code" [facet_node "enumeration" "red"; facet_node "enumeration" "blue"]; line].
Example C69_ex1 : document [letters] letters /\ ok_schema letters /\ tidy letters /\ not_self_derived letters /\
  (forall x, part x letters -> orderly u2 letters (Some (lit "tt")) (Some (lit "xs")) x).
Proof.
  apply with_conditions; [|apply orderly_check; vm_compute; reflexivity].
  conditions. split; [reflexivity|]. cbn [letters qsch children]. unfold marked, letter, line, required_att, att, many_typed.
  constructor. { do 4 right. left. apply ok_global_complex; [reflexivity|eexists; reflexivity|]. constructor; [|solve_ok]. right. left. apply ok_attribute; [reflexivity|left; eexists; reflexivity|]. exists MNone. apply use_required. reflexivity. }
  constructor; [solve_ok|]. constructor; [do 2 right; left; apply enum_ok; facets|].
  constructor; [|constructor]. do 4 right. left. apply ok_global_complex; [reflexivity|eexists; reflexivity|]. constructor; [|constructor]. do 4 right. left. apply ok_sequence; [eexists; split; [right; left; reflexivity|reflexivity]|solve_ok].
Qed.
Notation tt := (Some (lit "tt")).
Notation xs := (Some (lit "xs")).
Notation ordered_here := (fun t => regular letters tt xs t /\ SpecWrite.one_content letters tt xs t).
Notation valid_letters := (valid letters tt xs ordered_here any_text).
Ltac one_content_check := eapply one_content_ok; [vm_compute; reflexivity|vm_compute; reflexivity].
Ltac extension_regular := split; [discriminate|]; split; [right|apply names_apart_ok; vm_compute; reflexivity]; eexists; eexists; eexists; split; [reflexivity|]; split; [reflexivity|]; split; [reflexivity|];
  split; [solve_ok|]; split; [reflexivity|]; split; [reflexivity|]; split; [|apply regular_bodyb_ok; vm_compute; reflexivity];
  let l := fresh in let b := fresh in let To := fresh in let I := fresh in let T := fresh in let Hn := fresh in let x := fresh in let pre := fresh in let D := fresh in let post := fresh in let E := fresh in let P := fresh in let E2 := fresh in let Hx := fresh in
  intros l b To (I & T & Hn); apply own_local_iff in To; vm_compute in To; injection To as <-;
  destruct I as [<-|I]; [|exfalso; repeat (destruct I as [<-|I]; [discriminate|]); destruct I]; split;
  [ intros [|x pre] D post E P; injection E as <- E; [|left; reflexivity]; apply parts_all in P; exfalso; vm_compute in P; repeat (destruct P as [P|P]; [discriminate P|]); destruct P
  | intros pre post x E I Hx; destruct pre as [|? pre]; [injection E as E2|injection E as <- E2];
    [exfalso; subst post; cbn [app] in I; repeat (destruct I as [<-|I]; [discriminate|]); destruct I
    |exfalso; repeat (destruct pre as [|? pre]; [discriminate E2|injection E2 as _ E2]); destruct pre; discriminate E2] ].
Lemma letter_regular : regular letters tt xs letter.
Proof. extension_regular. Qed.
Definition a_line (kids : list inst) : inst := Inst (q "line") [] kids [].
Lemma letter_line kids : In kids [[leaf "code" "red"; leaf "count" "2"]; [leaf "count" "1"; leaf "code" "blue"]] -> valid_letters (Complex line) (a_line kids).
Proof.
  assert (Code : type_of letters tt xs (typed "code" "tt:Code") (Simple (Named (lit "tt:Code")))) by (eapply to_named; [reflexivity|]; eapply tn_simple; [apply own_local_iff; reflexivity|]; split; [do 2 right; left; reflexivity|split; reflexivity]).
  assert (Or : ordered_here line) by (split; [apply regular_plain; vm_compute; reflexivity|one_content_check]).
  intros [<-|[<-|[]]].
  - eapply (valid_all _ _ _ _ _ plain _ _ _ _ _ _ [[_]; [_]]); [apply Or|reflexivity|reflexivity|reflexivity|attribute_check|reflexivity|occurrence|reflexivity| |apply Permutation_refl].
    fill ltac:(first [apply Code|builtin_type]) ltac:(apply valid_simple; exact Logic.I).
  - eapply (valid_all _ _ _ _ _ plain _ _ _ _ _ _ [[leaf "code" "blue"]; [leaf "count" "1"]]); [apply Or|reflexivity|reflexivity|reflexivity|attribute_check|reflexivity|occurrence|reflexivity| |apply perm_swap].
    fill ltac:(first [apply Code|builtin_type]) ltac:(apply valid_simple; exact Logic.I).
Qed.
Definition a_letter : inst := Inst (q "letter") [av "id" "12"; av "since" "2020-02-29"] [leaf "subject" "Paint"; a_line [leaf "count" "1"; leaf "code" "blue"]; a_line [leaf "code" "red"; leaf "count" "2"]] [].
Example C69_ex2 : valid_letters (Complex letter) a_letter.
Proof.
  set (g := seq [typed "subject" "xs:string"; many_typed "line" "tt:Line"]). set (kss := [[leaf "subject" "Paint"]; [a_line [leaf "count" "1"; leaf "code" "blue"]; a_line [leaf "code" "red"; leaf "count" "2"]]]).
  apply (valid_content _ _ _ _ _ (fun e => match attribute e (lit "maxOccurs") with Some _ => Complex line | None => plain e end) _ false ([] ++ [g]) ([required_att "id" "xs:int"; att "lang" "xs:string"] ++ [att "since" "xs:date"]) _ _ [assigned (particles g) kss] kss).
  - change [g] with (groups_of (el "extension" [("base", "tt:Marked")] [g; att "since" "xs:date"])). eapply composed_extension with (b := marked); [split; [apply letter_regular|one_content_check]|reflexivity|reflexivity|solve_ok|reflexivity|reflexivity|apply own_local_iff; reflexivity|split; [left; reflexivity|split; reflexivity]| |apply simple_attributed; reflexivity].
    apply (composed_plain _ _ _ _ marked); [split; [apply regular_plain; vm_compute; reflexivity|one_content_check]|reflexivity|apply simple_attributed; reflexivity].
  - attribute_check.
  - constructor; [|constructor]. apply arranged_sequence; [reflexivity|occurrence|]. constructor; [split; [reflexivity|occurrence]|constructor; [split; [reflexivity|occurrence]|constructor]].
  - exists (particles g). split; [|cbn [List.concat]; rewrite app_nil_r; apply Permutation_refl].
    fill ltac:(first [builtin_type|eapply to_named; [reflexivity|eapply tn_complex; [apply own_local_iff; reflexivity|split; [do 3 right; left; reflexivity|split; reflexivity]]]])
      ltac:(first [apply letter_line; first [left; reflexivity|right; left; reflexivity]|apply valid_simple; exact Logic.I]).
  - reflexivity.
  - auto.
Qed.
(** What is written for it: the members of a line are in the order of the struct, and the
    inherited attributes come last. *)
Definition the_letter : inst := Inst (q "letter") [av "since" "2020-02-29"; av "id" "12"] [leaf "subject" "Paint"; a_line [leaf "code" "blue"; leaf "count" "1"]; a_line [leaf "code" "red"; leaf "count" "2"]] [].
Section Writing.
Context (u : uni) (P : list (list str * item)) (text : list str -> list token -> str -> str -> Prop).
Definition member_written (p : list str) (attrs : list (qname * str)) (kids : list inst) (f : rfield) (o : list (qname * str) * list (inst * inst)) : Prop := exists x,
  attribute_member f x /\ snd o = [] /\ (exists c, holds u (rf_type f) c 1 /\ Forall2 (fun v w => text p c v w) (SpecWrite.values x attrs) (map snd (fst o))) /\ (forall a, In a (fst o) -> fst a = x) \/
  element_member f x /\ fst o = [] /\ map fst (snd o) = those x kids /\ exists c, holds u (rf_type f) c (number x kids) /\ forall k o', In (k, o') (snd o) -> written u P text p c k o'.
Lemma members_written path t p d a m fs n attrs kids parts attrs' kids' : SpecFit.names u P path t p (IStruct d a m fs) -> Forall2 (member_written p attrs kids) fs parts ->
  attrs' = concat (map fst parts) -> kids' = map snd (concat (map snd parts)) -> written u P text path t (Inst n attrs kids []) (Inst n attrs' kids' []).
Proof.
  intros Na F -> ->. assert (E : parts = map snd (combine fs parts) /\ map fst (combine fs parts) = fs). { clear Na. induction F as [|f o fs parts X F [E1 E2]]; [auto|]. cbn. rewrite <- E1, E2. auto. }
  destruct E as [E1 E2]. rewrite E1, !map_map. eapply written_struct; eauto. intros f l ks I. clear E1 E2 Na. induction F as [|f' o fs parts X F IH]; [destruct I|]. destruct I as [[= <- ->]|I]; [exact X|auto].
Qed.
Lemma attribute_written p attrs kids f x c ws : arguedb f "attribute" None && in_instanceb f x = true -> holds u (rf_type f) c 1 -> Forall2 (fun v w => text p c v w) (SpecWrite.values x attrs) ws ->
  member_written p attrs kids f (map (pair x) ws, []).
Proof.
  intros H Hc F. apply andb_true_iff in H as [H1 H2]. exists x. left. split; [split; [apply arguedb_iff|apply in_instanceb_iff]; auto|]. split; [auto|]. cbn [fst]. split.
  - exists c. split; auto. rewrite map_map. cbn [snd]. rewrite map_id. auto.
  - intros a I. apply in_map_iff in I as (w & <- & _). auto.
Qed.
Lemma element_written p attrs kids f x c ks : negb (arguedb f "attribute" None) && in_instanceb f x = true -> map fst ks = those x kids -> holds u (rf_type f) c (number x kids) ->
  Forall (fun k => written u P text p c (fst k) (snd k)) ks -> member_written p attrs kids f ([], ks).
Proof.
  intros H E Hc F. apply andb_true_iff in H as [H1 H2]. exists x. right. split; [split; [intros X; apply arguedb_iff in X; rewrite X in H1; discriminate|apply in_instanceb_iff; auto]|]. split; auto. split; auto.
  exists c. split; auto. intros k o I. rewrite Forall_forall in F. apply (F _ I).
Qed.
End Writing.
Ltac unique_name := let p := fresh in let i := fresh in let S := fresh in let I := fresh in let D := fresh in let E := fresh in
  intros p i S; inversion S as [? ? ? ? E I D|? ? ? I D]; subst;
  apply eq_sym, app_eq_nil in E as [-> ->]; repeat (destruct I as [I|I]; [injection I as <-; vm_compute in D; first [destruct D; fail|discriminate D|split; reflexivity]|]); destruct I.
Ltac normal_items := cbn beta; lazymatch goal with |- written ?u ?P ?X ?p ?t ?i ?o => let P' := eval vm_compute in P in let t' := eval vm_compute in t in change (written u P' X p t' i o) end.
Ltac seen_with tac := eapply (seen_above _ _ [] _ [] []); [reflexivity|tac|vm_compute; reflexivity].
Ltac names_item := split; [first [seen_with ltac:(left; reflexivity)|seen_with ltac:(do 1 right; left; reflexivity)|seen_with ltac:(do 2 right; left; reflexivity)|seen_with ltac:(do 3 right; left; reflexivity)|seen_with ltac:(do 4 right; left; reflexivity)|seen_with ltac:(do 5 right; left; reflexivity)|seen_with ltac:(do 6 right; left; reflexivity)|seen_with ltac:(do 7 right; left; reflexivity)|seen_with ltac:(do 8 right; left; reflexivity)|seen_with ltac:(do 9 right; left; reflexivity)]|unique_name].
Ltac holds_now := first [left; split; reflexivity|right; left; split; [reflexivity|vm_compute; discriminate]|right; right; reflexivity].
Example C69_ex3 : exists f its, parse u2 [letters] = Ok f /\ ns_prefix (rf_target_ns f) = tt /\ ns_prefix (rf_xsd_ns f) = xs /\
  separate_types letters (type_name_of u2 f) (format_name u2) /\ file_items u2 f (rf_types f) its /\
  written u2 (concat (map (placed []) its)) same_text [] (rust u2 "Letter") a_letter the_letter.
Proof.
  eexists. eexists. split; [vm_compute; reflexivity|]. split; [reflexivity|]. split; [reflexivity|]. split; [apply (separate_types_check _ _ _ 3); vm_compute; reflexivity|]. split; [cbn [rf_types]; repeat econstructor|].
  normal_items. set (l1 := [leaf "count" "1"; leaf "code" "blue"]). set (l2 := [leaf "code" "red"; leaf "count" "2"]).
  lazymatch goal with |- written _ ?P _ _ _ _ _ =>
    assert (Line : forall c n k, k = [leaf "code" c; leaf "count" n] \/ k = [leaf "count" n; leaf "code" c] -> written u2 P same_text [] (rust u2 "Line") (a_line k) (a_line [leaf "code" c; leaf "count" n])) end.
  { intros c n k K. normal_items. eapply (members_written _ _ _ _ _ [] _ _ _ _ _ _ _ [([], [(leaf "code" c, leaf "code" c)]); ([], [(leaf "count" n, leaf "count" n)])]); [names_item| |reflexivity|reflexivity].
    constructor; [eapply (element_written _ _ _ _ _ _ _ (q "code") (rust u2 "Code")); [reflexivity|destruct K as [->| ->]; reflexivity|destruct K as [->| ->]; holds_now|]|].
    - constructor; [|constructor]. normal_items. eapply (written_enum _ _ _ _ _ []); [names_item|right|reflexivity]. intros v I N. repeat (destruct I as [<-|I]; [first [reflexivity|destruct N; reflexivity]|]). destruct I.
    - constructor; [|constructor]. eapply (element_written _ _ _ _ _ _ _ (q "count") (rust u2 "i32")); [reflexivity|destruct K as [->| ->]; reflexivity|destruct K as [->| ->]; holds_now|].
      constructor; [|constructor]. apply (written_library _ _ _ _ "i32"); [do 3 right; left; reflexivity|reflexivity]. }
  eapply (members_written _ _ _ _ _ [] _ _ _ _ _ _ _ [([], [(leaf "subject" "Paint", leaf "subject" "Paint")]); ([], [(a_line l1, a_line [leaf "code" "blue"; leaf "count" "1"]); (a_line l2, a_line l2)]); ([av "since" "2020-02-29"], []); ([av "id" "12"], []); ([], [])]).
  - names_item.
  - constructor; [eapply (element_written _ _ _ _ _ _ _ (q "subject") (rust u2 "String")); [reflexivity|reflexivity|holds_now|constructor; [|constructor]; apply (written_library _ _ _ _ "String"); [left; reflexivity|reflexivity]]|].
    constructor; [eapply (element_written _ _ _ _ _ _ _ (q "line") (rust u2 "Line")); [reflexivity|reflexivity|right; right; reflexivity|constructor; [apply Line; auto|constructor; [apply Line; auto|constructor]]]|].
    constructor; [apply (attribute_written _ _ _ _ _ _ _ (at_ "since") (rust u2 "xs::Date") [lit "2020-02-29"]); [reflexivity|holds_now|repeat constructor]|].
    constructor; [apply (attribute_written _ _ _ _ _ _ _ (at_ "id") (rust u2 "i32") [lit "12"]); [reflexivity|holds_now|repeat constructor]|].
    constructor; [apply (attribute_written _ _ _ _ _ _ _ (at_ "lang") (rust u2 "String") []); [reflexivity|holds_now|repeat constructor]|constructor].
  - reflexivity.
  - reflexivity.
Qed.

(** ** Extensions
    If base and extension both have elements, the elements of the extension are written first,
    and what is written is not valid: the members of the base come after those of the extension. *)
Definition miswritten (u : uni) (n : node) (t : string) (i o : inst) : Prop :=
  document [n] n /\ ok_schema n /\ tidy n /\ not_self_derived n /\
  (forall x, part x n -> orderly u n tt xs x) /\
  exists f its T, parse u [n] = Ok f /\ ns_prefix (rf_target_ns f) = tt /\ ns_prefix (rf_xsd_ns f) = xs /\
    separate_types n (type_name_of u f) (format_name u) /\ file_items u f (rf_types f) its /\
    type_named n tt xs (lit t) T /\ valid n tt xs (regular n tt xs) any_text T i /\
    written u (concat (map (placed []) its)) same_text [] (type_name_of u f (lit t)) i o /\ ~ valid n tt xs (fun _ => True) any_text T o.
Lemma first_element g e es l : tag "sequence" g -> absent g "minOccurs" -> absent g "maxOccurs" -> particles g = e :: es -> tag "element" e -> absent e "minOccurs" -> absent e "maxOccurs" ->
  arranged g l -> exists k l', l = (e, k) :: l'.
Proof.
  intros Tg A1 A2 Ep Te B1 B2 X. inversion X as [p runs Oc Fr]; subst. apply occurs_once in Oc; auto. destruct runs as [|r [|]]; cbn in Oc; try (exfalso; lia). inversion Fr as [|? ? Y _]; subst. cbn [List.concat]. rewrite app_nil_r.
  inversion Y as [? k T'|? k T'|? ps T' Fp|? ps ? T' Fp Pm|? ? ? T']; subst; try (unfold tag in *; rewrite Tg in T'; discriminate).
  rewrite Ep in Fp. inversion Fp as [|? l' ? ps' Al _]; subst. destruct (element_run _ _ Te Al) as [Fe Oe]. apply occurs_once in Oe; auto. destruct l' as [|[e' k] [|]]; cbn in Oe; try (exfalso; lia).
  assert (e' = e) by (apply (Fe (e', k)); left; auto). subst e'. cbn. eauto.
Qed.
Definition point : node := cty "Point" [seq [typed "x" "xs:int"]].
Definition solid : node := cty "Solid" [ext "tt:Point" [seq [typed "z" "xs:int"]]].
Definition solids : node := qsch [point; solid].
Theorem C69_extension_refuted : forall u, miswritten u solids "tt:Solid"
  (Inst (q "solid") [] [leaf "x" "1"; leaf "z" "2"] []) (Inst (q "solid") [] [leaf "z" "2"; leaf "x" "1"] []).
Proof.
  intros u. apply with_conditions; [conditions; split; [reflexivity|]; cbn [solids qsch children]; unfold point, solid; solve_ok|]. misfits; [names_type|split; [|split]].
  - eapply (valid_extension _ _ _ _ _ plain _ _ _ _ _ point _ _ _ _ _ _ _ _ [[_]] [[_]]);
      [extension_regular|reflexivity|reflexivity|solve_ok|reflexivity|reflexivity|apply own_local_iff; reflexivity|split; [left; reflexivity|split; reflexivity]|apply regular_plain; vm_compute; reflexivity|
       reflexivity|reflexivity|reflexivity|reflexivity|reflexivity|attribute_check|reflexivity|occurrence|reflexivity| |reflexivity|occurrence|reflexivity| ];
      fill builtin_type ltac:(apply valid_simple; exact Logic.I).
  - normal_items. eapply (members_written _ _ _ _ _ [] _ _ _ _ _ _ _ [([], [(leaf "z" "2", leaf "z" "2")]); ([], [(leaf "x" "1", leaf "x" "1")])]); [names_item| |reflexivity|reflexivity].
    constructor; [eapply (element_written _ _ _ _ _ _ _ (q "z") (rust u "i32"))|constructor; [eapply (element_written _ _ _ _ _ _ _ (q "x") (rust u "i32"))|constructor]];
      try reflexivity; try holds_now; (constructor; [|constructor]); (apply (written_library _ _ _ _ "i32"); [do 3 right; left; reflexivity|reflexivity]).
  - intros V. inversion V as [|t s gs r n attrs parts x typing C Af Ar Ex En Ety Ev]; subst. destruct (compose_ok solids tt xs _ _ _ _ _ C 9 _ _ eq_refl) as [Eg _]. subst gs.
    inversion Ar as [|? l ? ps A1 _]; subst. destruct (first_element (seq [typed "x" "xs:int"]) (typed "x" "xs:int") [] _ eq_refl eq_refl eq_refl eq_refl eq_refl eq_refl eq_refl A1) as (k & l' & ->).
    match goal with X : map snd _ = [_; _] |- _ => cbn [List.concat map app snd] in X; injection X as E _ end. subst k. specialize (En (typed "x" "xs:int") (leaf "z" "2") (or_introl eq_refl) eq_refl). inversion En as [nm Hn|nm Hn|? ? Hn]; discriminate Hn.
Qed.
Print Assumptions C69_extension_refuted.
