(** Property theorems C84: the types generated for restrictions hold every valid instance. *)
From Coq Require Import Arith NArith ZArith Bool Ascii String List Permutation Lia.
From Verif Require Import Str StrFacts SpecLex SpecNames SpecBuiltin Xml Names NamesProofs Entity Parser ParserFacts SpecSchema ParserProofs PropsParser Link SpecLink LinkProofs PropsLink
  Gen SpecRust SpecGen RustFacts GenProofs GenProofs2 PropsGen SpecDoc DocProofs PropsDoc SpecScope ScopeProofs PropsScope SpecTraits TraitProofs PropsTraits SpecSize SizeProofs PropsSize
  SpecDistinct DistinctProofs DistinctProofs2 PropsDistinct MemberProofs PropsMembers SpecFit SpecRestrict ShapeProofs FitProofs FitProofs2 PropsFit.
Import ListNotations.
Local Open Scope string_scope.
Local Open Scope list_scope.
Local Open Scope N_scope.
Notation concat := List.concat.
Arguments lit : simpl never.

(** C84: an instance whose complex types are regular, or derived from a regular type by a
    restriction, fits the Rust type made for its type.  The restriction may declare elements and
    attributes again (other occurrences, other types, prohibited attributes) and drop optional
    elements of the base; the type may be named or anonymous. *)
Theorem C84_restrictions_fit : forall u roots schema f its, document roots schema -> ok_schema schema -> tidy schema -> parse u roots = Ok f ->
  (forall x, part x schema -> orderly u schema (ns_prefix (rf_target_ns f)) (ns_prefix (rf_xsd_ns f)) x) ->
  separate_types schema (type_name_of u f) (format_name u) -> file_items u f (rf_types f) its ->
  let own := ns_prefix (rf_target_ns f) in let xsd := ns_prefix (rf_xsd_ns f) in
  let fits := fits u (concat (map (placed []) its)) any_texts in
  forall T i path, sound schema own xsd T i ->
    (forall q, type_named schema own xsd q T -> regular_type xsd q -> fits path (type_name_of u f q) i) /\
    (forall l d, SpecFit.declared schema "element" l d -> absent d "ref" -> absent d "type" -> type_of schema own xsd d T -> fits path (type_name_of u f l) i).
Proof.
  intros u roots schema f its Do O T H Or Sep A own xsd ft Ty i path So. pose proof (distinct_unshadowed _ (document_distinct u roots schema f its Do O T H Or Sep A)) as Un.
  destruct Do as (a & b & -> & E & L). destruct (parse_document u (a ++ schema :: b)) as [PD _]. destruct (proj1 (proj1 (PD a schema b eq_refl E L) f) H) as (f0 & Hp & Hl). clear PD.
  assert (Pt := sound_proper schema f Ty i So).
  assert (G : forall t, (exists q, type_named schema own xsd q Ty /\ regular_type xsd q /\ t = type_name_of u f q) \/
    (exists l d, SpecFit.declared schema "element" l d /\ absent d "ref" /\ absent d "type" /\ type_of schema own xsd d Ty /\ t = type_name_of u f l) -> ft path t i).
  { intros t Ht. eapply (sound_fits u schema f0 f its O Hp Hl (proj1 T) Or A Un (fun _ _ _ => True)) with (V := any_text) (K := fun _ => True) (KA := fun _ => True); try (unfold any_text, any_texts; tauto); eauto.
    - intros. apply Forall_forall. auto.
    - eapply start_goal; eauto. apply T. }
  split; intros; apply G; eauto 10.
Qed.
Print Assumptions C84_restrictions_fit.

(** ** A document, and an instance *)
Definition res (b : string) (cs : list node) : node := el "complexContent" [] [el "restriction" [("base", b)] cs].
Definition no_att (n : string) : node := el "attribute" [("name", n); ("use", "prohibited")] [].
Definition some_typed (n t : string) : node := el "element" [("name", n); ("type", t); ("minOccurs", "0"); ("maxOccurs", "unbounded")] [].
Definition human : node := cty "Human" [seq [typed "name" "xs:string"; opt_typed "email" "xs:string"; some_typed "nick" "xs:string"]; att "id" "xs:int"; att "lang" "xs:string"].
(** A member of a club has an e-mail address and a number, and no nicknames. *)
Definition member_ : node := cty "Member" [res "tt:Human" [seq [typed "name" "xs:string"; typed "email" "xs:string"]; required_att "id" "xs:int"]].
(** A guest, of an anonymous type, has a name only, and no number. *)
Definition guest : node := el "complexType" [] [res "tt:Human" [seq [typed "name" "xs:string"]; no_att "id"]].
Definition club : node := cty "Club" [seq [many_typed "member" "tt:Member"; within_element "guest" guest]].
Definition clubs : node := qsch [human; member_; club].
(** As [solve_ok], also for restrictions and for the uses of attributes. *)
Ltac solve_ok' :=
  lazymatch goal with
  | |- ok GlobalComplex _ => apply ok_global_complex; [reflexivity|eexists; reflexivity|solve_ok']
  | |- ok LocalComplex _ => apply ok_local_complex; [reflexivity|solve_ok']
  | |- ok Attribute _ => apply ok_attribute; [reflexivity|left; eexists; reflexivity|
      first [exists MOption; apply use_absent; reflexivity|exists MNone; apply use_required; reflexivity|exists MEmpty; apply use_prohibited; reflexivity]]
  | |- ok Sequence _ => apply ok_sequence; [eexists; split; [left; reflexivity|reflexivity]|solve_ok']
  | |- ok ComplexContent _ => eapply ok_complex_content; [reflexivity|solve_ok|solve_ok']
  | |- ok ComplexDerivation _ => apply ok_derivation; [eexists; split; [first [right; left; reflexivity|left; reflexivity]|reflexivity]|eexists; reflexivity|solve_ok']
  | |- ok LocalElement _ => (apply ok_typed_element; [reflexivity|(left; eexists; reflexivity) || (right; eexists; reflexivity)]) ||
      (eapply (ok_anonymous_element _ [] _ []); [reflexivity|reflexivity|constructor|solve_ok'])
  | |- ok _ _ => fail
  | |- ignorable _ => (left; reflexivity) || (right; reflexivity)
  | |- Forall _ [] => constructor
  | |- Forall _ (_ :: _) => constructor; [solve_ok'|solve_ok']
  | |- Forall _ _ => progress cbn [children el typed seq ext cty anon res]; solve_ok'
  | |- _ \/ _ => (left; solve_ok') || (right; solve_ok')
  end.
Example C84_ex1 : document [clubs] clubs /\ ok_schema clubs /\ tidy clubs /\ not_self_derived clubs /\
  (forall x, part x clubs -> orderly u2 clubs (Some (lit "tt")) (Some (lit "xs")) x).
Proof.
  apply with_conditions; [|apply orderly_check; vm_compute; reflexivity].
  conditions. split; [reflexivity|]. cbn [clubs qsch children]. unfold human, member_, club, guest, res, no_att, some_typed, within_element, required_att, att, opt_typed, many_typed.
  solve_ok'.
Qed.
Example C84_ex2 : exists f its, parse u2 [clubs] = Ok f /\ ns_prefix (rf_target_ns f) = Some (lit "tt") /\ ns_prefix (rf_xsd_ns f) = Some (lit "xs") /\
  separate_types clubs (type_name_of u2 f) (format_name u2) /\ file_items u2 f (rf_types f) its.
Proof.
  eexists. eexists. split; [vm_compute; reflexivity|]. split; [reflexivity|]. split; [reflexivity|]. split.
  - apply (separate_types_check _ _ _ 3). vm_compute. reflexivity.
  - cbn [rf_types]. repeat econstructor.
Qed.

(** Helpers for instances. *)
Section Content.
Context (schema : node) (own xsd : option str) (typing : node -> typ).
Definition sound_filled (e : node) (ks : list inst) : Prop :=
  counted e ks /\ type_of schema own xsd e (typing e) /\ Forall (fun k => element_named schema own xsd e (inst_name k) /\ sound schema own xsd (typing e) k) ks.
Lemma sound_counted es kss : Forall2 sound_filled es kss -> Forall2 counted es kss.
Proof. induction 1 as [|e ks es kss [H _] F IH]; constructor; auto. Qed.
Lemma sound_kids es kss : Forall2 sound_filled es kss -> map snd (assigned es kss) = concat kss.
Proof.
  unfold assigned. induction 1 as [|e ks es kss H F IH]; auto. cbn [combine map fst snd List.concat]. rewrite map_app, IH. f_equal.
  rewrite map_map. cbn [snd]. apply map_id.
Qed.
Lemma sound_assigned es kss e k : Forall2 sound_filled es kss -> In (e, k) (assigned es kss) -> type_of schema own xsd e (typing e) /\ element_named schema own xsd e (inst_name k) /\ sound schema own xsd (typing e) k.
Proof.
  unfold assigned. induction 1 as [|e' ks es kss (_ & T & H) F IH]; [intros []|]. cbn [combine map fst snd List.concat]. intros I. apply in_app_or in I as [I|I]; auto.
  apply in_map_iff in I as (k' & [= -> ->] & I). rewrite Forall_forall in H. destruct (H k I). auto.
Qed.
Lemma sound_sequence t g es r n attrs kss : regular schema own xsd t -> tagged_children ["complexContent"; "simpleContent"] t = [] -> groups_of t = [g] -> simple_attributes t = Some r ->
  attributes_fit schema own xsd any_text r attrs -> tag "sequence" g -> occurs g 1 -> particles g = es -> Forall2 sound_filled es kss -> sound schema own xsd (Complex t) (Inst n attrs (concat kss) []).
Proof.
  intros Rt E Eg Er A Tg O <- F. rewrite <- (sound_kids _ _ F). replace (assigned (particles g) kss) with (concat [assigned (particles g) kss]) by apply app_nil_r.
  eapply (sound_regular schema own xsd t false [g] r n attrs [assigned (particles g) kss] typing); auto.
  - rewrite <- Eg. apply composed_plain; auto. apply simple_attributed. auto.
  - constructor; [|constructor]. apply arranged_sequence; auto. apply sound_counted. auto.
  - intros e k I _. cbn [List.concat] in I. rewrite app_nil_r in I. apply (sound_assigned _ _ _ _ F I).
  - intros e k I _. cbn [List.concat] in I. rewrite app_nil_r in I. apply (sound_assigned _ _ _ _ F I).
  - intros e k I _. cbn [List.concat] in I. rewrite app_nil_r in I. apply (sound_assigned _ _ _ _ F I).
Qed.
Lemma sound_restriction t d b g es r n attrs kss : restricts schema own xsd t d b -> tagged_children ["complexContent"; "simpleContent"] b = [] -> simple_attributes b = Some r ->
  attributes_fit schema own xsd any_text (tagged_children ["attribute"] d ++ kept (restated d) r) attrs -> groups_of d = [g] -> tag "sequence" g -> occurs g 1 -> particles g = es ->
  Forall2 sound_filled es kss -> sound schema own xsd (Complex t) (Inst n attrs (concat kss) []).
Proof.
  intros Rt E Er A Eg Tg O <- F. rewrite <- (sound_kids _ _ F). replace (assigned (particles g) kss) with (concat [assigned (particles g) kss]) by apply app_nil_r.
  eapply (sound_restricted schema own xsd t d b false (groups_of b) r n attrs [assigned (particles g) kss] typing); auto.
  - apply composed_plain; auto; [apply Rt|apply simple_attributed; auto].
  - rewrite Eg. constructor; [|constructor]. apply arranged_sequence; auto. apply sound_counted. auto.
  - intros e k I _. cbn [List.concat] in I. rewrite app_nil_r in I. apply (sound_assigned _ _ _ _ F I).
  - intros e k I _. cbn [List.concat] in I. rewrite app_nil_r in I. apply (sound_assigned _ _ _ _ F I).
  - intros e k I _. cbn [List.concat] in I. rewrite app_nil_r in I. apply (sound_assigned _ _ _ _ F I).
Qed.
End Content.
Ltac sound_known := lazymatch goal with
  | |- type_of ?s ?o ?x ?e ?T => let T' := eval hnf in T in change (type_of s o x e T')
  | |- sound ?s ?o ?x ?T ?i => let T' := eval hnf in T in change (sound s o x T' i) end.
Ltac sound_fill ty va := repeat (constructor; [split; [split; [reflexivity|occurrence]|split; [sound_known; ty|repeat (constructor; [split; [element_name_check|sound_known; va]|]); constructor]]|]); try constructor.
Notation restricts_here := (restricts clubs (Some (lit "tt")) (Some (lit "xs"))).
Notation sound_here := (sound clubs (Some (lit "tt")) (Some (lit "xs"))).
Lemma human_regular : regular clubs (Some (lit "tt")) (Some (lit "xs")) human.
Proof. apply regular_plain; vm_compute; reflexivity. Qed.
Lemma human_composed s gs r : composed clubs (Some (lit "tt")) (Some (lit "xs")) (regular clubs (Some (lit "tt")) (Some (lit "xs"))) human s gs r ->
  gs = [seq [typed "name" "xs:string"; opt_typed "email" "xs:string"; some_typed "nick" "xs:string"]] /\ r = [att "id" "xs:int"; att "lang" "xs:string"].
Proof. intros C. eapply compose_ok with (k := 1%nat); [exact C|]. vm_compute. reflexivity. Qed.
(** The base is declared first, and no other declaration has its name. *)
Lemma after_human t : In t [member_; guest] -> base_before clubs (Some (lit "tt")) (Some (lit "xs")) t (lit "tt:Human").
Proof.
  intros J l b To (I & T & Hn). apply own_local_iff in To. vm_compute in To. injection To as <-.
  destruct I as [<-|I]; [|exfalso; repeat (destruct I as [<-|I]; [discriminate|]); destruct I]. split.
  - intros [|x pre] D post E P; injection E as <- E; [|left; reflexivity]. apply parts_all in P. exfalso. destruct J as [<-|[<-|[]]]; vm_compute in P; repeat (destruct P as [P|P]; [discriminate P|]); destruct P.
  - intros pre post x E I Hx. destruct pre as [|y pre]; [injection E as E2|injection E as <- E2].
    + exfalso. subst post. cbn [app] in I. repeat (destruct I as [<-|I]; [discriminate|]). destruct I.
    + exfalso. repeat (destruct pre as [|? pre]; [discriminate E2|injection E2 as _ E2]). destruct pre; discriminate E2.
Qed.
Definition same_kindb (x y : node) : bool :=
  negb (opt_str_eqb (local_name x) (local_name y)) ||
  Bool.eqb (tagged "element" x) (tagged "element" y) && opt_str_eqb (attribute x (lit "name")) (attribute y (lit "name")) && opt_str_eqb (attribute x (lit "ref")) (attribute y (lit "ref")).
Lemma same_kind l m : forallb (fun x => forallb (same_kindb x) m) l = true -> forall x y, In x l -> In y m -> local_name x = local_name y ->
  (tag "element" x <-> tag "element" y) /\ attribute x (lit "name") = attribute y (lit "name") /\ attribute x (lit "ref") = attribute y (lit "ref").
Proof.
  intros H x y Ix Iy E. rewrite forallb_forall in H. specialize (H x Ix). rewrite forallb_forall in H. specialize (H y Iy). unfold same_kindb in H. apply opt_str_eqb_iff in E. rewrite E in H. cbn [negb orb] in H.
  rewrite !andb_true_iff in H. destruct H as [[A B] C]. apply Bool.eqb_prop in A. split; [rewrite <- !tagged_iff, A; tauto|]. split; apply opt_str_eqb_iff; auto.
Qed.
Definition restriction_of (t : node) : node := hd t (particles (hd t (tagged_children content_tags t))).
Lemma human_restricted t : In t [member_; guest] -> restricts_here t (restriction_of t) human.
Proof.
  intros J. split; [destruct J as [<-|[<-|[]]]; discriminate|]. split; [|split; [|split; [|split; [apply human_regular|]]]].
  - destruct J as [<-|[<-|[]]]; eexists; exists (lit "tt:Human"), (lit "Human"); (split; [reflexivity|split; [reflexivity|split; [reflexivity|split; [solve_ok|split; [reflexivity|split; [reflexivity|split; [apply after_human|]]]]]]]); cbn; auto;
      (split; [apply own_local_iff; reflexivity|split; [left; reflexivity|split; reflexivity]]).
  - apply regular_bodyb_ok. destruct J as [<-|[<-|[]]]; vm_compute; reflexivity.
  - eapply nodupb_ok; [intros x; apply opt_str_eqb_iff; reflexivity|]. destruct J as [<-|[<-|[]]]; vm_compute; reflexivity.
  - intros s gs r C. apply human_composed in C as [-> ->]. split.
    + apply same_kind. destruct J as [<-|[<-|[]]]; vm_compute; reflexivity.
    + intros e I. assert (K : In e [opt_typed "email" "xs:string"; some_typed "nick" "xs:string"]) by (destruct J as [<-|[<-|[]]]; vm_compute in I |- *; tauto). destruct K as [<-|[<-|[]]]; occurrence.
Qed.
(** A club of two members, the guest of which has a language. *)
Definition a_club : inst :=
  Inst (q "club") [] [Inst (q "member") [av "id" "1"] [leaf "name" "Ada"; leaf "email" "a@b"] []; Inst (q "member") [av "lang" "en"; av "id" "2"] [leaf "name" "Bo"; leaf "email" "b@b"] [];
    Inst (q "guest") [av "lang" "sv"] [leaf "name" "Cy"] []] [].
Lemma member_sound a n m k : In a [[av "id" "1"]; [av "lang" "en"; av "id" "2"]] -> sound_here (Complex member_) (Inst (q k) a [leaf "name" n; leaf "email" m] []).
Proof.
  intros I. eapply (sound_restriction _ _ _ plain member_ (restriction_of member_) human _ _ _ _ _ [[_]; [_]]);
    [apply human_restricted; left; reflexivity|reflexivity|reflexivity| |reflexivity|reflexivity|occurrence|reflexivity|].
  - destruct I as [<-|[<-|[]]]; attribute_check.
  - sound_fill builtin_type ltac:(apply sound_simple).
Qed.
Lemma guest_sound : sound_here (Complex guest) (Inst (q "guest") [av "lang" "sv"] [leaf "name" "Cy"] []).
Proof.
  eapply (sound_restriction _ _ _ plain guest (restriction_of guest) human _ _ _ _ _ [[_]]);
    [apply human_restricted; right; left; reflexivity|reflexivity|reflexivity|attribute_check|reflexivity|reflexivity|occurrence|reflexivity|].
  sound_fill builtin_type ltac:(apply sound_simple).
Qed.
Example C84_ex3 : sound_here (Complex club) a_club.
Proof.
  eapply (sound_sequence _ _ _ (fun e => if tagged_children ["complexType"] e then Complex member_ else Complex guest) _ _ _ _ _ _ [[_; _]; [_]]);
    [apply regular_plain; vm_compute; reflexivity|reflexivity|reflexivity|reflexivity|attribute_check|reflexivity|occurrence|reflexivity|].
  sound_fill ltac:(first [eapply to_named; [reflexivity|eapply tn_complex; [apply own_local_iff; reflexivity|split; [right; left; reflexivity|split; reflexivity]]]|eapply to_complex; reflexivity])
    ltac:(first [apply guest_sound|apply member_sound; cbn; auto]).
Qed.
(** The generated types hold it. *)
Example C84_ex4 : forall f its path, parse u2 [clubs] = Ok f -> file_items u2 f (rf_types f) its ->
  fits u2 (concat (map (placed []) its)) any_texts path (rust u2 "Club") a_club.
Proof.
  intros f its path Hf Hi. destruct C84_ex1 as (D & O & T & _ & Or). assert (Ef : ns_prefix (rf_target_ns f) = Some (lit "tt") /\ ns_prefix (rf_xsd_ns f) = Some (lit "xs") /\ type_name_of u2 f (lit "tt:Club") = rust u2 "Club" /\
    separate_types clubs (type_name_of u2 f) (format_name u2)).
  { vm_compute in Hf. injection Hf as <-. split; [reflexivity|]. split; [reflexivity|]. split; [vm_compute; reflexivity|]. apply (separate_types_check _ _ _ 3). vm_compute. reflexivity. }
  destruct Ef as (E1 & E2 & E3 & Se). rewrite <- E3. refine (proj1 (C84_restrictions_fit u2 [clubs] clubs f its D O T Hf _ Se Hi (Complex club) a_club path _) _ _ _); rewrite ?E1, ?E2; auto.
  - apply C84_ex3.
  - eapply tn_complex; [apply own_local_iff; reflexivity|]. split; [do 2 right; left; reflexivity|split; reflexivity].
  - apply regular_typeb_ok. reflexivity.
Qed.
