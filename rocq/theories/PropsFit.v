(** Property theorems C68: the generated types hold every valid instance. *)
From Coq Require Import Arith NArith ZArith Bool Ascii String List Permutation Lia.
From Verif Require Import Str SpecLex SpecNames SpecBuiltin Xml StrFacts Names NamesProofs Entity Parser ParserFacts SpecSchema ParserProofs PropsParser Link SpecLink PropsLink
  Gen SpecRust SpecGen RustFacts GenProofs GenProofs2 PropsGen SpecDoc DocProofs PropsDoc SpecScope ScopeProofs PropsScope SpecTraits TraitProofs PropsTraits SpecSize SizeProofs PropsSize
  SpecDistinct DistinctProofs DistinctProofs2 PropsDistinct MemberProofs PropsMembers SpecFit FitProofs FitProofs2.
Import ListNotations.
Local Open Scope string_scope.
Local Open Scope list_scope.
Local Open Scope N_scope.
Notation concat := List.concat.

(** C68: an instance that is valid after XML Schema, and whose complex types are made of
    elements in one sequence or all group, of attributes, and of extensions of types declared
    before, fits the Rust type made for its type: each attribute and child element has a member
    of its name, each member that is no option or vector has exactly one element or attribute,
    and the child elements fit the types of their members.  The instance may be of a named type
    or of a global element with an anonymous type. *)
Theorem C68_instances_fit : forall u roots schema f its, document roots schema -> ok_schema schema -> tidy schema -> parse u roots = Ok f ->
  (forall x, part x schema -> orderly u schema (ns_prefix (rf_target_ns f)) (ns_prefix (rf_xsd_ns f)) x) ->
  separate_types schema (type_name_of u f) (format_name u) -> file_items u f (rf_types f) its ->
  let own := ns_prefix (rf_target_ns f) in let xsd := ns_prefix (rf_xsd_ns f) in
  let fits := fits u (concat (map (placed []) its)) any_texts in
  forall T i path, valid schema own xsd (regular schema own xsd) any_text T i ->
    (forall q, type_named schema own xsd q T -> regular_type xsd q -> fits path (type_name_of u f q) i) /\
    (forall l d, SpecFit.declared schema "element" l d -> absent d "ref" -> absent d "type" -> type_of schema own xsd d T -> fits path (type_name_of u f l) i).
Proof. exact document_fits. Qed.
Print Assumptions C68_instances_fit.

(** ** Checks, for the examples *)
Section Check.
Context (schema : node) (own xsd : option str).
Definition own_local (q : str) : option str :=
  let '(p, l) := split_name q in if negb (opt_str_eqb p xsd && builtinb l) && (opt_str_eqb p None || opt_str_eqb p own) then Some l else None.
Lemma own_local_iff q l : own_local q = Some l <-> to_own own xsd q l.
Proof.
  unfold own_local, to_own. destruct (split_name q) as [p l'] eqn:E. split.
  - destruct (_ && _) eqn:B; [|discriminate]. intros [= <-]. apply split_name_iff in E. exists p. split; auto.
    apply andb_true_iff in B as [B1 B2]. apply negb_true_iff in B1. split.
    + intros [X1 X2]. apply opt_str_eqb_iff in X1. apply builtinb_iff in X2. rewrite X1, X2 in B1. discriminate.
    + apply orb_true_iff in B2 as [B2|B2]; apply opt_str_eqb_iff in B2; auto.
  - intros (p' & Q & N & O). apply split_name_iff in Q. assert (p' = p /\ l' = l) as [-> ->] by (split; congruence).
    destruct (_ && _) eqn:B; auto. exfalso. apply andb_false_iff in B as [B|B].
    + apply negb_false_iff, andb_true_iff in B as [B1 B2]. apply opt_str_eqb_iff in B1. apply builtinb_iff in B2. auto.
    + apply orb_false_iff in B as [B1 B2]. apply opt_str_neqb in B1, B2. destruct O; auto.
Qed.
Definition complex_named (l : str) : list node := filter (fun d => tagged "complexType" d && opt_str_eqb (attribute d (lit "name")) (Some l)) (children schema).
Definition simple_attributes (n : node) : option (list node) :=
  match tagged_children ["attributeGroup"; "anyAttribute"] n with [] => Some (tagged_children ["attribute"] n) | _ => None end.
Fixpoint compose (k : nat) (t : node) : option (list node * list node) :=
  match k with O => None | S k' =>
    match tagged_children ["complexContent"; "simpleContent"] t with
    | [] => match simple_attributes t with Some r => Some (groups_of t, r) | None => None end
    | [c] => if tagged "simpleContent" c then None else
      match particles c with [d] => match attribute d (lit "base") with Some q => match own_local q with Some l => match complex_named l with [b] =>
        match compose k' b, simple_attributes d with Some (gs, r), Some r' => Some (gs ++ groups_of d, r ++ r') | _, _ => None end
      | _ => None end | _ => None end | _ => None end | _ => None end
    | _ => None end end.
Lemma simple_attributes_ok n r r' : attributed schema (children n) r -> simple_attributes n = Some r' -> r = r'.
Proof.
  unfold simple_attributes, tagged_children. intros A. destruct (filter _ _) as [|g l] eqn:E; [|discriminate]. intros [= <-]. revert E.
  induction A as [|a l r T A IH|g q k d l r r' T Hq Lq Dq A1 IH1 A2 IH2|c l r N A IH]; intros E; auto.
  - cbn [filter existsb] in E |- *. assert (tagged "attribute" a = true) as -> by (apply tagged_iff; auto). cbn [orb]. f_equal. apply IH. destruct (_ || _); [discriminate E|auto].
  - cbn [filter existsb] in E. assert (X : tagged "attributeGroup" g = true) by (apply tagged_iff; auto). rewrite X in E. discriminate E.
  - cbn [filter existsb] in E |- *. destruct (tagged "attribute" c) eqn:X; [exfalso; apply N; exists "attribute"; split; [left; auto|apply tagged_iff; auto]|]. cbn [orb]. apply IH. destruct (_ || _); [discriminate E|auto].
Qed.
Lemma simple_attributed n r : simple_attributes n = Some r -> attributed schema (children n) r.
Proof.
  unfold simple_attributes, tagged_children. destruct (filter _ _) as [|g l] eqn:E; [|discriminate]. intros [= <-]. induction (children n) as [|c l IH]; [constructor|].
  cbn [filter existsb] in E |- *. destruct (tagged "attributeGroup" c) eqn:G; [discriminate|]. destruct (tagged "anyAttribute" c) eqn:W; [discriminate|]. cbn [orb] in E.
  destruct (tagged "attribute" c) eqn:A; cbn [orb].
  - apply at_attribute; [apply tagged_iff; auto|auto].
  - apply at_other; auto. intros (t & I & T). apply tagged_iff in T. cbn [In] in I. destruct I as [<-|[<-|[<-|[]]]]; congruence.
Qed.
Lemma only_particle c d : only c d -> particles c = [d].
Proof.
  intros (a & b & E & I & N & A & B). unfold particles. rewrite E, filter_app. cbn [filter].
  assert (Z : forall l, Forall ignorable l -> filter (fun c => is_element c && negb (tagged "annotation" c)) l = []).
  { intros l F. induction F as [|x l [X|X] F IH]; auto; cbn [filter]; [rewrite X; auto|]. apply tagged_iff in X. rewrite X. destruct (is_element x); auto. }
  rewrite (Z a A), (Z b B), I. destruct (tagged "annotation" d) eqn:X; [apply tagged_iff in X; contradiction|auto].
Qed.
Lemma compose_ok R t s gs r : composed schema own xsd R t s gs r -> forall k gs' r', compose k t = Some (gs', r') -> gs = gs' /\ r = r'.
Proof.
  intros C. induction C as [t r Rt E A|t c d q l b s gs r r0 Rt E Tc Od Td Hq To De Cb IH A|t c d q r0 Rt E Tc Od Td Hq Tn A]; intros [|k] gs' r'; try discriminate; cbn [compose]; rewrite E.
  - destruct (simple_attributes t) as [x|] eqn:S; [|discriminate]. intros [= <- <-]. split; auto. eapply simple_attributes_ok; eauto.
  - destruct (tagged "simpleContent" c); [discriminate|]. rewrite (only_particle c d Od). unfold has in Hq. rewrite Hq. apply own_local_iff in To. rewrite To.
    destruct (complex_named l) as [|b' [|]] eqn:N; try discriminate.
    assert (b' = b) as ->. { assert (X : In b (complex_named l)); [|rewrite N in X; destruct X as [X|[]]; auto]. apply filter_In. destruct De as (I & T & Hn). split; auto. apply andb_true_iff. split; [apply tagged_iff; auto|apply opt_str_eqb_iff; auto]. }
    destruct (compose k b) as [[gs1 r1]|] eqn:K; [|discriminate]. destruct (simple_attributes d) as [r2|] eqn:S; [|discriminate]. intros [= <- <-].
    destruct (IH k gs1 r1 K) as [-> ->]. rewrite (simple_attributes_ok d _ _ A S). auto.
  - apply tagged_iff in Tc. rewrite Tc. discriminate.
Qed.
Lemma named_once k t gs r : compose k t = Some (gs, r) -> NoDup (map local_name (concat (map particles gs) ++ r)) ->
  forall s gs' r', composed schema own xsd (fun _ => True) t s gs' r' -> NoDup (map local_name (concat (map particles gs') ++ r')).
Proof. intros E N s gs' r' C. destruct (compose_ok _ _ _ _ _ C k _ _ E) as [-> ->]. auto. Qed.
Definition formedb (e : node) (a : string) : bool :=
  match attribute e (lit "form") with Some v => str_eqb v (lit "qualified") | None => opt_str_eqb (attribute schema (lit a)) (Some (lit "qualified")) end.
Lemma formedb_iff e a : formedb e a = true <-> formed schema e a.
Proof.
  unfold formedb, formed, has, absent. destruct (attribute e (lit "form")) as [v|].
  - rewrite str_eqb_eq. split; [intros ->; auto|intros [[= ->]|[[=] _]]; auto].
  - rewrite opt_str_eqb_iff. split; [auto|intros [[=]|[_ X]]; auto].
Qed.
Definition regular_typeb (q : str) : bool :=
  let '(p, l) := split_name q in negb (opt_str_eqb p xsd && existsb (fun b => str_eqb l (fst b) && match snd b with STexts => true | _ => false end) xsd_builtins).
Lemma regular_typeb_ok q : regular_typeb q = true -> regular_type xsd q.
Proof.
  unfold regular_typeb, regular_type. intros H l Q I. apply split_name_iff in Q. rewrite Q in H. apply negb_true_iff, andb_false_iff in H as [H|H].
  - apply opt_str_neqb in H. auto.
  - apply not_true_iff_false in H. apply H, existsb_exists. exists (l, STexts). split; auto. cbn [fst snd]. rewrite andb_true_r. apply str_eqb_eq. auto.
Qed.
Definition regular_elementb (e : node) : bool :=
  tagged "element" e && (is_present e "name" || is_present e "ref") &&
  (negb (is_present e "name") || formedb e "elementFormDefault" && negb (is_present e "ref")) &&
  when e "ref" (fun q => match own_local q with Some l =>
    forallb (fun d => negb (tagged "element" d && opt_str_eqb (attribute d (lit "name")) (Some l)) || negb (is_present d "type")) (children schema) | None => false end) &&
  (negb (is_present e "maxOccurs") || negb (is_present e "minOccurs") || opt_str_eqb (attribute e (lit "maxOccurs")) (Some (lit "unbounded"))) &&
  when e "type" regular_typeb.
Lemma regular_elementb_ok e : regular_elementb e = true -> regular_element schema own xsd e.
Proof.
  unfold regular_elementb. rewrite !andb_true_iff. intros (((((H1 & H2) & H3) & H4) & H5) & H6). split; [apply tagged_iff; auto|].
  split; [apply orb_true_iff in H2 as [H2|H2]; apply is_present_iff in H2; auto|].
  split; [intros P; apply is_present_iff in P; rewrite P in H3; cbn [negb orb] in H3; apply andb_true_iff in H3 as [H3 H3']; split; [apply formedb_iff; auto|apply not_present, negb_true_iff; auto]|].
  split; [intros q Hq; pose proof (when_ok _ _ _ _ H4 Hq) as X; cbn beta in X; destruct (own_local q) as [l|] eqn:E; [|discriminate]; exists l; apply own_local_iff; auto|].
  split; [|split].
  - intros q l d Hq To (I & T & Hn) t Ht. exfalso. pose proof (when_ok _ _ _ _ H4 Hq) as X. cbn beta in X. apply own_local_iff in To. rewrite To in X.
    rewrite forallb_forall in X. specialize (X d I). apply tagged_iff in T. apply opt_str_eqb_iff in Hn. rewrite T, Hn in X. cbn [andb negb orb] in X. apply negb_true_iff, not_present in X. unfold has, absent in *. congruence.
  - intros (Mi & Pm & Ma). apply is_present_iff in Pm. rewrite Pm in H5. cbn [negb orb] in H5. apply orb_true_iff in H5 as [H5|H5].
    + apply negb_true_iff, not_present in H5. destruct Mi as [[_ X]|(s & X & _)]; [discriminate|unfold has, absent in *; congruence].
    + apply opt_str_eqb_iff in H5. assert (Y : forall k, ~ xsd_max e (Some k)); [|destruct Ma as [Ma|Ma]; eapply Y; eauto].
      intros k [[X _]|[[_ X]|(s & j & X & C & _)]]; [unfold absent in X; congruence|discriminate|]. unfold has in X. assert (s = lit "unbounded") by congruence. subst s. eapply not_unbounded; eauto.
  - intros q Hq. apply regular_typeb_ok. apply (when_ok _ _ _ _ H6 Hq).
Qed.
Definition regular_attributeb (a : node) : bool :=
  if is_present a "name" then negb (formedb a "attributeFormDefault") else when a "ref" (fun q => match split_name q with (Some _, _) => true | _ => false end).
Lemma regular_attributeb_ok a : regular_attributeb a = true -> regular_attribute schema a.
Proof.
  unfold regular_attributeb, regular_attribute. destruct (is_present a "name") eqn:E.
  - intros H. apply negb_true_iff in H. split; [intros _ X; apply formedb_iff in X; congruence|intros X; apply not_present in X; congruence].
  - intros H. split; [intros X; apply is_present_iff in X; congruence|]. intros _ q Hq. apply (when_ok _ _ _ _ H) in Hq. destruct (split_name q) as [[p|] l] eqn:S; [|discriminate]. exists p, l. apply split_name_iff. auto.
Qed.
Definition regular_bodyb (n : node) : bool :=
  match tagged_children content_tags n with
  | [] => true
  | [c] => among ["sequence"; "all"] c && negb (is_present c "minOccurs") && negb (is_present c "maxOccurs") && forallb regular_elementb (particles c)
  | _ => false end &&
  is_empty (tagged_children ["attributeGroup"; "anyAttribute"] n) && forallb regular_attributeb (tagged_children ["attribute"] n).
Lemma regular_bodyb_ok n : regular_bodyb n = true -> regular_body schema own xsd n.
Proof.
  unfold regular_bodyb. rewrite !andb_true_iff. intros ((H1 & H2) & H3). split; [|split].
  - destruct (tagged_children content_tags n) as [|c [|]]; try discriminate; [left; auto|right]. rewrite !andb_true_iff in H1. destruct H1 as (((A & B) & C) & D).
    exists c. split; auto. split; [apply among_iff; auto|]. split; [apply not_present, negb_true_iff; auto|]. split; [apply not_present, negb_true_iff; auto|].
    apply Forall_forall. intros e I. rewrite forallb_forall in D. apply regular_elementb_ok, D, I.
  - clear H1. destruct (tagged_children ["attributeGroup"; "anyAttribute"] n); [auto|discriminate].
  - apply Forall_forall. intros a I. rewrite forallb_forall in H3. apply regular_attributeb_ok, H3, I.
Qed.
Definition attribute_nameb (a : node) : option qname :=
  match attribute a (lit "name") with
  | Some nm => Some (if formedb a "attributeFormDefault" then own else None, nm)
  | None => match attribute a (lit "ref") with Some q => Some (split_name q) | None => None end end.
Lemma attribute_nameb_iff a n : attribute_nameb a = Some n <-> attribute_named schema own a n.
Proof.
  unfold attribute_nameb. split.
  - destruct (attribute a (lit "name")) as [nm|] eqn:E.
    + intros [= <-]. destruct (formedb a "attributeFormDefault") eqn:F; [apply an_qualified; auto; apply formedb_iff; auto|apply an_unqualified; auto]. intros X. apply formedb_iff in X. congruence.
    + destruct (attribute a (lit "ref")) as [q|] eqn:Q; [|discriminate]. intros [= <-]. pose proof (split_name_qualified q) as X. destruct (split_name q) as [p l]. eapply an_ref; eauto.
  - intros [nm H F|nm H F|q p l H Q S]; unfold has, absent in *; rewrite H.
    + apply formedb_iff in F. rewrite F. auto.
    + destruct (formedb a "attributeFormDefault") eqn:X; auto. apply formedb_iff in X. contradiction.
    + rewrite Q. apply split_name_iff in S. rewrite S. auto.
Qed.
Definition attributes_fitb (r : list node) (attrs : list (qname * str)) : bool :=
  forallb (fun n => existsb (fun a => match attribute_nameb a with Some m => name_eqb m (fst n) | None => false end && negb (opt_str_eqb (attribute a (lit "use")) (Some (lit "prohibited")))) r) attrs &&
  forallb (fun a => negb (opt_str_eqb (attribute a (lit "use")) (Some (lit "required"))) || match attribute_nameb a with Some m => existsb (fun n => name_eqb m (fst n)) attrs | None => true end) r.
Lemma attributes_fitb_ok (V : sref -> str -> Prop) r attrs : attributes_fitb r attrs = true ->
  (forall n v a s, In (n, v) attrs -> In a r -> attribute_nameb a = Some n -> attribute_typed schema own xsd a s -> V s v) -> attributes_fit schema own xsd V r attrs.
Proof.
  unfold attributes_fitb. rewrite andb_true_iff, !forallb_forall. intros [H1 H2] Hv. split.
  - intros n v I. assert (J := H1 _ I). apply existsb_exists in J as (a & Ia & X). apply andb_true_iff in X as [X Y]. exists a. split; auto.
    destruct (attribute_nameb a) as [m|] eqn:E; [|discriminate]. apply name_eqb_iff in X. cbn [fst] in X. subst m. split; [apply attribute_nameb_iff; auto|].
    split; [intros P; apply opt_str_eqb_iff in P; rewrite P in Y; discriminate|]. eauto.
  - intros a n Ia P N. specialize (H2 a Ia). apply opt_str_eqb_iff in P. rewrite P in H2. apply attribute_nameb_iff in N. rewrite N in H2. cbn [negb orb] in H2.
    apply existsb_exists in H2 as ([m v] & Im & X). apply name_eqb_iff in X. cbn [fst] in X. subst m. apply in_map_iff. exists (n, v). auto.
Qed.
Definition names_apart (t : node) : bool :=
  match compose 9 t with Some (gs, r) => nodupb opt_str_eqb (map local_name (concat (map particles gs) ++ r)) | None => false end.
Lemma names_apart_ok t : names_apart t = true -> forall s gs r, composed schema own xsd (fun _ => True) t s gs r -> NoDup (map local_name (concat (map particles gs) ++ r)).
Proof.
  unfold names_apart. destruct (compose 9 t) as [[gs r]|] eqn:E; [|discriminate]. intros H. eapply named_once; eauto. eapply nodupb_ok; eauto. intros x. apply opt_str_eqb_iff. auto.
Qed.
Lemma regular_plain t : opt_str_eqb (attribute t (lit "mixed")) (Some (lit "true")) = false -> regular_bodyb t = true -> names_apart t = true -> regular schema own xsd t.
Proof. intros M B N. split; [intros X; apply opt_str_eqb_iff in X; congruence|]. split; [left; apply regular_bodyb_ok; auto|]. apply names_apart_ok. auto. Qed.
End Check.

(** ** Helpers for instances *)
Ltac occurrence := eexists; eexists; split; [first [left; split; reflexivity|right; eexists; split; [reflexivity|apply count_text_iff; reflexivity]]|
  split; [first [left; split; reflexivity|right; left; split; reflexivity|right; right; eexists; eexists; split; [reflexivity|split; [apply count_text_iff; reflexivity|reflexivity]]]|
    split; [vm_compute; discriminate|first [exact Logic.I|vm_compute; discriminate]]]].
Lemma arranged_once p l : occurs p 1 -> once p l -> arranged p l.
Proof. intros O H. rewrite <- (app_nil_r l). apply (arranged_runs p [l]); auto. Qed.
Lemma arranged_elements e ks : tag "element" e -> occurs e (N.of_nat (List.length ks)) -> arranged e (map (pair e) ks).
Proof.
  intros T O. replace (map (pair e) ks) with (concat (map (fun k => [(e, k)]) ks)) by (clear; induction ks; cbn; congruence).
  apply arranged_runs; [rewrite map_length; auto|]. apply Forall_map, Forall_forall. intros k _. constructor. auto.
Qed.
Definition assigned (es : list node) (kss : list (list inst)) : list (node * inst) := concat (map (fun p => map (pair (fst p)) (snd p)) (combine es kss)).
Definition counted (e : node) (ks : list inst) : Prop := tag "element" e /\ occurs e (N.of_nat (List.length ks)).
Lemma assigned_parts es kss : Forall2 counted es kss -> Forall2 arranged es (map (fun p => map (pair (fst p)) (snd p)) (combine es kss)).
Proof. induction 1 as [|e ks es kss [T O] H IH]; cbn [combine map fst snd]; constructor; auto. apply arranged_elements; auto. Qed.
Lemma arranged_sequence g kss : tag "sequence" g -> occurs g 1 -> Forall2 counted (particles g) kss -> arranged g (assigned (particles g) kss).
Proof. intros T O F. apply arranged_once; auto. apply once_sequence; auto. apply assigned_parts. auto. Qed.
Lemma arranged_all g kss l : tag "all" g -> occurs g 1 -> Forall2 counted (particles g) kss -> Permutation (assigned (particles g) kss) l -> arranged g l.
Proof. intros T O F P. apply arranged_once; auto. eapply once_all; eauto. apply assigned_parts. auto. Qed.
Section Content.
Context (schema : node) (own xsd : option str) (R : node -> Prop) (V : sref -> str -> Prop) (typing : node -> typ).
Definition filled (e : node) (ks : list inst) : Prop :=
  counted e ks /\ type_of schema own xsd e (typing e) /\ Forall (fun k => element_named schema own xsd e (inst_name k) /\ valid schema own xsd R V (typing e) k) ks.
Lemma filled_counted es kss : Forall2 filled es kss -> Forall2 counted es kss.
Proof. induction 1 as [|e ks es kss [H _] F IH]; constructor; auto. Qed.
Lemma assigned_kids es kss : Forall2 filled es kss -> map snd (assigned es kss) = concat kss.
Proof.
  unfold assigned. induction 1 as [|e ks es kss H F IH]; auto. cbn [combine map fst snd List.concat]. rewrite map_app, IH. f_equal.
  rewrite map_map. cbn [snd]. apply map_id.
Qed.
Lemma assigned_filled es kss e k : Forall2 filled es kss -> In (e, k) (assigned es kss) -> type_of schema own xsd e (typing e) /\ element_named schema own xsd e (inst_name k) /\ valid schema own xsd R V (typing e) k.
Proof.
  unfold assigned. induction 1 as [|e' ks es kss (_ & T & H) F IH]; [intros []|]. cbn [combine map fst snd List.concat]. intros I. apply in_app_or in I as [I|I]; auto.
  apply in_map_iff in I as (k' & [= -> ->] & I). rewrite Forall_forall in H. destruct (H k I). auto.
Qed.
(** A complex type with the groups [gs], one of [parts] for each. *)
Lemma valid_content t s gs r n attrs parts kss kids x : composed schema own xsd R t s gs r -> attributes_fit schema own xsd V r attrs -> Forall2 arranged gs parts ->
  (exists es, Forall2 filled es kss /\ Permutation (assigned es kss) (concat parts)) -> kids = map snd (concat parts) -> x = [] \/ s = true \/ has t "mixed" (lit "true") ->
  valid schema own xsd R V (Complex t) (Inst n attrs kids x).
Proof.
  intros C A F (es & Fi & P) -> X. apply (valid_complex schema own xsd R V t s gs r n attrs parts x typing); auto; intros e k I _; apply (Permutation_in _ (Permutation_sym P)) in I; apply (assigned_filled _ _ _ _ Fi I).
Qed.
Lemma valid_sequence t g es r n attrs kss x : R t -> tagged_children ["complexContent"; "simpleContent"] t = [] -> groups_of t = [g] -> simple_attributes t = Some r -> attributes_fit schema own xsd V r attrs ->
  tag "sequence" g -> occurs g 1 -> particles g = es -> Forall2 filled es kss -> x = [] \/ has t "mixed" (lit "true") -> valid schema own xsd R V (Complex t) (Inst n attrs (concat kss) x).
Proof.
  intros Rt E Eg Er A Tg O <- F X. eapply (valid_content t false [g] r n attrs [assigned (particles g) kss] kss); eauto.
  - rewrite <- Eg. apply composed_plain; auto. apply simple_attributed. auto.
  - constructor; [|constructor]. apply arranged_sequence; auto. apply filled_counted. auto.
  - exists (particles g). split; auto. cbn [List.concat]. rewrite app_nil_r. auto.
  - cbn [List.concat]. rewrite app_nil_r. symmetry. apply assigned_kids. auto.
  - destruct X; auto.
Qed.
Lemma valid_all t g es r n attrs kss kids : R t -> tagged_children ["complexContent"; "simpleContent"] t = [] -> groups_of t = [g] -> simple_attributes t = Some r -> attributes_fit schema own xsd V r attrs ->
  tag "all" g -> occurs g 1 -> particles g = es -> Forall2 filled es kss -> Permutation kids (concat kss) -> valid schema own xsd R V (Complex t) (Inst n attrs kids []).
Proof.
  intros Rt E Eg Er A Tg O <- F P. rewrite <- (assigned_kids _ _ F) in P. apply Permutation_map_inv in P as (l & -> & P).
  eapply (valid_content t false [g] r n attrs [l] kss); eauto.
  - rewrite <- Eg. apply composed_plain; auto. apply simple_attributed. auto.
  - constructor; [|constructor]. eapply arranged_all; eauto. apply filled_counted. eauto.
  - exists (particles g). split; auto. cbn [List.concat]. rewrite app_nil_r. auto.
  - cbn [List.concat]. rewrite app_nil_r. auto.
Qed.
(** An extension of a plain type, each with a sequence. *)
Lemma valid_extension t c d qb l b g g' es es' r r' n attrs kss kss' : R t -> tagged_children ["complexContent"; "simpleContent"] t = [c] -> tag "complexContent" c -> only c d -> tag "extension" d ->
  has d "base" qb -> to_own own xsd qb l -> SpecFit.declared schema "complexType" l b -> R b -> tagged_children ["complexContent"; "simpleContent"] b = [] ->
  groups_of b = [g] -> simple_attributes b = Some r -> groups_of d = [g'] -> simple_attributes d = Some r' -> attributes_fit schema own xsd V (r ++ r') attrs ->
  tag "sequence" g -> occurs g 1 -> particles g = es -> Forall2 filled es kss -> tag "sequence" g' -> occurs g' 1 -> particles g' = es' -> Forall2 filled es' kss' ->
  valid schema own xsd R V (Complex t) (Inst n attrs (concat kss ++ concat kss') []).
Proof.
  intros Rt E Tc Od Td Hb To De Rb Eb Eg Er Eg' Er' A Tg O <- F Tg' O' <- F'.
  eapply (valid_content t false ([g] ++ [g']) (r ++ r') n attrs [assigned (particles g) kss; assigned (particles g') kss'] (kss ++ kss')); eauto.
  - rewrite <- Eg'. eapply composed_extension; eauto; [|apply simple_attributed; eauto]. rewrite <- Eg. apply composed_plain; auto. apply simple_attributed. auto.
  - constructor; [|constructor; [|constructor]]; apply arranged_sequence; auto; apply filled_counted; auto.
  - exists (particles g ++ particles g'). split; [apply Forall2_app; auto|]. cbn [List.concat]. rewrite app_nil_r. unfold assigned.
    replace (combine (particles g ++ particles g') (kss ++ kss')) with (combine (particles g) kss ++ combine (particles g') kss'); [rewrite map_app, concat_app; auto|].
    clear - F. induction F; cbn [combine app]; f_equal; auto.
  - cbn [List.concat]. rewrite app_nil_r, map_app, !assigned_kids; auto.
Qed.
End Content.
Ltac element_name_check := first [eapply en_qualified; [reflexivity|right; split; reflexivity]|eapply en_unqualified; [reflexivity|intros [X|[_ X]]; discriminate X]|eapply en_ref; [reflexivity|reflexivity|apply own_local_iff; reflexivity]].
Ltac typing_known := lazymatch goal with
  | |- type_of ?s ?o ?x ?e ?T => let T' := eval hnf in T in change (type_of s o x e T')
  | |- valid ?s ?o ?x ?R ?V ?T ?i => let T' := eval hnf in T in change (valid s o x R V T' i) end.
Ltac fill ty va := repeat (constructor; [split; [split; [reflexivity|occurrence]|split; [typing_known; ty|repeat (constructor; [split; [element_name_check|typing_known; va]|]); constructor]]|]); try constructor.
Ltac builtin_type := eapply to_named; [reflexivity|apply tn_builtin with (l := lit "string"); [apply split_name_iff; reflexivity|apply builtinb_iff; reflexivity]] ||
  (eapply to_named; [reflexivity|apply tn_builtin with (l := lit "int"); [apply split_name_iff; reflexivity|apply builtinb_iff; reflexivity]]).
Definition q (n : string) : qname := (Some (lit "tt"), lit n).
Definition at_ (n : string) : qname := (None, lit n).
Definition av (n v : string) : qname * str := (at_ n, lit v).
Definition leaf (n s : string) : inst := Inst (q n) [] [] (lit s).

(** ** A document, and an instance *)
Definition qsch (cs : list node) : node :=
  Elem (lit "schema") [(lit "targetNamespace", lit "urn:tt"); (lit "elementFormDefault", lit "qualified")]
    [named_ns "xs" "http://www.w3.org/2001/XMLSchema"; named_ns "tt" "urn:tt"; named_ns "oo" "urn:oo"] cs.
Definition required_att (n t : string) : node := el "attribute" [("name", n); ("type", t); ("use", "required")] [].
Definition within_element (n : string) (t : node) : node := el "element" [("name", n)] [t].
Definition person : node := cty "Person" [seq [typed "name" "xs:string"; opt_typed "email" "xs:string"]; required_att "id" "xs:int"].
Definition address : node := el "complexType" [] [seq [typed "street" "xs:string"; typed "city" "xs:string"]].
Definition customer : node := cty "Customer" [ext "tt:Person" [seq [within_element "address" address]; att "since" "xs:date"]].
Definition line : node := cty "Line" [el "all" [] [typed "code" "tt:Code"; typed "count" "xs:int"]].
Definition note : node := el "complexType" [] [seq [many_typed "word" "xs:string"]].
Definition note_ref : node := el "element" [("ref", "tt:note"); ("minOccurs", "0")] [].
Definition order_ : node := el "complexType" [] [seq [typed "customer" "tt:Customer"; many_typed "line" "tt:Line"; note_ref]; att "number" "xs:int"].
Definition orders : node := qsch
  [ person; customer; named_string "Code" [facet_node "enumeration" "red"; facet_node "enumeration" "blue"]; line;
    within_element "note" note; within_element "order" order_ ].
Example C68_ex1 : document [orders] orders /\ ok_schema orders /\ tidy orders /\ not_self_derived orders /\
  (forall x, part x orders -> orderly u2 orders (Some (lit "tt")) (Some (lit "xs")) x).
Proof.
  apply with_conditions; [|apply orderly_check; vm_compute; reflexivity].
  conditions. split; [reflexivity|]. cbn [orders qsch children]. unfold person, customer, address, line, note, order_, note_ref, within_element, required_att, att, opt_typed, many_typed.
  constructor. { do 4 right. left. apply ok_global_complex; [reflexivity|eexists; reflexivity|]. constructor; [solve_ok|]. constructor; [|constructor]. right. left. apply ok_attribute; [reflexivity|left; eexists; reflexivity|]. exists MNone. apply use_required. reflexivity. }
  constructor; [solve_ok|]. constructor; [do 2 right; left; apply enum_ok; facets|].
  constructor. { do 4 right. left. apply ok_global_complex; [reflexivity|eexists; reflexivity|]. constructor; [|constructor]. do 4 right. left. apply ok_sequence; [eexists; split; [right; left; reflexivity|reflexivity]|solve_ok]. }
  solve_ok.
Qed.
Example C68_ex2 : exists f its, parse u2 [orders] = Ok f /\ ns_prefix (rf_target_ns f) = Some (lit "tt") /\ ns_prefix (rf_xsd_ns f) = Some (lit "xs") /\
  separate_types orders (type_name_of u2 f) (format_name u2) /\ file_items u2 f (rf_types f) its.
Proof.
  eexists. eexists. split; [vm_compute; reflexivity|]. split; [reflexivity|]. split; [reflexivity|]. split.
  - apply (separate_types_check _ _ _ 3). vm_compute. reflexivity.
  - cbn [rf_types]. repeat econstructor.
Qed.
(** An order of a customer with an address, two lines and a note of two words. *)
Definition an_order : inst :=
  Inst (q "order") [av "number" "7"]
    [ Inst (q "customer") [av "id" "12"; av "since" "2020-02-29"] [leaf "name" "Ada"; Inst (q "address") [] [leaf "street" "Main"; leaf "city" "York"] []] [];
      Inst (q "line") [] [leaf "code" "red"; leaf "count" "2"] []; Inst (q "line") [] [leaf "count" "1"; leaf "code" "blue"] [];
      Inst (q "note") [] [leaf "word" "by"; leaf "word" "rail"] [] ] [].
Notation regular_here := (regular orders (Some (lit "tt")) (Some (lit "xs"))).
Notation valid_here := (valid orders (Some (lit "tt")) (Some (lit "xs")) regular_here any_text).
Lemma customer_regular : regular_here customer.
Proof.
  split; [discriminate|]. split; [right|apply names_apart_ok; vm_compute; reflexivity]. eexists. eexists. eexists. split; [reflexivity|]. split; [reflexivity|]. split; [reflexivity|].
  split; [solve_ok|]. split; [reflexivity|]. split; [reflexivity|]. split; [|apply regular_bodyb_ok; vm_compute; reflexivity].
  intros l b To (I & T & Hn). apply own_local_iff in To. vm_compute in To. injection To as <-.
  destruct I as [<-|I]; [|exfalso; repeat (destruct I as [<-|I]; [discriminate|]); destruct I]. split.
  - intros [|x pre] D post E P; injection E as <- E; [|left; reflexivity]. apply parts_all in P. exfalso. vm_compute in P. repeat (destruct P as [P|P]; [discriminate P|]). destruct P.
  - intros pre post x E I Hx. destruct pre as [|y pre]; [injection E as E2|injection E as <- E2].
    + exfalso. subst post. cbn [app] in I. repeat (destruct I as [<-|I]; [discriminate|]). destruct I.
    + exfalso. repeat (destruct pre as [|? pre]; [discriminate E2|injection E2 as _ E2]). destruct pre; discriminate E2.
Qed.
Ltac attribute_check := apply attributes_fitb_ok; [vm_compute; reflexivity|intros; exact Logic.I].
Definition plain : node -> typ := fun e => Simple (match attribute e (lit "type") with Some t => Named t | None => Within e end).
Lemma address_valid n : valid_here (Complex address) (Inst (q n) [] [leaf "street" "Main"; leaf "city" "York"] []).
Proof.
  eapply (valid_sequence _ _ _ _ _ plain _ _ _ _ _ _ [[_]; [_]]); [apply regular_plain; vm_compute; reflexivity|reflexivity|reflexivity|reflexivity|attribute_check|reflexivity|occurrence|reflexivity| |left; reflexivity].
  fill builtin_type ltac:(apply valid_simple; exact Logic.I).
Qed.
Lemma note_valid n : valid_here (Complex note) (Inst (q n) [] [leaf "word" "by"; leaf "word" "rail"] []).
Proof.
  eapply (valid_sequence _ _ _ _ _ plain _ _ _ _ _ _ [[_; _]]); [apply regular_plain; vm_compute; reflexivity|reflexivity|reflexivity|reflexivity|attribute_check|reflexivity|occurrence|reflexivity| |left; reflexivity].
  fill builtin_type ltac:(apply valid_simple; exact Logic.I).
Qed.
Lemma code_simple : type_of orders (Some (lit "tt")) (Some (lit "xs")) (typed "code" "tt:Code") (Simple (Named (lit "tt:Code"))).
Proof. eapply to_named; [reflexivity|]. eapply tn_simple; [apply own_local_iff; reflexivity|]. split; [do 2 right; left; reflexivity|split; reflexivity]. Qed.
Lemma line_valid n k l : In (k, l) [([leaf "code" "red"], [leaf "count" "2"]); ([leaf "count" "1"], [leaf "code" "blue"])] -> valid_here (Complex line) (Inst (q n) [] (k ++ l) []).
Proof.
  intros [[= <- <-]|[[= <- <-]|[]]].
  - eapply (valid_all _ _ _ _ _ plain _ _ _ _ _ _ [[_]; [_]]); [apply regular_plain; vm_compute; reflexivity|reflexivity|reflexivity|reflexivity|attribute_check|reflexivity|occurrence|reflexivity| |apply Permutation_refl].
    fill ltac:(first [apply code_simple|builtin_type]) ltac:(apply valid_simple; exact Logic.I).
  - eapply (valid_all _ _ _ _ _ plain _ _ _ _ _ _ [[leaf "code" "blue"]; [leaf "count" "1"]]); [apply regular_plain; vm_compute; reflexivity|reflexivity|reflexivity|reflexivity|attribute_check|reflexivity|occurrence|reflexivity| |apply perm_swap].
    fill ltac:(first [apply code_simple|builtin_type]) ltac:(apply valid_simple; exact Logic.I).
Qed.
Lemma customer_valid : valid_here (Complex customer)
  (Inst (q "customer") [av "id" "12"; av "since" "2020-02-29"] [leaf "name" "Ada"; Inst (q "address") [] [leaf "street" "Main"; leaf "city" "York"] []] []).
Proof.
  eapply (valid_extension _ _ _ _ _ (fun e => if tagged_children ["complexType"] e then plain e else Complex address) _ _ _ _ _ person _ _ _ _ _ _ _ _ [[_]; []] [[_]]);
    [apply customer_regular|reflexivity|reflexivity|solve_ok|reflexivity|reflexivity|apply own_local_iff; reflexivity|split; [left; reflexivity|split; reflexivity]|apply regular_plain; vm_compute; reflexivity|
     reflexivity|reflexivity|reflexivity|reflexivity|reflexivity|attribute_check|reflexivity|occurrence|reflexivity| |reflexivity|occurrence|reflexivity| ].
  - fill builtin_type ltac:(apply valid_simple; exact Logic.I).
  - fill ltac:(eapply to_complex; reflexivity) ltac:(apply address_valid).
Qed.
Example C68_ex3 : valid_here (Complex order_) an_order.
Proof.
  eapply (valid_sequence _ _ _ _ _ (fun e => match attribute e (lit "name") with
    | Some n => if str_eqb n (lit "customer") then Complex customer else Complex line | None => Complex note end) _ _ _ _ _ _ [[_]; [_; _]; [_]]);
    [apply regular_plain; vm_compute; reflexivity|reflexivity|reflexivity|reflexivity|attribute_check|reflexivity|occurrence|reflexivity| |left; reflexivity].
  fill ltac:(first [eapply to_named; [reflexivity|eapply tn_complex; [apply own_local_iff; reflexivity|split; [first [right; left; reflexivity|do 3 right; left; reflexivity]|split; reflexivity]]]|
      eapply to_ref; [reflexivity|reflexivity|apply own_local_iff; reflexivity|split; [do 4 right; left; reflexivity|split; reflexivity]|reflexivity|eapply to_complex; reflexivity]])
    ltac:(first [apply customer_valid|exact (line_valid "line" [_] [_] (or_introl eq_refl))|exact (line_valid "line" [_] [_] (or_intror (or_introl eq_refl)))|apply note_valid]).
Qed.

(** The generated type holds it, in any module. *)
Example C68_ex4 : forall f its path, parse u2 [orders] = Ok f -> file_items u2 f (rf_types f) its ->
  fits u2 (concat (map (placed []) its)) any_texts path (rust u2 "Order") an_order.
Proof.
  intros f its path Hf Hi. destruct C68_ex1 as (D & O & T & _ & Or). assert (Ef : ns_prefix (rf_target_ns f) = Some (lit "tt") /\ ns_prefix (rf_xsd_ns f) = Some (lit "xs") /\ type_name_of u2 f (lit "order") = rust u2 "Order" /\
    separate_types orders (type_name_of u2 f) (format_name u2)).
  { vm_compute in Hf. injection Hf as <-. split; [reflexivity|]. split; [reflexivity|]. split; [vm_compute; reflexivity|]. apply (separate_types_check _ _ _ 3). vm_compute. reflexivity. }
  destruct Ef as (E1 & E2 & E3 & Se). rewrite <- E3. eapply (C68_instances_fit u2 [orders] orders f its D O T Hf); rewrite ?E1, ?E2; auto.
  - apply C68_ex3.
  - split; [do 5 right; left; reflexivity|split; reflexivity].
  - reflexivity.
  - reflexivity.
  - eapply to_complex; reflexivity.
Qed.

(** ** Valid instances the generated types do not hold *)
Section Inversion.
Context (u : uni) (P : list (list str * item)) (text : list str -> list token -> str -> Prop).
Lemma struct_fits path t p d a m fs n attrs kids x : seen u P path t p (IStruct d a m fs) -> (forall s, In s library_types -> t <> rust u s) ->
  fits u P text path t (Inst n attrs kids x) -> x = [] /\
    (forall y v, In (y, v) attrs -> exists f, In f fs /\ attribute_member f y) /\
    (forall k, In k kids -> exists f, In f fs /\ element_member f (inst_name k)) /\
    (forall f y, In f fs -> element_member f y -> exists c, holds u (rf_type f) c (number y kids)).
Proof.
  intros S N F. inversion F as [? s ? ? I|? ? p' d' m' t' ? Na|? ? p' d' a' m' c ? ? Na|? ? p' d' a' m' vs ? ? Na|? ? p' d' a' m' fs' ? ? ? Na A _ _ C D _]; subst.
  - exfalso. eapply N; eauto.
  - destruct Na as [_ U]. destruct (U _ _ S) as [_ X]. discriminate X.
  - destruct Na as [_ U]. destruct (U _ _ S) as [_ X]. discriminate X.
  - destruct Na as [_ U]. destruct (U _ _ S) as [_ X]. discriminate X.
  - destruct Na as [_ U]. destruct (U _ _ S) as [_ X]. injection X as -> -> -> ->. repeat split; auto. intros f y If E. destruct (D f y If E) as (c & H & _). eauto.
Qed.
Definition arguedb (f : rfield) (k : string) (v : option str) : bool :=
  existsb (fun a => match a with AYaserde l => existsb (fun x => String.eqb (fst x) k && opt_str_eqb (snd x) v) l | _ => false end) (rf_attrs f).
Lemma arguedb_iff f k v : arguedb f k v = true <-> argued f k v.
Proof.
  unfold arguedb, argued. rewrite existsb_exists. split.
  - intros (a & I & H). destruct a as [|l]; try discriminate. apply existsb_exists in H as ([k' v'] & J & X). apply andb_true_iff in X as [X Y]. apply String.eqb_eq in X. apply opt_str_eqb_iff in Y. cbn in X, Y. subst. eauto.
  - intros (l & I & J). eexists. split; [exact I|]. apply existsb_exists. exists (k, v). split; auto. cbn. rewrite String.eqb_refl. apply opt_str_eqb_iff. auto.
Qed.
Definition prefixedb (f : rfield) : bool := existsb (fun a => match a with AYaserde l => existsb (fun x => String.eqb (fst x) "prefix") l | _ => false end) (rf_attrs f).
Lemma prefixedb_iff f : prefixedb f = true <-> exists p, argued f "prefix" p.
Proof.
  unfold prefixedb, argued. rewrite existsb_exists. split.
  - intros (a & I & H). destruct a as [|l]; try discriminate. apply existsb_exists in H as ([k' v'] & J & X). apply String.eqb_eq in X. cbn in X. subst. eauto.
  - intros (p & l & I & J). eexists. split; [exact I|]. apply existsb_exists. exists ("prefix", p). auto.
Qed.
Definition in_instanceb (f : rfield) (n : qname) : bool :=
  arguedb f "rename" (Some (snd n)) && negb (arguedb f "flatten" None) && match fst n with Some p => arguedb f "prefix" (Some p) | None => negb (prefixedb f) end.
Lemma in_instanceb_iff f n : in_instanceb f n = true <-> in_instance f n.
Proof.
  unfold in_instanceb, in_instance. rewrite !andb_true_iff, negb_true_iff, <- not_true_iff_false, !arguedb_iff. destruct (fst n) as [p|]; [rewrite arguedb_iff; tauto|].
  rewrite negb_true_iff, <- not_true_iff_false, prefixedb_iff. split; [intros ((A & B) & C)|intros (A & B & C)]; repeat split; auto; [intros p X; eauto|intros (p & X); eapply C; eauto].
Qed.
(** No value of a struct without a member for an attribute or child, with too few or too many
    children for a member, or with text. *)
Lemma lost_child path t p d a m fs n attrs kids x k : seen u P path t p (IStruct d a m fs) -> (forall s, In s library_types -> t <> rust u s) ->
  In k kids -> existsb (fun f => negb (arguedb f "attribute" None) && in_instanceb f (inst_name k)) fs = false -> ~ fits u P text path t (Inst n attrs kids x).
Proof.
  intros S N I E F. destruct (struct_fits _ _ _ _ _ _ _ _ _ _ _ S N F) as (_ & _ & C & _). destruct (C k I) as (f & If & A & B). apply not_true_iff_false in E. apply E, existsb_exists. exists f. split; auto.
  apply in_instanceb_iff in B. rewrite B, andb_true_r. apply negb_true_iff, not_true_iff_false. intros X. apply arguedb_iff in X. auto.
Qed.
Lemma lost_attribute path t p d a m fs n attrs kids x y v : seen u P path t p (IStruct d a m fs) -> (forall s, In s library_types -> t <> rust u s) ->
  In (y, v) attrs -> existsb (fun f => arguedb f "attribute" None && in_instanceb f y) fs = false -> ~ fits u P text path t (Inst n attrs kids x).
Proof.
  intros S N I E F. destruct (struct_fits _ _ _ _ _ _ _ _ _ _ _ S N F) as (_ & C & _). destruct (C y v I) as (f & If & A & B). apply not_true_iff_false in E. apply E, existsb_exists. exists f. split; auto.
  apply in_instanceb_iff in B. apply arguedb_iff in A. rewrite A, B. auto.
Qed.
Lemma wrong_number path t p d a m fs n attrs kids x f y : seen u P path t p (IStruct d a m fs) -> (forall s, In s library_types -> t <> rust u s) ->
  In f fs -> arguedb f "attribute" None = false -> in_instanceb f y = true -> (forall c, ~ holds u (rf_type f) c (number y kids)) -> ~ fits u P text path t (Inst n attrs kids x).
Proof.
  intros S N I A B H F. destruct (struct_fits _ _ _ _ _ _ _ _ _ _ _ S N F) as (_ & _ & _ & C). destruct (C f y I) as (c & X); [|eapply H; eauto]. split; [|apply in_instanceb_iff; auto].
  intros Y. apply arguedb_iff in Y. congruence.
Qed.
Lemma lost_text path t p d a m fs n attrs kids x : seen u P path t p (IStruct d a m fs) -> (forall s, In s library_types -> t <> rust u s) -> x <> [] -> ~ fits u P text path t (Inst n attrs kids x).
Proof. intros S N X F. apply X. eapply (struct_fits _ _ _ _ _ _ _ _ _ _ _ S N F). Qed.
End Inversion.

Ltac not_library := let s := fresh in let I := fresh in let E := fresh in
  intros s I E; cbn [library_types In] in I; repeat (destruct I as [<-|I]; [vm_compute in E; discriminate E|]); destruct I.
Ltac seen_type := first [eapply (seen_above _ _ [] _ [] []); [reflexivity|left; reflexivity|vm_compute; reflexivity]|eapply (seen_above _ _ [] _ [] []); [reflexivity|right; left; reflexivity|vm_compute; reflexivity]|
  eapply (seen_above _ _ [] _ [] []); [reflexivity|do 2 right; left; reflexivity|vm_compute; reflexivity]].
(** A person without a name, or with two, does not fit the type of the document above. *)
Example C68_ex5 : exists f its, parse u2 [orders] = Ok f /\ file_items u2 f (rf_types f) its /\
  (forall kids, In kids [[]; [leaf "name" "Ada"; leaf "name" "Bob"]] -> ~ fits u2 (concat (map (placed []) its)) any_texts [] (rust u2 "Person") (Inst (q "person") [av "id" "12"] kids [])) /\
  ~ fits u2 (concat (map (placed []) its)) any_texts [] (rust u2 "Person") (Inst (q "person") [av "id" "12"; av "age" "40"] [leaf "name" "Ada"] []).
Proof.
  eexists. eexists. split; [vm_compute; reflexivity|]. split; [cbn [rf_types]; repeat econstructor|]. split.
  - intros kids I. eapply (wrong_number _ _ _ _ _ _ _ _ _ _ _ _ _ _ _ (q "name")); [seen_type|not_library|left; reflexivity|reflexivity|reflexivity|].
    intros c H. destruct I as [<-|[<-|[]]]; vm_compute in H; destruct H as [[_ H]|[[H _]|H]]; discriminate H.
  - eapply (lost_attribute _ _ _ _ _ _ _ _ _ _ _ _ _ _ (at_ "age") (lit "40")); [seen_type|not_library|right; left; reflexivity|vm_compute; reflexivity].
Qed.

(** Conditions as in C68, except that the types are not all regular. *)
Definition misfit (u : uni) (n : node) (t : string) (i : inst) : Prop :=
  document [n] n /\ ok_schema n /\ tidy n /\ not_self_derived n /\
  (forall x, part x n -> orderly u n (Some (lit "tt")) (Some (lit "xs")) x) /\
  exists f its T, parse u [n] = Ok f /\ ns_prefix (rf_target_ns f) = Some (lit "tt") /\ ns_prefix (rf_xsd_ns f) = Some (lit "xs") /\
    separate_types n (type_name_of u f) (format_name u) /\ file_items u f (rf_types f) its /\
    type_named n (Some (lit "tt")) (Some (lit "xs")) (lit t) T /\ valid n (Some (lit "tt")) (Some (lit "xs")) (fun _ => True) any_text T i /\
    ~ fits u (concat (map (placed []) its)) any_texts [] (type_name_of u f (lit t)) i.
Ltac misfits := split; [apply orderly_check; vm_compute; reflexivity|]; eexists; eexists; eexists; split; [vm_compute; reflexivity|]; split; [reflexivity|]; split; [reflexivity|];
  split; [apply (separate_types_check _ _ _ 3); vm_compute; reflexivity|]; split; [cbn [rf_types]; repeat econstructor|]; split.
Ltac names_type := eapply tn_complex; [apply own_local_iff; reflexivity|first [split; [left; reflexivity|split; reflexivity]|split; [right; left; reflexivity|split; reflexivity]]].

(** Content that is text, with attributes: the text has no member. *)
Definition text_content : node := qsch [cty "Price" [el "simpleContent" [] [el "extension" [("base", "xs:decimal")] [att "currency" "xs:string"]]]].
Theorem C68_text_refuted : forall u, misfit u text_content "tt:Price" (Inst (q "price") [av "currency" "EUR"] [] (lit "12.50")).
Proof.
  intros u. unfold text_content, att. apply with_conditions.
  { conditions; split; [reflexivity|]; cbn [qsch children]. constructor; [|constructor]. do 4 right. left. apply ok_global_complex; [t1|t1|]. constructor; [|constructor]. do 7 right.
    eapply ok_simple_content; [t1|solve_ok|]. apply ok_simple_extension; [t1|t1|solve_ok]. }
  misfits; [names_type|split].
  - apply (valid_content _ _ _ _ _ plain _ true [] [att "currency" "xs:string"] _ _ [] []).
    + eapply composed_text; [exact Logic.I|reflexivity|reflexivity|solve_ok|reflexivity|reflexivity| |apply simple_attributed; reflexivity].
      apply tn_builtin with (l := lit "decimal"); [apply split_name_iff; reflexivity|apply builtinb_iff; reflexivity].
    + attribute_check.
    + constructor.
    + exists []. split; constructor.
    + reflexivity.
    + auto.
  - eapply lost_text; [seen_type|not_library|discriminate].
Qed.
Print Assumptions C68_text_refuted.
(** Text between the elements of mixed content. *)
Definition mixed_content : node := qsch [el "complexType" [("name", "Text"); ("mixed", "true")] [seq [typed "bold" "xs:string"]]].
Theorem C68_mixed_refuted : forall u, misfit u mixed_content "tt:Text" (Inst (q "text") [] [leaf "bold" "x"] (lit "a  b")).
Proof.
  intros u. unfold mixed_content. apply with_conditions; [conditions; split; [reflexivity|]; cbn [qsch children]; solve_ok|]. misfits; [names_type|split].
  - eapply (valid_sequence _ _ _ _ _ plain _ _ _ _ _ _ [[_]]); [exact Logic.I|reflexivity|reflexivity|reflexivity|attribute_check|reflexivity|occurrence|reflexivity| |right; reflexivity].
    fill builtin_type ltac:(apply valid_simple; exact Logic.I).
  - eapply lost_text; [seen_type|not_library|discriminate].
Qed.
Print Assumptions C68_mixed_refuted.
(** An optional element with maxOccurs written: a required member. *)
Definition written_optional : node := qsch [cty "Person" [seq [el "element" [("name", "email"); ("type", "xs:string"); ("minOccurs", "0"); ("maxOccurs", "1")] []]]].
Theorem C68_optional_refuted : forall u, misfit u written_optional "tt:Person" (Inst (q "person") [] [] []).
Proof.
  intros u. unfold written_optional. apply with_conditions; [conditions; split; [reflexivity|]; cbn [qsch children]; solve_ok|]. misfits; [names_type|split].
  - eapply (valid_sequence _ _ _ _ _ plain _ _ _ _ _ _ [[]]); [exact Logic.I|reflexivity|reflexivity|reflexivity|attribute_check|reflexivity|occurrence|reflexivity| |left; reflexivity].
    fill builtin_type ltac:(apply valid_simple; exact Logic.I).
  - eapply (wrong_number _ _ _ _ _ _ _ _ _ _ _ _ _ _ _ (q "email")); [seen_type|not_library|left; reflexivity|reflexivity|reflexivity|].
    intros c H. vm_compute in H. destruct H as [[_ H]|[[H _]|H]]; discriminate H.
Qed.
Print Assumptions C68_optional_refuted.
(** A group that may occur twice: members for one occurrence. *)
Definition repeated_group : node := qsch [cty "Path" [el "sequence" [("maxOccurs", "2")] [typed "x" "xs:int"; typed "y" "xs:int"]]].
Theorem C68_repeated_refuted : forall u, misfit u repeated_group "tt:Path" (Inst (q "path") [] [leaf "x" "1"; leaf "y" "2"; leaf "x" "3"; leaf "y" "4"] []).
Proof.
  intros u. unfold repeated_group. apply with_conditions; [conditions; split; [reflexivity|]; cbn [qsch children]; solve_ok|]. misfits; [names_type|split].
  - set (x := typed "x" "xs:int"). set (y := typed "y" "xs:int").
    eapply (valid_content _ _ _ _ _ plain _ false _ [] _ _ [[(x, leaf "x" "1"); (y, leaf "y" "2"); (x, leaf "x" "3"); (y, leaf "y" "4")]] [[leaf "x" "1"]; [leaf "y" "2"]; [leaf "x" "3"]; [leaf "y" "4"]]).
    + apply composed_plain; [exact Logic.I|reflexivity|apply simple_attributed; reflexivity].
    + attribute_check.
    + constructor; [|constructor]. apply (arranged_runs _ [[(x, leaf "x" "1"); (y, leaf "y" "2")]; [(x, leaf "x" "3"); (y, leaf "y" "4")]]); [occurrence|].
      assert (X : forall a b, once (el "sequence" [("maxOccurs", "2")] [x; y]) [(x, leaf "x" a); (y, leaf "y" b)]); [|constructor; [apply X|constructor; [apply X|constructor]]].
      intros a b. apply (once_sequence _ [[(x, leaf "x" a)]; [(y, leaf "y" b)]]); [reflexivity|]. constructor; [|constructor; [|constructor]]; apply (arranged_elements _ [_]); try reflexivity; occurrence.
    + exists [x; y; x; y]. split; [|apply Permutation_refl]. fill builtin_type ltac:(apply valid_simple; exact Logic.I).
    + reflexivity.
    + auto.
  - eapply (wrong_number _ _ _ _ _ _ _ _ _ _ _ _ _ _ _ (q "x")); [seen_type|not_library|left; reflexivity|reflexivity|reflexivity|].
    intros c H. vm_compute in H. destruct H as [[_ H]|[[H _]|H]]; discriminate H.
Qed.
Print Assumptions C68_repeated_refuted.
(** A choice in a sequence: the member is called after the type, not after the alternatives. *)
Definition choice_inside : node := qsch [cty "Way" [seq [typed "name" "xs:string"; el "choice" [] [typed "road" "xs:string"; typed "rail" "xs:string"]]]].
Theorem C68_choice_refuted : forall u, misfit u choice_inside "tt:Way" (Inst (q "way") [] [leaf "name" "A1"; leaf "road" "x"] []).
Proof.
  intros u. unfold choice_inside. apply with_conditions; [conditions; split; [reflexivity|]; cbn [qsch children]; solve_ok|]. misfits; [names_type|split].
  - set (x := typed "name" "xs:string"). set (y := typed "road" "xs:string").
    eapply (valid_content _ _ _ _ _ plain _ false _ [] _ _ [[(x, leaf "name" "A1"); (y, leaf "road" "x")]] [[leaf "name" "A1"]; [leaf "road" "x"]]).
    + apply composed_plain; [exact Logic.I|reflexivity|apply simple_attributed; reflexivity].
    + attribute_check.
    + constructor; [|constructor]. apply arranged_once; [occurrence|]. apply (once_sequence _ [[(x, leaf "name" "A1")]; [(y, leaf "road" "x")]]); [reflexivity|]. constructor; [|constructor; [|constructor]].
      * apply (arranged_elements _ [_]); try reflexivity; occurrence.
      * apply arranged_once; [occurrence|]. apply (once_choice _ y); [reflexivity|left; reflexivity|]. apply (arranged_elements _ [_]); try reflexivity; occurrence.
    + exists [x; y]. split; [|apply Permutation_refl]. fill builtin_type ltac:(apply valid_simple; exact Logic.I).
    + reflexivity.
    + auto.
  - eapply lost_child; [seen_type|not_library|right; left; reflexivity|vm_compute; reflexivity].
Qed.
Print Assumptions C68_choice_refuted.
(** An element wildcard: no member. *)
Definition wildcard : node := qsch [cty "Bag" [seq [typed "name" "xs:string"; el "any" [] []]]].
Theorem C68_wildcard_refuted : forall u, misfit u wildcard "tt:Bag" (Inst (q "bag") [] [leaf "name" "A1"; leaf "stone" "x"] []).
Proof.
  intros u. unfold wildcard. apply with_conditions.
  { conditions; split; [reflexivity|]; cbn [qsch children]. constructor; [|constructor]. do 4 right. left. apply ok_global_complex; [t1|t1|]. constructor; [|constructor]. do 4 right. left. apply ok_sequence; [eexists; split; [left; reflexivity|reflexivity]|].
    constructor; [solve_ok|]. constructor; [|constructor]. do 2 right. left. apply ok_any. reflexivity. }
  misfits; [names_type|split].
  - set (x := typed "name" "xs:string"). set (y := el "any" [] []).
    apply (valid_complex _ _ _ _ _ _ false [seq [x; y]] [] _ _ [[(x, leaf "name" "A1"); (y, leaf "stone" "x")]] _ plain).
    + apply composed_plain; [exact Logic.I|reflexivity|apply simple_attributed; reflexivity].
    + attribute_check.
    + constructor; [|constructor]. apply arranged_once; [occurrence|]. apply (once_sequence _ [[(x, leaf "name" "A1")]; [(y, leaf "stone" "x")]]); [reflexivity|]. constructor; [|constructor; [|constructor]].
      * apply (arranged_elements _ [_]); try reflexivity; occurrence.
      * apply arranged_once; [occurrence|]. apply once_any. reflexivity.
    + auto.
    + intros e k [[= <- <-]|[[= <- <-]|[]]] T; [element_name_check|discriminate T].
    + intros e k [[= <- <-]|[[= <- <-]|[]]] T; [builtin_type|discriminate T].
    + intros e k [[= <- <-]|[[= <- <-]|[]]] T; [apply valid_simple; exact Logic.I|discriminate T].
  - eapply lost_child; [seen_type|not_library|right; left; reflexivity|vm_compute; reflexivity].
Qed.
Print Assumptions C68_wildcard_refuted.
(** Local elements are by default in no namespace; the members expect the target namespace. *)
Definition unqualified : node := sch [cty "Point" [seq [typed "x" "xs:int"]]].
Theorem C68_unqualified_refuted : forall u, misfit u unqualified "tt:Point" (Inst (q "point") [] [Inst (at_ "x") [] [] (lit "1")] []).
Proof.
  intros u. unfold unqualified. apply with_conditions; [conditions; split; [reflexivity|]; cbn [sch children]; solve_ok|]. misfits; [names_type|split].
  - eapply (valid_sequence _ _ _ _ _ plain _ _ _ _ _ _ [[_]]); [exact Logic.I|reflexivity|reflexivity|reflexivity|attribute_check|reflexivity|occurrence|reflexivity| |left; reflexivity].
    fill builtin_type ltac:(apply valid_simple; exact Logic.I).
  - eapply lost_child; [seen_type|not_library|left; reflexivity|vm_compute; reflexivity].
Qed.
Print Assumptions C68_unqualified_refuted.
(** An extension that repeats an element of its base: one member for both. *)
Definition repeated_element : node := qsch [cty "Point" [seq [typed "x" "xs:int"]]; cty "Line" [ext "tt:Point" [seq [typed "x" "xs:int"]]]].
Theorem C68_inherited_refuted : forall u, misfit u repeated_element "tt:Line" (Inst (q "line") [] [leaf "x" "1"; leaf "x" "2"] []).
Proof.
  intros u. unfold repeated_element. apply with_conditions; [conditions; split; [reflexivity|]; cbn [qsch children]; solve_ok|]. misfits; [names_type|split].
  - eapply (valid_extension _ _ _ _ _ plain _ _ _ _ _ (cty "Point" [seq [typed "x" "xs:int"]]) _ _ _ _ _ _ _ _ [[_]] [[_]]);
      [exact Logic.I|reflexivity|reflexivity|solve_ok|reflexivity|reflexivity|apply own_local_iff; reflexivity|split; [left; reflexivity|split; reflexivity]|exact Logic.I|
       reflexivity|reflexivity|reflexivity|reflexivity|reflexivity|attribute_check|reflexivity|occurrence|reflexivity| |reflexivity|occurrence|reflexivity| ];
      fill builtin_type ltac:(apply valid_simple; exact Logic.I).
  - eapply (wrong_number _ _ _ _ _ _ _ _ _ _ _ _ _ _ _ (q "x")); [seen_type|not_library|left; reflexivity|reflexivity|reflexivity|].
    intros c H. vm_compute in H. destruct H as [[_ H]|[[H _]|H]]; discriminate H.
Qed.
Print Assumptions C68_inherited_refuted.
(** An attribute group beside a sequence: its attributes have no members. *)
Definition group_beside : node := qsch [group_of "Marks" [att "lang" "xs:string"]; cty "Tag" [seq [typed "text" "xs:string"]; group_to "tt:Marks"]].
Theorem C68_group_refuted : forall u, misfit u group_beside "tt:Tag" (Inst (q "tag") [av "lang" "en"] [leaf "text" "x"] []).
Proof.
  intros u. unfold group_beside, group_of, group_to, att. apply with_conditions; [conditions; split; [reflexivity|]; cbn [qsch children]; solve_ok|]. misfits; [names_type|split].
  - eapply (valid_content _ _ _ _ _ plain _ false [seq [typed "text" "xs:string"]] [att "lang" "xs:string"] _ _ [assigned [typed "text" "xs:string"] [[leaf "text" "x"]]] [[leaf "text" "x"]]).
    + apply composed_plain; [exact Logic.I|reflexivity|]. apply at_other; [intros Y; apply among_iff in Y; discriminate Y|].
      apply (at_group _ _ (lit "tt:Marks") (lit "Marks") (group_of "Marks" [att "lang" "xs:string"]) _ [att "lang" "xs:string"] []); [reflexivity|reflexivity| |split; [left; reflexivity|split; reflexivity]|repeat constructor|constructor].
      split; [vm_compute; intuition discriminate|right; exists (lit "tt"); reflexivity].
    + attribute_check.
    + constructor; [|constructor]. apply arranged_sequence; [reflexivity|occurrence|]. constructor; [split; [reflexivity|occurrence]|constructor].
    + exists [typed "text" "xs:string"]. split; [|apply Permutation_refl]. fill builtin_type ltac:(apply valid_simple; exact Logic.I).
    + reflexivity.
    + auto.
  - eapply lost_attribute; [seen_type|not_library|left; reflexivity|vm_compute; reflexivity].
Qed.
Print Assumptions C68_group_refuted.
