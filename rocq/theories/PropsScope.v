(** Property theorems C63: the type names in generated code refer to something. *)
From Coq Require Import NArith ZArith Bool Ascii String List Lia.
From Verif Require Import Str SpecLex SpecNames SpecBuiltin Xml StrFacts Names NamesProofs Entity Parser ParserFacts SpecSchema ParserProofs PropsParser Link SpecLink PropsLink
  Gen SpecRust SpecGen RustFacts GenProofs GenProofs2 PropsGen SpecDoc DocProofs PropsDoc SpecScope ScopeProofs.
Import ListNotations.
Local Open Scope string_scope.
Local Open Scope list_scope.
Local Open Scope N_scope.
Notation concat := List.concat.

(** C63: if every reference of a document names a built-in type, a declaration that introduces
    a type, or another namespace of the document, then every type mentioned in the code is a
    library type, a type introduced where it can be named, a path into the module of another
    namespace, or a container of one of these. *)
Theorem C63_resolved : forall u roots schema f its, document roots schema -> ok_schema schema -> tidy schema -> parse u roots = Ok f ->
  (forall x, part x schema -> orderly u schema (ns_prefix (rf_target_ns f)) (ns_prefix (rf_xsd_ns f)) x) ->
  file_items u f (rf_types f) its ->
  forall P t, In (P, t) (concat (map (mentions []) its)) ->
    resolves u (namespaces schema) (ns_prefix (rf_target_ns f)) (ns_prefix (rf_xsd_ns f)) (concat (map (introduces []) its)) P t.
Proof. exact document_resolves. Qed.
Print Assumptions C63_resolved.
(** The same without resolution of base types, as for the schemas embedded in a WSDL document. *)
Theorem C63_schema : forall u schema f its, ok_schema schema -> tidy schema -> parse_schema u schema [] = Ok f ->
  (forall x, part x schema -> orderly u schema (ns_prefix (rf_target_ns f)) (ns_prefix (rf_xsd_ns f)) x) ->
  file_items u f (rf_types f) its ->
  forall P t, In (P, t) (concat (map (mentions []) its)) ->
    resolves u (namespaces schema) (ns_prefix (rf_target_ns f)) (ns_prefix (rf_xsd_ns f)) (concat (map (introduces []) its)) P t.
Proof. exact schema_resolves. Qed.
Print Assumptions C63_schema.

(** A check of the conditions, for the examples. *)
Definition letter_firstb (s : str) : bool := match s with c :: _ => is_ascii_lower c || is_ascii_upper c | [] => false end.
Definition plain_wordb (s : str) : bool := letter_firstb s && forallb (fun c => is_ascii_lower c || is_ascii_upper c || is_ascii_digit c || (c =? 95)) s.
Definition builtinb (l : str) : bool := existsb (fun b => str_eqb l (fst b)) xsd_builtins.
Definition is_present (x : node) (a : string) : bool := match attribute x (lit a) with Some _ => true | None => false end.
Section Check.
Context (u : uni) (schema : node) (own xsd : option str).
Definition introducedb (nm : str) : bool :=
  existsb (fun d => match attribute d (lit "name") with Some v => str_eqb v nm | None => false end &&
      (negb (tagged "attribute" d) || negb (is_present d "ref")) &&
      (among ["simpleType"; "complexType"] d ||
       among ["element"; "attribute"] d && (negb (is_present d "type") ||
         match get_documentation d with Some c => match doc_words (Some c) with [] => false | _ => true end | None => false end)))
    (children schema).
Definition knownb (q : str) : bool :=
  let '(p, l) := split_name q in
  let b := opt_str_eqb p xsd && builtinb l in
  b || match p with None => introducedb l | Some x =>
         opt_str_eqb p own && introducedb l ||
         existsb (fun ns => opt_str_eqb (ns_name ns) (Some x)) (namespaces schema) && negb (opt_str_eqb own p) && negb (opt_str_eqb xsd p) && negb (str_eqb x (lit "xs")) &&
         plain_wordb x && letter_firstb l end.
Definition clearb (nm : str) : bool :=
  letter_firstb nm && without [58] nm &&
  match xsd with None => negb (builtinb nm) && negb (builtinb (nm ++ lit "Type")) | Some _ => true end &&
  negb (opt_str_eqb own (Some (format_name u nm))) && negb (opt_str_eqb own (Some (format_name u (nm ++ lit "Type")))).
Definition has_elementsb (k : node) : bool := existsb is_element (children k).
Definition orderlyb (x : node) : bool :=
  (negb (among ["element"; "attribute"] x) || when x "type" knownb && when x "ref" knownb) && when x "base" knownb && when x "itemType" knownb &&
  when x "memberTypes" (fun m => forallb knownb (filter (fun t => negb (is_empty t)) (split_on 32 m))) &&
  when x "name" clearb &&
  (negb (tagged "element" x) || is_present x "type" || is_present x "ref" || is_present x "name") &&
  (negb (tagged "union" x) || match tagged_children ["attribute"; "anyAttribute"] x with [] => true | _ => false end) &&
  (negb (tagged "list" x) || forallb (fun c => negb (tagged "simpleType" c) || match last_opt (particles c) with Some k => negb (tagged "union" k) | None => true end) (children x)) &&
  (tagged "schema" x || forallb (fun c => negb (tagged "complexType" c) ||
     match last_opt (tagged_children content_tags c) with Some k => negb (tagged "choice" k && has_elementsb k) | None => true end) (children x)).
End Check.

Lemma letter_firstb_ok s : letter_firstb s = true -> letter_first s.
Proof.
  destruct s as [|c s]; [discriminate|]. cbn. intros H. exists c, s. split; auto. unfold letter, lower, upper.
  unfold is_ascii_lower, is_ascii_upper in H. lia.
Qed.
Lemma plain_wordb_ok s : plain_wordb s = true -> plain_word s.
Proof.
  unfold plain_wordb. rewrite andb_true_iff, forallb_forall. intros [A B]. split; [apply letter_firstb_ok; auto|]. intros c I. specialize (B c I).
  unfold alnum, letter, lower, upper, digit. unfold is_ascii_lower, is_ascii_upper, is_ascii_digit in B. lia.
Qed.
Lemma builtinb_iff l : builtinb l = true <-> builtin_name l.
Proof.
  unfold builtinb, builtin_name. rewrite existsb_exists, in_map_iff. split; intros (b & A & B).
  - apply str_eqb_eq in B. eauto.
  - exists b. split; auto. apply str_eqb_eq. auto.
Qed.
Lemma opt_str_eqb_iff a b : opt_str_eqb a b = true <-> a = b.
Proof.
  destruct a, b; cbn; split; intros H; try discriminate; auto; [apply str_eqb_eq in H; congruence|injection H as ->; apply str_eqb_refl].
Qed.
Lemma opt_str_neqb a b : opt_str_eqb a b = false <-> a <> b.
Proof. rewrite <- opt_str_eqb_iff. destruct (opt_str_eqb a b); split; congruence. Qed.
Lemma is_present_iff x a : is_present x a = true <-> present x a.
Proof. unfold is_present, present, has. destruct (attribute x (lit a)); split; eauto; [discriminate|intros [v H]; discriminate]. Qed.
Lemma not_present x a : is_present x a = false <-> absent x a.
Proof. unfold is_present, absent. destruct (attribute x (lit a)); split; auto; discriminate. Qed.
Lemma introducedb_ok schema nm : introducedb schema nm = true -> introduced schema nm.
Proof.
  unfold introducedb, introduced. rewrite existsb_exists. intros (d & I & H). apply andb_true_iff in H as [H H3]. apply andb_true_iff in H as [H1 H2].
  exists d. split; auto. split; [unfold has; destruct (attribute d (lit "name")) as [v|]; [|discriminate]; apply str_eqb_eq in H1; congruence|].
  split.
  - intros T. apply orb_true_iff in H2 as [H2|H2]; apply negb_true_iff in H2; [|apply not_present; auto]. apply tagged_iff in T. congruence.
  - apply orb_true_iff in H3 as [H3|H3]; [left; apply among_iff; auto|]. apply andb_true_iff in H3 as [H3 H4]. apply among_iff in H3. right.
    destruct (is_present d "type") eqn:E; [|left; split; auto; apply not_present; auto]. right. split; auto. split; [apply is_present_iff; auto|].
    cbn [negb orb] in H4. destruct (get_documentation d) as [c|] eqn:G; [|discriminate]. exists c. apply documented_iff in G. split; auto. apply documented_words.
    destruct (doc_words (Some c)); [discriminate H4|intros X; discriminate X].
Qed.
Lemma knownb_ok schema own xsd q : knownb schema own xsd q = true -> known schema own xsd q.
Proof.
  unfold knownb, known. pose proof (split_name_qualified q) as Q. destruct (split_name q) as [p l]. intros H. exists p, l. split; auto.
  destruct (opt_str_eqb p xsd && builtinb l) eqn:B.
  - apply andb_true_iff in B as [B1 B2]. left. apply opt_str_eqb_iff in B1. apply builtinb_iff in B2. auto.
  - cbn [orb] in H. right.
    assert (N : ~ (p = xsd /\ builtin_name l)) by (intros [X Y]; apply opt_str_eqb_iff in X; apply builtinb_iff in Y; rewrite X, Y in B; discriminate).
    destruct p as [x|]; [|left; split; auto; split; auto; apply introducedb_ok; auto].
    apply orb_true_iff in H as [H|H].
    + apply andb_true_iff in H as [H1 H2]. apply opt_str_eqb_iff in H1. left. split; auto. split; auto. apply introducedb_ok; auto.
    + rewrite !andb_true_iff in H. destruct H as (((((H1 & H2) & H3) & H6) & H4) & H5).
      apply negb_true_iff in H2, H3, H6. apply opt_str_neqb in H2, H3. apply str_eqb_neq in H6. apply plain_wordb_ok in H4. apply letter_firstb_ok in H5. right.
      apply existsb_exists in H1 as (ns & I & E). apply opt_str_eqb_iff in E. exists x, ns. auto 10.
Qed.
Lemma clearb_ok u own xsd nm : clearb u own xsd nm = true -> clear_name u own xsd nm.
Proof.
  unfold clearb, clear_name. intros H. apply andb_true_iff in H as [H H5]. apply andb_true_iff in H as [H H4]. apply andb_true_iff in H as [H H3]. apply andb_true_iff in H as [H1 H2].
  apply negb_true_iff in H4, H5. apply opt_str_neqb in H4, H5. split; [apply letter_firstb_ok; auto|].
  split; [intros I; apply (without_ok _ _ _ H2 I); left; reflexivity|]. split; auto.
  intros ->. apply andb_true_iff in H3 as [A B]. apply negb_true_iff in A, B. rewrite <- !builtinb_iff. rewrite A, B. split; discriminate.
Qed.
Lemma orderlyb_ok u schema own xsd x : orderlyb u schema own xsd x = true -> orderly u schema own xsd x.
Proof.
  unfold orderlyb. rewrite !andb_true_iff. intros ((((((((H1 & H2) & H3) & H4) & H5) & H6) & H7) & H8) & H9).
  assert (T : forall t, tagged t x = false -> ~ tag t x) by (intros t E Q; apply tagged_iff in Q; congruence).
  assert (Fi : forall l k, final l k -> last_opt l = Some k).
  { intros l k (a & ->). induction a as [|y a IH]; [reflexivity|]. cbn [app]. cbn [last_opt]. destruct (a ++ [k]) eqn:E; [destruct a; discriminate|auto]. }
  split; [|split; [|split; [|split; [|split]]]].
  - intros q [(A & B)|[B|[B|(m & ts & Hm & Ht & I)]]]; apply knownb_ok.
    + apply among_iff in A. rewrite A in H1. apply andb_true_iff in H1 as [Ha Hb]. destruct B as [B|B]; [eapply (when_ok _ _ _ _ Ha)|eapply (when_ok _ _ _ _ Hb)]; eauto.
    + exact (when_ok _ _ _ _ H2 B).
    + exact (when_ok _ _ _ _ H3 B).
    + pose proof (when_ok _ _ _ _ H4 Hm) as W. cbn beta in W. rewrite forallb_forall in W. apply W.
      rewrite <- (blank_tokens_unique _ _ _ Ht (blank_tokens_ok m)). auto.
  - intros nm Hn. apply clearb_ok. exact (when_ok _ _ _ _ H5 Hn).
  - intros Tg A B. apply not_present in A, B. rewrite A, B in H6. apply tagged_iff in Tg. rewrite Tg in H6. apply is_present_iff. destruct (is_present x "name"); auto.
  - intros Tg. apply tagged_iff in Tg. rewrite Tg in H7. cbn [negb orb] in H7. destruct (tagged_children ["attribute"; "anyAttribute"] x); [auto|discriminate].
  - intros Tg c k I Tc F Tk. apply tagged_iff in Tg, Tc, Tk. rewrite Tg in H8. cbn [negb orb] in H8. rewrite forallb_forall in H8. specialize (H8 c I).
    rewrite Tc, (Fi _ _ F), Tk in H8. discriminate.
  - intros Ns c k I Tc F Tk (e & Ie & E). apply tagged_iff in Tc, Tk. apply orb_true_iff in H9 as [H9|H9]; [apply tagged_iff in H9; contradiction|].
    rewrite forallb_forall in H9. specialize (H9 c I). rewrite Tc, (Fi _ _ F), Tk in H9. cbn [negb orb andb] in H9. apply negb_true_iff in H9.
    unfold has_elementsb in H9. enough (existsb is_element (children k) = true) by congruence. apply existsb_exists. eauto.
Qed.
Lemma orderly_check u schema own xsd : forallb (orderlyb u schema own xsd) (parts schema) = true -> forall x, part x schema -> orderly u schema own xsd x.
Proof. rewrite forallb_forall. intros A x P. apply orderlyb_ok, A, parts_all, P. Qed.

(** Documents for the examples, with XML Schema as [xs], the target namespace as [tt] and
    another namespace as [oo]. *)
Definition named_ns (p : string) (uri : string) : namespace := {| ns_name := Some (lit p); ns_uri := lit uri |}.
Definition sch (cs : list node) : node :=
  Elem (lit "schema") [(lit "targetNamespace", lit "urn:tt")]
    [named_ns "xs" "http://www.w3.org/2001/XMLSchema"; named_ns "tt" "urn:tt"; named_ns "oo" "urn:oo"] cs.
Definition all_resolved (u : uni) (n : node) : Prop := forall f its, parse u [n] = Ok f -> file_items u f (rf_types f) its ->
  forall P t, In (P, t) (concat (map (mentions []) its)) ->
    resolves u (namespaces n) (ns_prefix (rf_target_ns f)) (ns_prefix (rf_xsd_ns f)) (concat (map (introduces []) its)) P t.
(** Every reference names a built-in type or a declaration of the document. *)
Definition declared_references (n : node) : Prop := forall x q, part x n -> referring x q ->
  exists p l, qualified q p l /\ (p = Some (lit "xs") /\ builtin_name l \/ p = Some (lit "tt") /\ exists d, In d (children n) /\ has d "name" l).
Definition declared_refsb (n : node) : bool :=
  let k q := let '(p, l) := split_name q in opt_str_eqb p (Some (lit "xs")) && builtinb l ||
    opt_str_eqb p (Some (lit "tt")) && existsb (fun d => opt_str_eqb (attribute d (lit "name")) (Some l)) (children n) in
  forallb (fun x => (negb (among ["element"; "attribute"] x) || when x "type" k && when x "ref" k) && when x "base" k && when x "itemType" k &&
    negb (is_present x "memberTypes")) (parts n).
Lemma declared_refsb_ok n : declared_refsb n = true -> declared_references n.
Proof.
  unfold declared_refsb. cbv zeta. match goal with |- context [when _ "base" ?f] => set (k := f) end. rewrite forallb_forall. intros H x q P R.
  specialize (H x (parts_all _ _ P)). rewrite !andb_true_iff in H. destruct H as (((H1 & H2) & H3) & H4).
  assert (K : k q = true).
  { destruct R as [(A & B)|[B|[B|(m & ts & Hm & Ht & I)]]].
    + apply among_iff in A. rewrite A in H1. apply andb_true_iff in H1 as [Ha Hb]. destruct B as [B|B]; [eapply (when_ok _ _ _ _ Ha)|eapply (when_ok _ _ _ _ Hb)]; eauto.
    + exact (when_ok _ _ _ _ H2 B).
    + exact (when_ok _ _ _ _ H3 B).
    + apply negb_true_iff, not_present in H4. unfold absent, has in *. congruence. }
  unfold k in K. pose proof (split_name_qualified q) as Q. destruct (split_name q) as [p l]. exists p, l. split; auto.
  apply orb_true_iff in K as [K|K]; apply andb_true_iff in K as [K1 K2]; apply opt_str_eqb_iff in K1; [left; split; auto; apply builtinb_iff; auto|].
  right. split; auto. apply existsb_exists in K2 as (d & I & E). apply opt_str_eqb_iff in E. eauto.
Qed.

Lemma within_inv u t c : within u t c -> c = t \/ exists t', (t = rust u "Vec<" ++ t' ++ rust u ">" \/ t = rust u "Option<" ++ t' ++ rust u ">") /\ within u t' c.
Proof. intros [t0|t0 c0 W|t0 c0 W]; [left; auto|right; exists t0; auto|right; exists t0; auto]. Qed.
Lemma within_word u w c : within u [TWord w] c -> c = [TWord w].
Proof. intros W. apply within_inv in W as [E|(t & [E|E] & _)]; [auto|vm_compute in E; discriminate|vm_compute in E; discriminate]. Qed.
Lemma within_none u c : within u [] c -> c = [].
Proof. intros W. apply within_inv in W as [E|(t & [E|E] & _)]; [auto|vm_compute in E; discriminate|vm_compute in E; discriminate]. Qed.
Lemma within_path u m w c : within u ([TWord m] ++ rust u "::" ++ [TWord w]) c -> c = [TWord m] ++ rust u "::" ++ [TWord w].
Proof. intros W. apply within_inv in W as [E|(t & [E|E] & _)]; [auto| |]; vm_compute in E; discriminate. Qed.
Lemma library_word u s w : In s library_types -> [TWord w] = rust u s -> In w (map lit ["String"; "bool"; "i64"; "i32"; "i16"; "i8"; "u64"; "u32"; "u16"; "u8"; "f64"]).
Proof.
  intros I E. cbn [library_types In] in I.
  repeat (destruct I as [<-|I]; [vm_compute in E; first [discriminate E|injection E as ->; vm_compute; tauto]|]). destruct I.
Qed.

Lemma dangling_mention u n f its P t : parse u [n] = Ok f -> file_items u f (rf_types f) its -> In (P, t) (concat (map (mentions []) its)) ->
  ~ resolves u (namespaces n) (ns_prefix (rf_target_ns f)) (ns_prefix (rf_xsd_ns f)) (concat (map (introduces []) its)) P t -> ~ all_resolved u n.
Proof. intros H I M N X. apply N. exact (X f its H I P t M). Qed.
Lemma with_conditions (n : node) (Q : Prop) : (document [n] n /\ ok_schema n /\ tidy n /\ not_self_derived n) -> Q -> document [n] n /\ ok_schema n /\ tidy n /\ not_self_derived n /\ Q.
Proof. tauto. Qed.
(** An element with a type attribute and without documentation introduces no type: the alias
    is commented out.  A reference to it is left dangling. *)
Theorem C63_alias_refuted : forall u, exists n, document [n] n /\ ok_schema n /\ tidy n /\ not_self_derived n /\ declared_references n /\ ~ all_resolved u n.
Proof.
  intros u. exists (sch [typed "a" "xs:int"; cty "T" [seq [el "element" [("ref", "tt:a")] []]]]).
  apply with_conditions; [conditions; split; [reflexivity|]; cbn [sch children]; solve_ok|]. split; [apply declared_refsb_ok; vm_compute; reflexivity|].
  eapply dangling_mention.
  - vm_compute. reflexivity.
  - cbn [rf_types]. repeat econstructor. intros (d & ? & ? & ? & ? & _). discriminate.
  - vm_compute. left. reflexivity.
  - intros (c & W & R). apply within_word in W. subst c. destruct R as [(s & I & E)|[(ns & p & w & _ & _ & _ & _ & _ & E)|S]].
    + apply (library_word u s _ I) in E. vm_compute in E. repeat (destruct E as [E|E]; [discriminate E|]). destruct E.
    + vm_compute in E. discriminate E.
    + inversion S as [w p q Ep I Ew|m w I Ew]; try (vm_compute in Ew; discriminate Ew). vm_compute in I. destruct I as [I|[]]. discriminate I.
Qed.
Print Assumptions C63_alias_refuted.
(** The choice in an anonymous complex type is an enum renamed to the type of the element; the
    field that holds the choice refers to it under its old name. *)
Theorem C63_anonymous_choice_refuted : forall u, exists n, document [n] n /\ ok_schema n /\ tidy n /\ not_self_derived n /\ declared_references n /\ ~ all_resolved u n.
Proof.
  intros u. exists (sch [cty "T" [seq [anon "e" [el "choice" [] [typed "a" "xs:int"; typed "b" "xs:int"]]]]]).
  apply with_conditions; [conditions; split; [reflexivity|]; cbn [sch children]; solve_ok|]. split; [apply declared_refsb_ok; vm_compute; reflexivity|].
  eapply dangling_mention.
  - vm_compute. reflexivity.
  - cbn [rf_types]. repeat econstructor.
  - vm_compute. do 4 right. left. reflexivity.
  - intros (c & W & R). apply within_word in W. subst c. destruct R as [(s & I & E)|[(ns & p & w & _ & _ & _ & _ & _ & E)|S]].
    + apply (library_word u s _ I) in E. vm_compute in E. repeat (destruct E as [E|E]; [discriminate E|]). destruct E.
    + vm_compute in E. discriminate E.
    + inversion S as [w p q Ep I Ew|m w I Ew]; try (vm_compute in Ew; discriminate Ew). vm_compute in I. repeat (destruct I as [I|I]; [discriminate I|]). destruct I.
Qed.
Print Assumptions C63_anonymous_choice_refuted.
(** The list of an anonymous union has no item type. *)
Theorem C63_list_refuted : forall u, exists n, document [n] n /\ ok_schema n /\ tidy n /\ not_self_derived n /\ declared_references n /\ ~ all_resolved u n.
Proof.
  intros u. exists (sch [el "simpleType" [("name", "S")] [el "list" [] [el "simpleType" [] [el "union" [] [el "simpleType" [] [el "list" [("itemType", "xs:int")] []]]]]]]).
  apply with_conditions.
  { conditions. split; [reflexivity|]. constructor; [|constructor]. do 2 right. left.
    eapply ok_global_simple; [t1|t1|solve_ok|]. right. left. eapply ok_list_nested; [t1|t1|solve_ok|].
    eapply ok_local_simple; [t1|t1|solve_ok|]. do 2 right. apply ok_union; [t1|]. constructor; [|constructor]. right.
    eapply ok_local_simple; [t1|t1|solve_ok|]. right. left. apply ok_list_typed; t1. }
  split; [apply declared_refsb_ok; vm_compute; reflexivity|].
  eapply dangling_mention.
  - vm_compute. reflexivity.
  - cbn [rf_types]. repeat econstructor.
  - vm_compute. left. reflexivity.
  - intros (c & W & R).
    assert (E : c = [TWord (lit "Vec"); TPunct 60; TPunct 62] \/ c = []).
    { apply within_inv in W as [E|(t & [E|E] & W)]; [left; exact E| |vm_compute in E; discriminate E].
      destruct t as [|a [|b t]]; vm_compute in E; try discriminate E. right. apply within_none in W. auto. }
    destruct R as [(s & I & Es)|[(ns & p & w & _ & _ & _ & _ & _ & Ef)|S]].
    + cbn [library_types In] in I. destruct E as [-> | ->]; repeat (destruct I as [<-|I]; [vm_compute in Es; discriminate Es|]); destruct I.
    + destruct E as [-> | ->]; vm_compute in Ef; discriminate Ef.
    + destruct E as [-> | ->]; inversion S as [w p q Ep I Ew|m w I Ew]; try (vm_compute in Ew; discriminate Ew).
Qed.
Print Assumptions C63_list_refuted.

(** An order with a nested anonymous type, a reference to a documented element, a base type, an
    attribute of an enumerated type, a list, a union and a type of another namespace. *)
Definition order : node := sch
  [ el "element" [("name", "note"); ("type", "xs:string")] [el "annotation" [] [el "documentation" [] [Text (lit "A remark")]]];
    named_string "Colour" [el "enumeration" [("value", "red")] []];
    el "simpleType" [("name", "Sizes")] [el "list" [("itemType", "xs:int")] []];
    el "simpleType" [("name", "Any")] [el "union" [("memberTypes", "tt:Colour tt:Sizes")] []];
    cty "Base" [seq [typed "id" "xs:unsignedInt"; el "element" [("ref", "tt:note"); ("maxOccurs", "unbounded")] []]];
    cty "Order" [ext "tt:Base" [seq [anon "line" [seq [typed "what" "tt:Any"; typed "price" "xs:decimal"; typed "place" "oo:Address"; typed "sub" "tt:Order"]]]]] ].
Lemma enum_ok nm cs : Forall (fun c => exists f, facet_of c f) cs -> ok GlobalSimple (named_string nm cs).
Proof.
  intros F. eapply ok_global_simple; [t1|t1|exists [], []; repeat split; try discriminate; constructor|]. left. apply ok_simple_restriction; [t1|t1|].
  cbn [children el]. eapply Forall_impl; [|exact F]. auto.
Qed.
Example C63_ex1 : document [order] order /\ ok_schema order /\ tidy order /\ not_self_derived order /\
  forall x, part x order -> orderly u2 order (Some (lit "tt")) (Some (lit "xs")) x.
Proof.
  apply with_conditions; [|apply orderly_check; vm_compute; reflexivity]. conditions. split; [reflexivity|]. cbn [order sch children].
  constructor; [solve_ok|]. constructor; [do 2 right; left; apply enum_ok; constructor; [eexists; constructor; reflexivity|constructor]|].
  constructor; [do 2 right; left; eapply ok_global_simple; [t1|t1|solve_ok|]; right; left; apply ok_list_typed; t1|].
  constructor; [do 2 right; left; eapply ok_global_simple; [t1|t1|solve_ok|]; do 2 right; apply ok_union; [t1|constructor]|].
  solve_ok.
Qed.
Example C63_ex2 : exists f its, parse u2 [order] = Ok f /\ ns_prefix (rf_target_ns f) = Some (lit "tt") /\ ns_prefix (rf_xsd_ns f) = Some (lit "xs") /\
  file_items u2 f (rf_types f) its /\
  concat (map (mentions []) its) = map (fun '(p, t) => (map lit p, rust u2 t))
    [([], "String"); ([], "String"); ([], "Vec<i32>"); ([], "Colour"); ([], "Sizes"); ([], "String"); ([], "u32"); ([], "Vec<Note>");
     ([], "order::LineType"); ([], "u32"); ([], "Vec<Note>");
     (["order"], "Any"); (["order"], "xs::Decimal"); (["order"], "oo::Address"); (["order"], "Order")] /\
  concat (map (introduces []) its) = map (fun '(p, t) => (map lit p, rust u2 t))
    [([], "Note"); ([], "Colour"); ([], "Sizes"); ([], "Any"); ([], "Base"); ([], "Order"); (["order"], "LineType")].
Proof.
  eexists. eexists. split; [vm_compute; reflexivity|]. split; [reflexivity|]. split; [reflexivity|]. split.
  - cbn [rf_types]. apply all_cons; [apply items_documented_alias, documented_words; vm_compute; discriminate|]. repeat econstructor.
  - split; vm_compute; reflexivity.
Qed.
