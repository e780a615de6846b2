(** Proofs about traits: generated code provides the capabilities it demands. *)
From Coq Require Import Arith NArith ZArith Bool Ascii String List Lia.
From Verif Require Import Str StrFacts SpecLex SpecNames SpecBuiltin SpecSerde SerdeProofs Xml Comment CommentProofs Names NamesProofs Entity Parser ParserFacts SpecSchema ParserProofs Link SpecLink LinkProofs Gen SpecRust SpecGen RustFacts GenProofs GenProofs2 SpecDoc DocProofs SpecScope ScopeProofs SpecTraits.
Import ListNotations.
Local Open Scope string_scope.
Local Open Scope list_scope.
Local Open Scope N_scope.
Notation concat := List.concat.
Arguments lit : simpl never.
Lemma and_iff_compat_both (A B C D : Prop) : (A <-> C) -> (B <-> D) -> (A /\ B <-> C /\ D).
Proof. tauto. Qed.

(** Whether a restriction is an enumeration can be decided. *)
Definition plain_valueb (u : uni) (v : str) : bool := negb (is_empty v) && forallb (fun c => is_alphanumeric u c || (c =? 45)) v.
Lemma plain_valueb_iff u v : plain_valueb u v = true <-> plain_value u v.
Proof.
  unfold plain_valueb, plain_value. rewrite andb_true_iff, forallb_forall. apply and_iff_compat_both.
  - destruct v; cbn; split; congruence.
  - split; intros H c I; specialize (H c I); [apply orb_true_iff in H as [H|H]; [auto|right; lia]|apply orb_true_iff; destruct H as [H| ->]; auto].
Qed.
Definition plain_enumerationb (u : uni) (n : node) : bool :=
  negb (is_empty (tagged_children ["enumeration"] n)) &&
  forallb (fun c => match attribute c (lit "value") with Some v => plain_valueb u v | None => false end) (tagged_children ["enumeration"] n).
Lemma plain_enumerationb_iff u n : plain_enumerationb u n = true <-> plain_enumeration u n.
Proof.
  unfold plain_enumerationb, plain_enumeration. rewrite andb_true_iff, forallb_forall. generalize (tagged_children ["enumeration"] n). intros l.
  apply and_iff_compat_both.
  - destruct l as [|c l]; cbn; split; try discriminate; [intros (c & []) | intros _; exists c; left; auto|auto].
  - split; intros H c I; specialize (H c I).
    + destruct (attribute c (lit "value")) as [v|] eqn:E; [|discriminate]. exists v. split; auto. apply plain_valueb_iff. auto.
    + destruct H as (v & E & V). unfold has in E. rewrite E. apply plain_valueb_iff. auto.
Qed.
Lemma classic_enumeration u n : plain_enumeration u n \/ ~ plain_enumeration u n.
Proof. rewrite <- plain_enumerationb_iff. destruct (plain_enumerationb u n); [left; auto|right; discriminate]. Qed.

(** ** Entities fit for use *)
Definition bound_facet (f : facet_type) : Prop :=
  match f with FMaxExclusive _ | FMaxInclusive _ | FMinExclusive _ | FMinInclusive _ => True | _ => False end.
Definition length_facet (f : facet_type) : Prop :=
  match f with FLength _ | FMaxLength _ | FMinLength _ => True | _ => False end.
Section Fit.
Context (u : uni) (schema : node) (own xsd : option str).
Notation known := (known schema own xsd).
Notation scalar := (scalar u schema own xsd).
Notation to_builtin := (to_builtin xsd).
Notation to_other := (to_other schema own xsd).
Notation practical := (practical u schema own xsd).
Definition tuple_fit (q : str) (ms : list modifier) (fs : list facet) : Prop :=
  known q /\
  (ms = [] /\ (scalar q \/ to_builtin q (fun s => s = STexts)) /\
     (forall f, In f fs -> bound_facet (fa_type f) -> to_builtin q ordered_space \/ to_other q) /\
     (forall f, In f fs -> length_facet (fa_type f) -> to_builtin q (fun s => text_space s \/ s = STexts) \/ to_other q) \/
   ms = [MArray] /\ scalar q /\ forall f, In f fs -> ~ bound_facet (fa_type f)).
Inductive fit : entity -> Prop :=
| fit_struct s : Forall (fun f => Forall fit (fl_subtypes f)) (st_fields s) -> Forall fit (st_subtypes s) -> fit (EStruct s)
| fit_tuple t : tu_subtypes t = [] -> tuple_fit (tu_type t) (tu_mods t) (tu_facets t) -> fit (ETuple t)
| fit_enum n : en_source n <> OfUnion -> en_type n = lit "String" \/ known (en_type n) /\ to_builtin (en_type n) text_space ->
    Forall fit (en_subtypes n) -> fit (EEnum n).
Definition fits (f : field entity) : Prop := Forall fit (fl_subtypes f).
Definition outcome (e : entity) : Prop :=
  match e with EField f => fits f | ECase _ | EAlias _ | EImport _ => True | _ => fit e end.
Definition good (x : node) : Prop := tidy_element x /\ (forall q, referring x q -> known q) /\ practical x.
Definition good_kids (ks : list kid) : Prop := forall k e, In k ks -> snd k = Ok e -> outcome e.
(** What the parent says of a restriction. *)
Definition under (n : node) (anc : list node) : Prop :=
  match anc with p :: _ => tag "simpleType" p -> tag "restriction" n -> practical_restriction u schema own xsd n | [] => True end.

Lemma set_name_outcome nm e : outcome e -> outcome (set_name nm e).
Proof. destruct e; cbn; auto; intros H; inversion H; subst; constructor; auto. Qed.
Lemma set_comment_outcome c e : outcome e -> outcome (set_comment c e).
Proof. destruct e; cbn; auto; intros H; inversion H; subst; constructor; auto. Qed.
Lemma outcome_fit e : typelike e -> outcome e -> fit e.
Proof. destruct e; cbn; intros []; auto. Qed.
Lemma attributes_fit u' n anc fs : good_kids (kids u' n anc) -> attributes_to_fields (n :: anc) (kids u' n anc) = Ok fs -> Forall fits fs.
Proof.
  intros G H. unfold attributes_to_fields in H. bo H l Hl. apply rmapm_ok in H. apply Forall_forall. intros f I.
  destruct (Forall2_in_r _ _ _ _ H I) as (k & Ik & Hk). bo Hk e He. destruct e; try discriminate. injection Hk as <-. exact (G k _ (rfilter_in _ _ _ _ Hl Ik) He).
Qed.
Lemma sequence_fit n anc ks e : good_kids ks -> parse_sequence n anc ks = Ok e -> outcome e.
Proof.
  intros G H. unfold parse_sequence in H. bo H nm Hn. bo H fs Hf. injection H as <-. constructor; cbn; auto.
  unfold elements_to_fields in Hf. bo Hf l Hl. apply rmapm_ok in Hf. apply Forall_forall. intros f I.
  destruct (Forall2_in_r _ _ _ _ Hf I) as (k & Ik & Hk). bo Hk x Hx. assert (F := G k _ (rfilter_in _ _ _ _ Hl Ik) Hx).
  unfold to_field in Hk. destruct x; try discriminate; injection Hk as <-.
  - cbn in F. destruct (ends_with nm (fl_type f0)); auto.
  - cbn in F. inversion F; subst. constructor; [|constructor]. constructor; auto.
Qed.
Lemma choice_fit n anc ks e : parse_choice n anc ks = Ok e -> outcome e.
Proof.
  intros H. unfold parse_choice in H. bo H l Hl. bo H cs Hc. injection H as <-. constructor; cbn; auto. discriminate.
Qed.
Lemma complex_fit n anc e : good_kids (kids u n anc) -> parse_complex_type n anc (kids u n anc) = Ok e -> outcome e.
Proof.
  intros G H. unfold parse_complex_type in H. bo H pt Hp. bo H nm Hn. bo H fs Hf. bo H l Hl. cbv zeta in H.
  assert (Fa := attributes_fit _ _ _ _ G Hf).
  assert (X : forall e, bind (attribute_groups_to_aliases (n :: anc) (kids u n anc)) (fun groups => Ok (EStruct {| st_name := nm; st_comment := get_documentation n;
     st_fields := fs; st_groups := groups; st_subtypes := [] |})) = Ok e -> outcome e).
  { intros e' H'. bo H' gs Hg. injection H' as <-. constructor; cbn; auto. }
  destruct (last_opt l) as [k|] eqn:Lk; [|auto]. destruct (existsb is_element (children (fst k))) eqn:Ex; [|auto]. bo H x Hx.
  assert (Ik := last_opt_in _ _ Lk). assert (O := G k x (rfilter_in _ _ _ _ Hl Ik) Hx).
  unfold finish_complex in H. destruct x; try (injection H as <-; exact O).
  - injection H as <-. cbn in *. inversion O; subst. constructor; cbn; auto. apply Forall_app. auto.
  - cbv zeta in H. bo H gs Hg. injection H as <-. cbn in *. inversion O; subst. constructor; cbn; auto.
    constructor; [|constructor]. constructor; cbn; auto. apply Forall_app. split; auto. constructor; [constructor|constructor].
Qed.
Lemma derivation_fit kinds n anc e : good_kids (kids u n anc) -> complex_derivation kinds n anc (kids u n anc) = Ok e -> outcome e.
Proof.
  intros G H. unfold complex_derivation in H. bo H b Hb. bo H fs Hf. cbv zeta in H. bo H l Hl.
  assert (Fa := attributes_fit _ _ _ _ G Hf).
  assert (Fb : Forall fits (fs ++ [base_field n b])) by (apply Forall_app; split; auto; constructor; [constructor|constructor]).
  assert (X : forall e, bind (attribute_groups_to_aliases (n :: anc) (kids u n anc)) (fun groups => Ok (EStruct {| st_name := []; st_comment := get_documentation n;
     st_fields := fs ++ [base_field n b]; st_groups := groups; st_subtypes := [] |})) = Ok e -> outcome e).
  { intros e' H'. bo H' gs Hg. injection H' as <-. constructor; cbn; auto. }
  destruct (last_opt l) as [k|] eqn:Lk; [|auto]. bo H x Hx. apply last_opt_in in Lk.
  assert (F := G k x (rfilter_in _ _ _ _ Hl Lk) Hx).
  destruct x; auto. injection H as <-. cbn in F. inversion F; subst. constructor; cbn; auto. apply Forall_app. auto.
Qed.
Lemma field_fit n anc e : (forall x, part x n -> good x) -> good_kids (kids u n anc) -> parse_field_of_sequence n anc (kids u n anc) = Ok e -> outcome e.
Proof.
  intros P G H. unfold parse_field_of_sequence in H. cbv zeta in H. destruct (_ || _); [injection H as <-; constructor|].
  bo H l Hl. bo H k Hk. apply expect_ok, last_opt_in in Hk. bo H x Hx. injection H as <-.
  destruct (nodes_sat _ _ _ _ _ Hl Hk) as (t & Ht & Oo). assert (Ik := rfilter_in _ _ _ _ Hl Hk). assert (Ox := G k x Ik Hx).
  destruct (kids_in u n anc k Ik) as [Ic Ek]. assert (Tk : one ["simpleType"; "complexType"] (fst k)) by (eapply one_of_tags; [|eauto|exact Oo]; reflexivity).
  assert (Ty : typelike x).
  { rewrite Ek in Hx. assert (Tp : forall y, part y (fst k) -> tidy_element y) by (intros y Py; apply P; eapply part_type; eauto).
    destruct Tk as (s & [<-|[<-|[]]] & T); [eapply simple_typelike; eauto; apply Tp; constructor|eapply complex_typelike; eauto]. }
  constructor; [|constructor]. apply outcome_fit; [apply typelike_set; auto|]. apply set_name_outcome. auto.
Qed.
Lemma element_fit n anc e : (forall x, part x n -> good x) -> good_kids (kids u n anc) -> parse_element n anc (kids u n anc) = Ok e -> outcome e.
Proof.
  intros P G H. unfold parse_element in H. bo H pt Hp.
  assert (Df : Ok (element_default n) = Ok e -> outcome e) by (intros [= <-]; exact Logic.I).
  destruct pt as [k| | | | |]; auto. destruct k; auto; try (eapply field_fit; eauto; fail).
  - injection H as <-. unfold parse_case_of_choice. destruct (attr_ref n); exact Logic.I.
  - unfold parse_global_element in H. bo H nm Hn. destruct (attr_type n); [injection H as <-; exact Logic.I|]. bo H l Hl.
    destruct (last_opt l) as [k|] eqn:Lk; [|injection H as <-; constructor; cbn; auto].
    apply rmap_iff in H as (x & Hx & <-). apply last_opt_in in Lk. apply set_name_outcome. eapply G; eauto. eapply rfilter_in; eauto.
Qed.
Lemma attribute_fit n anc e : good_kids (kids u n anc) -> parse_attribute n anc (kids u n anc) = Ok e -> outcome e.
Proof.
  intros G H. unfold parse_attribute in H. bo H pt Hp. destruct (is_kind KSchema pt).
  - unfold parse_global_attribute in H. destruct (attr_ref n); [injection H as <-; exact Logic.I|]. bo H nm Hn.
    destruct (attr_type n); [injection H as <-; exact Logic.I|]. bo H l Hl.
    destruct (last_opt l) as [k|] eqn:Lk; [|injection H as <-; constructor; cbn; auto].
    apply rmap_iff in H as (x & Hx & <-). apply last_opt_in in Lk. apply set_name_outcome. eapply G; eauto. eapply rfilter_in; eauto.
  - bo H nm Hn. bo H us Hu. injection H as <-. constructor.
Qed.
Lemma group_fit n anc e : good_kids (kids u n anc) -> parse_attribute_group n anc (kids u n anc) = Ok e -> outcome e.
Proof.
  intros G H. unfold parse_attribute_group in H. bo H pt Hp. destruct (is_kind KSchema pt).
  - bo H nm Hn. bo H fs Hf. injection H as <-. assert (Fa := attributes_fit _ _ _ _ G Hf). constructor; cbn; auto.
  - bo H nm Hn. injection H as <-. exact Logic.I.
Qed.

(** The facets of a restriction come from its children. *)
Lemma facet_nodes n (fs : list facet) f : Forall2 SpecSchema.facet_ok (tagged_children facet_names n) fs -> In f fs ->
  (bound_facet (fa_type f) -> bounded n) /\ (length_facet (fa_type f) -> measured n).
Proof.
  intros F I. destruct (Forall2_in_r _ _ _ _ F I) as (c & Ic & [Fc _]). unfold tagged_children in Ic. apply filter_In in Ic as [Ic _].
  split; intros X; exists c; (split; [exact Ic|]); inversion Fc as [? ? T|? ? T|? ? T|? ? T|? ? T|? ? T|? ? T|? ? T|? ? T|? ? T|? ? T|? T|? T|? T]; subst;
    match goal with E : _ = fa_type f |- _ => rewrite <- E in X end; cbn in X; try destruct X; eexists; (split; [|exact T]); cbn; auto.
Qed.
Lemma restriction_fit n p anc e : tag "restriction" n -> tag "simpleType" p -> good n -> under n (p :: anc) -> parse_node u n (p :: anc) = Ok e -> outcome e.
Proof.
  intros T Tp (_ & Kn & _) U H. destruct (restriction_ok _ _ _ _ _ T Tp H) as (b & Hb & R1 & R2). destruct (U Tp T b Hb) as [U1 U2].
  assert (Kb : known b) by (apply Kn; right; left; exact Hb).
  destruct (classic_enumeration u n) as [E|E].
  - destruct (R1 E) as (P & en & -> & _ & _ & Et & Es & Ess & _). constructor; rewrite ?Et, ?Es, ?Ess; auto. discriminate.
  - destruct (R2 E) as (t & -> & Et & Em & Es & Fs). destruct (U2 E) as (Sc & Bo & Me). constructor; auto. rewrite Et, Em. split; auto. left. split; auto. split; auto.
    split; intros f I X; destruct (facet_nodes _ _ _ Fs I); auto.
Qed.
Lemma list_fit n anc e : (forall x, part x n -> good x) -> tag "list" n -> parse_node u n anc = Ok e -> outcome e.
Proof.
  intros P T H. destruct (P n (part_self n)) as (_ & Kn & _ & Pl & _). destruct (Pl T) as [Pi Pa]. destruct (list_ok _ _ _ _ T H) as (t & -> & L1 & L2).
  destruct (attribute n (lit "itemType")) as [it|] eqn:I.
  - destruct (L1 it I) as (Et & Em & Es & Ef). constructor; auto. rewrite Et, Em, Ef. split; [apply Kn; right; right; left; exact I|]. right. split; auto.
  - destruct (L2 I) as (c & ec & Fc & Hc & R). assert (Fc' := Fc). destruct Fc as (l & r & Ec & Tc & _).
    assert (Ic : In c (children n)) by (rewrite Ec; apply in_or_app; right; left; auto).
    assert (Pc : forall y, part y c -> good y) by (intros y Py; apply P; eapply part_type; eauto; eexists; split; [left; reflexivity|exact Tc]).
    destruct (simple_type_ok _ _ _ _ _ Tc Hc) as (k & e0 & Fk & Hk & S). destruct (Pa I c k Fc' Fk) as (Tk & Nk & Bk & Sk).
    destruct (restriction_ok _ _ _ _ _ Tk Tc Hk) as (b & Hb & _ & R2). destruct (R2 Nk) as (t0 & -> & Et & Em & Es & Fs).
    assert (Kb : known b) by (apply (Pc k); [eapply particle_part; [apply final_in; exact Fk|constructor]|right; left; exact Hb]).
    assert (X : exists t1, ec = ETuple t1 /\ tu_type t1 = b /\ tu_mods t1 = [] /\ tu_subtypes t1 = [] /\ tu_facets t1 = tu_facets t0).
    { destruct S as [[_ (nm & _ & ->)]|(_ & _ & ->)]; eexists; (split; [reflexivity|]); auto. }
    destruct X as (t1 & -> & E1 & E2 & E3 & E4). destruct R as [(en & X & _)|(t2 & [= <-] & Y1 & Y2 & Y3 & Y4)]; [discriminate|].
    constructor; [congruence|]. rewrite Y1, Y2, Y4, E1, E2, E4. split; auto. right. split; auto. split; auto. intros f If Bf. destruct (facet_nodes _ _ _ Fs If); auto.
Qed.
Lemma simple_restriction_parent n anc : xsd_type n anc = Ok (TRestriction RSimpleType) -> exists p anc', anc = p :: anc' /\ tag "restriction" n /\ tag "simpleType" p.
Proof.
  unfold xsd_type, attr_value. cbv zeta. generalize (assoc (tag_name n) kind_tags) (assoc (tag_name n) facet_tags). intros o1 o2. destruct o1; [discriminate|].
  destruct (str_eqb (tag_name n) (lit "extension")).
  { unfold extension_of. destruct anc as [|p anc]; [discriminate|]. destruct (str_eqb _ _); [discriminate|]. destruct (str_eqb _ _); discriminate. }
  destruct (str_eqb (tag_name n) (lit "restriction")) eqn:E.
  { apply str_eqb_eq in E. unfold restriction_of. destruct anc as [|p anc]; [discriminate|]. destruct (str_eqb _ _); [discriminate|]. destruct (str_eqb _ _); [discriminate|].
    destruct (str_eqb (tag_name p) (lit "simpleType")) eqn:F; [|discriminate]. apply str_eqb_eq in F. intros _. exists p, anc. split; [reflexivity|]. split; [exact E|exact F]. }
  destruct (str_eqb _ (lit "whiteSpace")).
  { unfold white_space_of, attr_value. destruct (attribute n (lit "value")) as [v|]; [|discriminate]. destruct (str_eqb v (lit "preserve")); [discriminate|].
    destruct (str_eqb v (lit "replace")); [discriminate|]. destruct (str_eqb v (lit "collapse")); discriminate. }
  destruct o2; [|discriminate]. destruct (attribute n (lit "value")); discriminate.
Qed.
Lemma step_fit n anc e : (forall x, part x n -> good x) -> under n anc -> good_kids (kids u n anc) -> parse_node u n anc = Ok e -> outcome e.
Proof.
  intros P U G H0. assert (Fn := P n (part_self n)). assert (H := H0). rewrite parse_node_eq in H. unfold parse_step in H. bo H t Ht.
  destruct t as [k|x|r|f| |]; try discriminate.
  - assert (Tk := kind_tag _ _ _ Ht). destruct k; try discriminate.
    + eapply sequence_fit; eauto.
    + injection H as <-. constructor.
    + injection H as <-. constructor.
    + eapply attribute_fit; eauto.
    + eapply group_fit; eauto.
    + eapply choice_fit; eauto.
    + unfold parse_content in H. bo H l Hl. bo H k Hk. apply expect_ok, last_opt_in in Hk. eapply G; eauto. eapply rfilter_in; eauto.
    + eapply complex_fit; eauto.
    + eapply element_fit; eauto.
    + injection H as <-. exact Logic.I.
    + injection H as <-. exact Logic.I.
    + eapply list_fit; eauto.
    + eapply sequence_fit; eauto.
    + unfold parse_content in H. bo H l Hl. bo H k Hk. apply expect_ok, last_opt_in in Hk. eapply G; eauto. eapply rfilter_in; eauto.
    + unfold parse_simple_type in H. cbv zeta in H. bo H pt Hp. destruct (negb _); [discriminate|]. bo H l Hl. bo H k Hk.
      apply expect_ok, last_opt_in in Hk. bo H x Hx. injection H as <-. apply set_comment_outcome.
      assert (Ox := G k x (rfilter_in _ _ _ _ Hl Hk) Hx). destruct (attr_name n); auto. apply set_name_outcome. auto.
    + exfalso. apply Fn. exact Tk.
  - destruct x; cbn in H; [eapply derivation_fit; eauto|]. unfold simple_content_extension in H. bo H b Hb. bo H fs Hf. bo H gs Hg. injection H as <-.
    assert (Fa := attributes_fit _ _ _ _ G Hf). constructor; cbn; auto. apply Forall_app. split; auto. constructor; constructor.
  - destruct r; cbn in H; [eapply derivation_fit; eauto|discriminate|].
    destruct (simple_restriction_parent _ _ Ht) as (p & anc' & -> & Tn & Tp). eapply restriction_fit; eauto.
Qed.
Lemma node_fit n : forall anc e, (forall x, part x n -> good x) -> under n anc -> parse_node u n anc = Ok e -> outcome e.
Proof.
  induction n as [t a ns cs IH|s|] using node_tree_ind; intros anc e P A H; (eapply step_fit; [exact P|exact A| |exact H]).
  - intros k x I Hx. unfold kids in I. apply in_map_iff in I as (c & <- & Ic). cbn [fst snd children] in *.
    rewrite Forall_forall in IH. apply (IH c Ic (Elem t a ns cs :: anc) x); auto.
    + intros y Py. apply P. eapply part_child; eauto. intros T. rewrite parse_node_eq in Hx. unfold parse_step in Hx. unfold tag in T.
      rewrite (xsd_kind c _ KAnnotation) in Hx by exact T. discriminate.
    + cbn. intros Tp Tc. destruct (P _ (part_self _)) as (_ & _ & _ & _ & Pr & _). apply Pr; auto.
  - intros k x [].
  - intros k x [].
Qed.

(** ** Declarations and linking *)
Definition alias_target (q : str) : Prop := to_builtin q (fun _ => True) \/ to_other q \/ exists l, to_own own xsd q l /\ some_type schema l.
Definition top (e : entity) : Prop :=
  fit e \/ (exists a, e = EAlias a /\ (SpecGen.documented (al_comment a) -> known (al_original a) /\ alias_target (al_original a))) \/ exists i, e = EImport i.
End Fit.

Section Parsed.
Context (u : uni) (schema : node) (tns xsd : option namespace).
Notation own := (ns_prefix tns).
Notation xs := (ns_prefix xsd).
Notation fit := (fit u schema own xs).
Notation fits := (fits u schema own xs).
Notation top := (top u schema own xs).
Notation good := (good u schema own xs).
Notation practical := (practical u schema own xs).
Definition prepared (x : node) : Prop := ScopeProofs.good u schema tns xsd x /\ practical x.
Lemma prepared_good x : prepared x -> good x.
Proof. intros [[T (R & _)] P]. split; auto. Qed.
Lemma under_schema n c : tag "schema" n -> under u schema own xs c [n].
Proof. intros T T'. unfold tag in *. rewrite T in T'. discriminate. Qed.
Lemma declaration_fit n c e : ok_schema n -> (forall x, part x n -> prepared x) -> In c (declarations n) -> parse_node u c [n] = Ok e -> top e.
Proof.
  intros O P Ic H. destruct (in_declarations _ _ Ic) as (I & E & N & NG).
  assert (Pc : forall x, part x c -> prepared x) by (intros x Px; apply P; eapply part_child; eauto).
  assert (R : outcome u schema own xs e) by (apply (node_fit u schema own xs c [n]); auto; [intros x Px; apply prepared_good; auto|apply under_schema, O]).
  destruct (declared_tags _ _ O I E N) as (t & It & Tt). cbn in It.
  assert (GL : In t ["element"; "attribute"] -> top e).
  { intros X. assert (Oc : one ["element"; "attribute"] c) by (exists t; auto).
    destruct (global_typelike u schema tns xsd n c e (proj1 O)) as [Y|(a & -> & Ka & Ha & Ca & _)]; auto; [intros x Px; apply Pc; auto|left; apply outcome_fit; auto|].
    right. left. exists a. split; auto. intros D. destruct (proj2 (P n (part_self n))) as (_ & _ & _ & Al).
    rewrite Ca in D. assert (D' := D). destruct D' as (d & ps & r & w & Ed & _). rewrite Ed in D. apply documented_iff in Ed.
    split; [|exact (Al (proj1 O) c d _ I Oc Ed D Ha)].
    destruct (Pc c (part_self c)) as [[_ (Rf & _)] _]. apply Rf. left. split; [exact Oc|exact Ha]. }
  assert (TT : In t ["simpleType"; "complexType"] -> top e).
  { intros X. left. apply outcome_fit; auto. eapply (type_typelike u schema tns xsd); eauto; [intros x Px; apply Pc; auto|exists t; auto]. }
  destruct It as [<-|[<-|[<-|[<-|[<-|[<-|[<-|[]]]]]]]]; try (apply GL; cbn; auto; fail); try (apply TT; cbn; auto; fail).
  - rewrite (step_kind u c _ KImport) in H by exact Tt. injection H as <-. right. right. eexists. reflexivity.
  - rewrite (step_kind u c _ KInclude) in H by exact Tt. injection H as <-. right. right. eexists. reflexivity.
Qed.
Definition linkable (e : entity) : Prop := match e with EStruct s => fit (EStruct s) | _ => True end.
Lemma file_fit n f : ok_schema n -> (forall x, part x n -> prepared x) -> parse_schema u n [] = Ok f -> Forall top (rf_types f) /\ Forall linkable (top_level f).
Proof.
  intros O P H. destruct (schema_inv _ _ _ _ H) as (_ & H1 & H2 & _).
  assert (X : forall c e, In c (children n) -> ~ tag "annotation" c -> parse_node u c [n] = Ok e -> linkable e).
  { intros c e I N Hc. assert (R : outcome u schema own xs e).
    { apply (node_fit u schema own xs c [n]); auto; [|apply under_schema, O]. intros x Px. apply prepared_good, P. eapply part_child; eauto. }
    destruct e; try exact Logic.I. exact R. }
  split; [|apply Forall_app; split]; apply Forall_forall; intros e Ie.
  - destruct (Forall2_in_r _ _ _ _ H1 Ie) as (c & Ic & Hc). eapply declaration_fit; eauto.
  - destruct (Forall2_in_r _ _ _ _ H1 Ie) as (c & Ic & Hc). apply in_declarations in Ic as (I & E & N & _). eauto.
  - destruct (Forall2_in_r _ _ _ _ H2 Ie) as (c & Ic & Hc). apply in_tagged in Ic as [I (t & [<-|[]] & Tc)]. eapply X; eauto. unfold tag in *. rewrite Tc. discriminate.
Qed.

Lemma assembled_fit (S : str -> list (field entity) -> Prop) own' out : (forall q c, S q c -> Forall fits c) ->
  Forall fits own' -> assembled S own' out -> Forall fits out.
Proof.
  intros HP Ho (cs & F & ->). apply Forall_app. split.
  - apply Forall_forall. intros f I. apply in_proper in I as [I _]. rewrite Forall_forall in Ho. auto.
  - apply Forall_forall. intros f I. apply in_not_redeclared in I as [I _]. destruct (in_concat_2 _ _ _ _ F I) as (b & c & _ & H & Ic).
    apply HP in H. rewrite Forall_forall in H. auto.
Qed.
Lemma same_fields_fit (R : entity -> entity -> Prop) fs gs :
  (forall f e e', In f fs -> In e (fl_subtypes f) -> R e e' -> fit e -> fit e') ->
  Forall fits fs -> Forall2 (same_field R) fs gs -> Forall fits gs.
Proof.
  intros HR F H. apply Forall_forall. intros g I. destruct (Forall2_in_r _ _ _ _ H I) as (f & If & (E1 & E2 & _ & _ & _ & Hs)).
  rewrite Forall_forall in F. assert (D := F f If). unfold TraitProofs.fits in *. apply Forall_forall. intros e' Ie.
  destruct (Forall2_in_r _ _ _ _ Hs Ie) as (e & Ie' & Re). rewrite Forall_forall in D. eauto.
Qed.
Lemma completed_fit (S : str -> list (field entity) -> Prop) e : (forall q c, S q c -> Forall fits c) ->
  forall e', completed S e e' -> fit e -> fit e'.
Proof.
  intros HP. induction e as [s IHf IHs|t IH|n IH|f|c|a|i] using entity_sub_ind; intros e' C D; inversion C; subst; auto.
  inversion D; subst. match goal with X : same_struct _ _ |- _ => destruct X as (E1 & E2 & E3 & E4) end. constructor; [|rewrite ?E1, ?E2, ?E3, ?E4; congruence].
  eapply assembled_fit; [exact HP| |eassumption]. eapply same_fields_fit; [|eassumption|eassumption]. intros f e e' If Ie. eapply IHf; eauto.
Qed.
Lemma link_fit f f' : link f = Ok f' -> Forall top (rf_types f) -> Forall linkable (top_level f) -> Forall top (rf_types f').
Proof.
  intros L Tf D. destruct (link_ok _ _ L) as (Eg & _ & _ & Len & Other & Str).
  assert (G : forall i e, nth_error (rf_types f') i = Some e -> linkable e /\ top e).
  { induction i as [i IH] using (well_founded_induction lt_wf). intros e' He'.
    assert (Li : (i < List.length (rf_types f))%nat) by (rewrite <- Len; apply nth_error_Some; congruence).
    destruct (nth_error (rf_types f) i) as [e|] eqn:He; [|apply nth_error_None in He; lia].
    assert (De : linkable e). { rewrite Forall_forall in D. apply D. unfold top_level. apply in_or_app. left. eapply nth_error_In; eauto. }
    assert (Te : top e). { rewrite Forall_forall in Tf. apply Tf. eapply nth_error_In; eauto. }
    destruct e as [s|fl|t|n|c|a|im]; try (rewrite (Other i _ He) in He' by discriminate; injection He' as <-; auto; fail).
    destruct (Str i s He) as (t & Ht & own' & out & gs & Same & Ho & As & Hg & Ef). unfold struct_at in Ht. rewrite Ht in He'. injection He' as <-.
    assert (SD : forall q c, snapshot (top_level f) (top_level f') i q c -> Forall fits c).
    { intros q c [[_ ->]|(j & Rf & [(Lj & x & Hx & ->)|(Lj & x & Hx & ->)])]; [constructor| |].
      - unfold struct_at, top_level in Hx. rewrite nth_error_app1 in Hx by (rewrite Len; lia). apply IH in Hx; [|auto]. destruct Hx as [Hx _]. inversion Hx; auto.
      - apply nth_error_In in Hx. rewrite Forall_forall in D. apply D in Hx. inversion Hx; auto. }
    inversion De as [s' D2 D1| |]; subst. destruct Same as (E1 & E2 & E3 & E4).
    assert (Down : Forall fits own').
    { eapply same_fields_fit; [|exact D2|exact Ho]. intros f0 e e' _ _. apply completed_fit. exact SD. }
    assert (Dout : Forall fits out).
    { eapply assembled_fit; [|exact Down|exact As]. intros q c [X|[_ ->]]; [eauto|constructor]. }
    assert (Lt : fit (EStruct t)).
    { constructor; [|congruence]. rewrite Ef. apply Forall_app. split; auto. apply Forall_concat. apply Forall_forall. intros g Ig.
      destruct (Forall2_in_r _ _ _ _ Hg Ig) as (a & _ & [X|[_ ->]]); eauto. }
    split; [exact Lt|]. left. exact Lt. }
  apply Forall_forall. intros e I. apply In_nth_error in I as (i & Hi). apply (G i e Hi).
Qed.
End Parsed.

(** ** Items *)
Lemma item_nested_ind (P : item -> Prop) : (forall i, (forall m l, i <> IMod m l) -> P i) -> (forall m l, (forall i, In i l -> P i) -> P (IMod m l)) -> forall i, P i.
Proof.
  intros H0 H1. fix F 1. intros i. destruct i as [d a n fs|d a n t|d a n vs|n|n ks|m l|d n t|w]; try (apply H0; discriminate).
  apply H1. induction l as [|j l IH]; intros i I; [destruct I|]. destruct I as [<-|I]; [apply F|exact (IH i I)].
Qed.
Lemma in_placed_concat {B} (f : item -> list B) its x : In x (concat (map f its)) <-> exists i, In i its /\ In x (f i).
Proof.
  rewrite in_concat. split.
  - intros (l & I & J). apply in_map_iff in I as (i & <- & I). eauto.
  - intros (i & I & J). exists (f i). split; auto. apply in_map. auto.
Qed.
Lemma introduces_defined i : forall path, introduces path i = map fst (definitions path i).
Proof.
  induction i as [i N|m l IH] using item_nested_ind; intros path; [destruct i; auto; exfalso; eapply N; eauto|].
  cbn [introduces definitions]. rewrite concat_map, map_map. f_equal. apply map_ext_in. auto.
Qed.
Lemma introduces_all path its : concat (map (introduces path) its) = map fst (concat (map (definitions path) its)).
Proof. rewrite concat_map, map_map. f_equal. apply map_ext. intros. apply introduces_defined. Qed.
(** What an item mentions, and what it defines, itself. *)
Definition mention (i : item) (t : list token) : Prop :=
  In t (components i) \/ (exists d n, i = IType d n t) \/ exists n ks k op v, i = IValidate n ks /\ In k ks /\ ck_cond k = CBound op v t.
Definition define (i : item) (n : list token) (d : def) : Prop :=
  (exists c l fs, i = IStruct c l n fs /\ d = DStruct l) \/ (exists c l t, i = ITuple c l n t /\ d = DTuple l t) \/
  (exists c l vs, i = IEnum c l n vs /\ d = DEnum l) \/ (exists c t, i = IType c n t /\ d = DAlias t).
Lemma placed_mentions j : forall p0 path i t, In (path, i) (placed p0 j) -> mention i t -> In (path, t) (mentions p0 j).
Proof.
  induction j as [j N|m l IH] using item_nested_ind; intros p0 path i t I M.
  - assert (E : (p0, j) = (path, i)) by (destruct j; try (destruct I as [I|[]]; exact I); exfalso; eapply N; eauto). injection E as <- <-.
    destruct M as [M|[(d & n & ->)|(n & ks & k & op & v & -> & Ik & Ek)]].
    + destruct j; cbn in *; try destruct M; subst; auto.
      * apply in_map_iff in M as (f & <- & M). apply in_map_iff. exists f. auto.
      * apply in_concat in M as (x & Ix & M). apply in_map_iff in Ix as (v & <- & Iv). apply in_concat.
        eexists. split; [apply in_map_iff; exists v; split; [reflexivity|exact Iv]|]. unfold payload in M. destruct (va_type v); destruct M; subst; cbn; auto; destruct H.
    + left. reflexivity.
    + cbn. apply in_concat. eexists. split; [apply in_map_iff; exists k; split; [reflexivity|exact Ik]|]. rewrite Ek. left. auto.
  - destruct I as [[= <- <-]|I]; [destruct M as [[]|[(d & n & X)|(n & ks & k & op & v & X & _)]]; discriminate|].
    apply in_placed_concat in I as (x & Ix & I). cbn [mentions]. apply in_placed_concat. exists x. split; auto. eapply IH; eauto.
Qed.
Lemma placed_defines j : forall p0 path n d, In (path, n, d) (definitions p0 j) <-> exists i, In (path, i) (placed p0 j) /\ define i n d.
Proof.
  induction j as [j N|m l IH] using item_nested_ind; intros p0 path n d.
  - assert (E : forall i, In (path, i) (placed p0 j) <-> path = p0 /\ i = j).
    { intros i. destruct j; cbn; try (split; [intros [[= <- <-]|[]]; auto|intros [-> ->]; auto]). exfalso. eapply N; eauto. }
    unfold define. destruct j; cbn [definitions In];
      match goal with
      | |- ?A \/ False <-> _ => split; [intros [[= <- <- <-]|[]]|intros (i & I & H); apply E in I as [-> ->]; left]
      | |- False <-> _ => split; [intros []|intros (i & I & H); apply E in I as [-> ->]]
      | _ => exfalso; eapply N; eauto
      end;
      try (eexists; split; [apply E; split; [reflexivity|reflexivity]|]);
      try (destruct H as [(?&?&?&[= -> -> -> ->]& ->)|[(?&?&?&[= -> -> -> ->]& ->)|[(?&?&?&[= -> -> -> ->]& ->)|(?&?&[= -> -> ->]& ->)]]]; reflexivity);
      try (destruct H as [(?&?&?&X&?)|[(?&?&?&X&?)|[(?&?&?&X&?)|(?&?&X&?)]]]; discriminate).
    + left. eauto.
    + right. left. eauto.
    + right. right. left. eauto.
    + right. right. right. eauto.
  - cbn [definitions placed]. rewrite in_placed_concat. split.
    + intros (x & Ix & I). apply IH in I as (i & I & H); auto. exists i. split; auto. right. apply in_placed_concat. eauto.
    + intros (i & I & Hd). destruct I as [E|I].
      * injection E as <- <-. destruct Hd as [(?&?&?&X&?)|[(?&?&?&X&?)|[(?&?&?&X&?)|(?&?&X&?)]]]; discriminate.
      * apply in_placed_concat in I as (x & Ix & I). exists x. split; auto. apply IH; eauto.
Qed.

(** ** The items of entities *)
Section Sound.
Context (u : uni) (schema : node) (tns xsd : option namespace).
Notation own := (ns_prefix tns).
Notation xs := (ns_prefix xsd).
Notation tid := (fun q => format_type_name u q xsd tns).
Notation ty := (SpecGen.ty u tid).
Notation items := (items u tns tid (format_name u) (variant_name u tns)).
Notation all_items := (all_items u tns tid (format_name u) (variant_name u tns)).
Notation known := (known schema own xs).
Notation fit := (fit u schema own xs).
Notation top := (top u schema own xs).
Notation tuple_fit := (tuple_fit u schema own xs).
Notation alias_target := (alias_target schema own xs).
Context (D : list (list str * list token * def)) (dfl : list (list str * list token)).

Definition unknown_type (q : str) : Prop := q = lit "String" \/ known q /\ to_builtin xs q text_space.
Definition unknown_variant (q : str) : variant := {| va_doc := []; va_attrs := []; va_name := lit "__Unknown__"; va_type := Some (ty q) |}.
Inductive sound (path : list str) : item -> Prop :=
| sound_struct c a n fs : sound path (IStruct c [struct_derive; AYaserde a] n fs)
| sound_tuple c n q ms fs : tuple_fit q ms fs -> sound path (ITuple c [tuple_derive] n (modified u (ty q) ms))
| sound_enum c a n cs q : unknown_type q -> In (path, n) dfl ->
    sound path (IEnum c [choice_derive; AYaserde a] n (map (case_variant u tid (variant_name u tns)) cs ++ [unknown_variant q]))
| sound_default n : sound path (IDefault n)
| sound_unchecked n : sound path (IValidate n [])
| sound_checked n q ms fs ks : tuple_fit q ms fs -> In (path, n, DTuple [tuple_derive] (modified u (ty q) ms)) D ->
    Forall2 (facet_checks (modified u (ty q) ms)) (map fa_type fs) ks -> sound path (IValidate n (concat ks))
| sound_mod m l : sound path (IMod m l)
| sound_note w : sound path (INote w)
| sound_type c n q : path = [] -> known q -> alias_target q -> sound path (IType c n (ty q)).

Definition sounds (path : list str) (its : list item) : Prop :=
  incl (concat (map (definitions path) its)) D -> incl (concat (map (defaulted path) its)) dfl -> forall P i, In (P, i) (concat (map (placed path) its)) -> sound P i.
Lemma sounds_app path a b : sounds path a -> sounds path b -> sounds path (a ++ b).
Proof.
  intros Ha Hb ID If P i I. rewrite map_app, concat_app in *. apply in_app_or in I as [I|I].
  - apply Ha; auto; intros x Hx; [apply ID|apply If]; apply in_or_app; auto.
  - apply Hb; auto; intros x Hx; [apply ID|apply If]; apply in_or_app; auto.
Qed.
Lemma sounds_one path i : (forall m l, i <> IMod m l) -> (incl (definitions path i) D -> incl (defaulted path i) dfl -> sound path i) -> sounds path [i].
Proof.
  intros N S ID If P j I. cbn [map List.concat] in *. rewrite app_nil_r in *. assert (E : placed path i = [(path, i)]) by (destruct i; auto; exfalso; eapply N; eauto).
  rewrite E in I. destruct I as [[= <- <-]|[]]. auto.
Qed.
Lemma sounds_mod path m l : sounds (path ++ [m]) l -> sounds path [IMod m l].
Proof.
  intros S ID If P j I. cbn [map List.concat definitions defaulted placed] in *. rewrite app_nil_r in *. destruct I as [[= <- <-]|I]; [constructor|]. apply S; auto.
Qed.
Lemma sounds_nil path : sounds path []. Proof. intros _ _ P i []. Qed.
Lemma sounds_list l : (forall e, In e l -> forall path its, fit e -> items e its -> sounds path its) ->
  forall path its, Forall fit l -> all_items l its -> sounds path its.
Proof.
  intros H path its F A. induction A as [|e l a b A1 A2 IH]; [apply sounds_nil|]. inversion F; subst. apply sounds_app.
  - eapply H; eauto. left. auto.
  - apply IH; auto. intros. eapply H; eauto. right. auto.
Qed.
Lemma items_sound e : forall path its, fit e -> items e its -> sounds path its.
Proof.
  induction e as [s IHf IHs|t IH|n IH|f|c|a|i] using entity_sub_ind; intros path its F A; inversion F as [s' F1 F2|t' F1 F2|n' F1 F2 F3]; subst; inversion A as [s' inner AI|t' inner ks AI FC|n' inner AI|a' ND|a' ND|i']; subst.
  - assert (Fn : Forall fit (nested s)).
    { unfold nested. apply Forall_app. split; auto. apply Forall_concat. apply Forall_forall. intros l I. apply in_map_iff in I as (f & <- & I). rewrite Forall_forall in F1. apply F1. auto. }
    assert (In_ : sounds (path ++ [format_name u (st_name s)]) inner).
    { eapply sounds_list; [|exact Fn|exact AI]. intros e Ie. unfold nested in Ie. apply in_app_or in Ie as [Ie|Ie]; [intros; eapply IHs; eauto|].
      apply in_concat in Ie as (l & Il & Ie). apply in_map_iff in Il as (f & <- & If). intros; eapply IHf; eauto. }
    apply sounds_app; [apply (sounds_app path [_] [_]); apply sounds_one; try discriminate; intros; constructor|].
    destruct (nested s); [apply sounds_nil|apply sounds_mod; auto].
  - rewrite F1 in AI. inversion AI; subst. cbn [app]. intros ID If P i I.
    cbn [map List.concat definitions placed app] in *. destruct I as [[= <- <-]|[[= <- <-]|[]]].
    + econstructor. exact F2.
    + econstructor; [exact F2| |exact FC]. apply ID. left. auto.
  - apply sounds_app; [|eapply sounds_list; eauto].
    intros ID If P i I. cbn [map List.concat definitions defaulted placed app] in *. destruct I as [[= <- <-]|[[= <- <-]|[[= <- <-]|[]]]]; try constructor.
    assert (E : match en_source n with OfUnion => [union_derive] | _ => [choice_derive; AYaserde (ns_args tns)] end = [choice_derive; AYaserde (ns_args tns)]) by (destruct (en_source n); congruence).
    rewrite E. constructor; auto. apply If. left. auto.
Qed.
Lemma top_sound l its : all_items l its -> Forall top l -> sounds [] its.
Proof.
  intros A F. induction A as [|e l a b A1 A2 IH]; [apply sounds_nil|]. inversion F as [|? ? T F']; subst. apply sounds_app; auto.
  destruct T as [T|[(al & -> & T)|(i & ->)]]; [eapply items_sound; eauto| |].
  - inversion A1 as [| | |a' N|a' Dc|]; subst; apply sounds_one; try discriminate; intros; constructor; auto; apply T; auto.
  - inversion A1; subst. apply sounds_one; [discriminate|]. intros. constructor.
Qed.
Lemma here_defined e : forall its path q, items e its -> In q (here e) -> exists d, In (path, ty q, d) (concat (map (definitions path) its)) /\ forall t, d <> DAlias t.
Proof.
  assert (L : forall l, (forall e, In e l -> forall its path q, items e its -> In q (here e) -> exists d, In (path, ty q, d) (concat (map (definitions path) its)) /\ forall t, d <> DAlias t) ->
    forall its path q, all_items l its -> In q (concat (map here l)) -> exists d, In (path, ty q, d) (concat (map (definitions path) its)) /\ forall t, d <> DAlias t).
  { intros l H its path q A. revert q. induction A as [|e' l a b A1 A2 IH]; intros q I; [destruct I|]. rewrite map_app, concat_app. cbn [map List.concat] in I.
    apply in_app_or in I as [I|I].
    - destruct (H e' (or_introl eq_refl) a path q A1 I) as (d & J & N). exists d. split; auto. apply in_or_app. auto.
    - destruct (IH (fun e I => H e (or_intror I)) q I) as (d & J & N). exists d. split; auto. apply in_or_app. auto. }
  induction e as [s IHf IHs|t IH|n IH|f|c|a|i] using entity_sub_ind; intros its path q A I; inversion A; subst; try destruct I.
  - subst q. eexists. split; [left; reflexivity|discriminate].
  - match goal with X : In q [] |- _ => destruct X end.
  - subst q. eexists. split; [left; reflexivity|discriminate].
  - edestruct L as (d & J & N); eauto. exists d. split; auto. rewrite !map_app, !concat_app. apply in_or_app. right. apply in_or_app. left. exact J.
  - subst q. eexists. split; [left; reflexivity|discriminate].
  - edestruct L as (d & J & N); eauto. exists d. split; auto. rewrite !map_app, !concat_app. apply in_or_app. right. exact J.
Qed.
Lemma file_defined l its e q : all_items l its -> In e l -> In q (here e) -> exists d, In ([], ty q, d) (concat (map (definitions []) its)) /\ forall t, d <> DAlias t.
Proof.
  intros A I J. induction A as [|e' l a b A1 A2 IH]; [destruct I|]. rewrite map_app, concat_app. destruct I as [<-|I].
  - destruct (here_defined _ _ [] _ A1 J) as (d & K1 & K2). exists d. split; auto. apply in_or_app. auto.
  - destruct (IH I) as (d & K1 & K2). exists d. split; auto. apply in_or_app. auto.
Qed.
Lemma file_tuple l its t : all_items l its -> In (ETuple t) l -> exists x, In ([], ty (tu_name t), DTuple [tuple_derive] x) (concat (map (definitions []) its)).
Proof.
  intros A I. induction A as [|e' l a b A1 A2 IH]; [destruct I|]. rewrite map_app, concat_app. destruct I as [->|I].
  - inversion A1; subst. eexists. apply in_or_app. left. left. reflexivity.
  - destruct (IH I) as (x & J). exists x. apply in_or_app. auto.
Qed.
(** Definitions. *)
Definition well (p : list str) (n : list token) (d : def) : Prop :=
  (exists a, d = DStruct [struct_derive; AYaserde a]) \/ (exists t, d = DTuple [tuple_derive] t) \/
  (exists a, d = DEnum [choice_derive; AYaserde a] /\ In (p, n) dfl) \/
  (p = [] /\ exists q, d = DAlias (ty q) /\ known q /\ alias_target q).
Lemma defined_well its : (forall P i, In (P, i) (concat (map (placed []) its)) -> sound P i) -> forall p n d, In (p, n, d) (concat (map (definitions []) its)) -> well p n d.
Proof.
  intros S p n d I. apply in_placed_concat in I as (j & Ij & I). apply placed_defines in I as (i & I & Hd). unfold well.
  assert (Si : sound p i) by (apply S, in_placed_concat; eauto).
  destruct Hd as [(c&l&fs&->&->)|[(c&l&t&->&->)|[(c&l&vs&->&->)|(c&t&->&->)]]]; inversion Si; subst; eauto 6.
  right. right. right. eauto.
Qed.
End Sound.

Lemma variant_known u tns n : variant_name u tns n <> lit "__Unknown__".
Proof.
  pose proof (split_name_qualified n) as Q. destruct (split_name n) as [p l]. rewrite (variant_name_eq u tns n p l Q).
  assert (A : forall r, pascal_name u l <> 95 :: r) by (intros r E; assert (X : alnum 95) by (apply (proj1 (pascal_name_alnum u l)); rewrite E; left; auto); unfold alnum, letter, lower, upper, digit in X; lia).
  assert (B : sanitize u (pascal_name u l) <> lit "__Unknown__").
  { destruct (sanitize_shape u (pascal_name u l)) as [->| ->]; intros E; [apply (A _ E)|injection E as E; apply (A _ E)]. }
  destruct p as [q|]; auto. destruct (opt_str_eqb _ _); auto. intros E. apply (A _ E).
Qed.

(** The Rust text of the built-in types. *)
Definition space_text (s : space) (t : string) : Prop :=
  (s = STexts -> t = "Vec<String>"%string) /\ (s <> STexts -> In t library_types) /\ (text_space s -> t = "String"%string) /\ (ordered_space s -> ~ In t unordered).
Definition space_textb (s : space) (x : str) : bool :=
  match s with
  | STexts => str_eqb x (lit "Vec<String>")
  | SText | SBytes => str_eqb x (lit "String")
  | SDate | STime | SGDay | SGMonth | SGMonthDay | SGYear | SGYearMonth => existsb (fun t => str_eqb x (lit t)) library_types
  | _ => existsb (fun t => str_eqb x (lit t) && negb (existsb (String.eqb t) unordered)) library_types
  end.
Lemma space_textb_ok s x : space_textb s x = true -> exists t, x = lit t /\ space_text s t.
Proof.
  assert (A : existsb (fun t => str_eqb x (lit t) && negb (existsb (String.eqb t) unordered)) library_types = true -> exists t, x = lit t /\ In t library_types /\ ~ In t unordered).
  { intros H. apply existsb_exists in H as (t & I & H). apply andb_true_iff in H as [H1 H2]. apply str_eqb_eq in H1. exists t. split; auto. split; auto.
    intros J. apply negb_true_iff in H2. enough (existsb (String.eqb t) unordered = true) by congruence. apply existsb_exists. exists t. split; auto. apply String.eqb_refl. }
  assert (B : existsb (fun t => str_eqb x (lit t)) library_types = true -> exists t, x = lit t /\ In t library_types).
  { intros H. apply existsb_exists in H as (t & I & H). apply str_eqb_eq in H. eauto. }
  assert (C : In "String"%string library_types /\ ~ In "String"%string unordered).
  { split; [left; auto|]. intros I. cbn in I. repeat (destruct I as [I|I]; [discriminate|]). destruct I. }
  unfold space_text. intros H. destruct s; cbn [space_textb] in H;
    try (apply A in H as (t & -> & I & N)); try (apply B in H as (t & -> & I)); try (apply str_eqb_eq in H; subst x);
    try (exists t; split; [reflexivity|]; repeat split; auto; try discriminate; intros []; fail);
    (eexists; split; [reflexivity|]; split; [|split; [|split]]; intros; try discriminate; try contradiction; try tauto; auto).
Qed.
Lemma builtin_space l s x : In (l, s) xsd_builtins -> assoc l built_in_table = Some x -> space_textb s x = true.
Proof.
  assert (X : forallb (fun '(l, s) => match assoc l built_in_table with Some x => space_textb s x | None => false end) xsd_builtins = true) by (vm_compute; reflexivity).
  rewrite forallb_forall in X. intros I E. apply X in I. cbn beta iota in I. rewrite E in I. exact I.
Qed.

(** ** Capabilities *)
Section Capable.
Context (u : uni) (schema : node) (tns xsd : option namespace).
Notation own := (ns_prefix tns).
Notation xs := (ns_prefix xsd).
Notation tid := (fun q => format_type_name u q xsd tns).
Notation ty := (SpecGen.ty u tid).
Notation known := (known schema own xs).
Notation to_other := (to_other schema own xs).
Notation to_builtin := (to_builtin xs).
Notation tuple_fit := (tuple_fit u schema own xs).
Notation alias_target := (alias_target schema own xs).
Context (D : list (list str * list token * def)) (dfl : list (list str * list token)).
Notation able := (able u (namespaces schema) own xs D dfl).
Notation provides := (provides u (namespaces schema) own xs D dfl).
Notation visible := (visible u D).
Notation well := (well u schema tns xsd dfl).
Context (C : consistent D) (W : forall p n d, In (p, n, d) D -> well p n d)
  (HN : forall l, introduced schema l -> clear_name u own xs l)
  (HT : forall l, tuple_type u schema l -> exists x, In ([], ty l, DTuple [tuple_derive] x) D)
  (HS : forall l, some_type schema l -> exists d, In ([], ty l, d) D /\ forall t, d <> DAlias t).

Lemma builtin_text q v : to_builtin q v -> exists s t, v s /\ ty q = rust u t /\ space_text s t.
Proof.
  intros (l & s & Q & I & V). destruct (match_built_in_type q xsd) as [x|] eqn:E.
  - assert (E' := E). apply built_in_iff in E' as (l' & Q' & A). destruct (qualified_unique _ _ _ _ _ Q Q') as [_ <-].
    destruct (space_textb_ok _ _ (builtin_space _ _ _ I A)) as (t & -> & St). exists s, t. split; auto. split; auto. unfold SpecGen.ty, format_type_name. rewrite E. reflexivity.
  - exfalso. apply (built_in_none q (ns_prefix xsd) l xsd Q) in E. apply E. split; auto. apply in_map_iff. exists (l, s). auto.
Qed.
Lemma other_foreign q : known q -> to_other q -> foreign u (namespaces schema) own xs (ty q).
Proof.
  intros (p & l & Q & H) (x & l' & ns & Q' & I & En & No & Nx). destruct (qualified_unique _ _ _ _ _ Q Q') as [-> ->].
  destruct H as [[E _]|[(_ & [E|E] & _)|(x' & ns' & [= <-] & I' & En' & _ & _ & Nl & Wx & Ll)]]; try congruence. eapply foreign_text; eauto.
Qed.
Lemma own_known q l : known q -> to_own own xs q l -> introduced schema l /\ ty q = ty l /\ exists w, ty l = [TWord w].
Proof.
  intros (p & l0 & Q & H) (p' & Q' & NB & Pp). destruct (qualified_unique _ _ _ _ _ Q Q') as [-> ->].
  destruct H as [X|[(_ & _ & I)|(x' & ns' & -> & _ & _ & No & _)]]; [contradiction| |destruct Pp; congruence].
  split; auto. assert (Cl := HN l I). assert (O := clear_own u tns xsd l Cl). split; [|apply own_token with (xsd := xsd); auto].
  assert (Eq : tid q = tid l). { rewrite (own_text u tns xsd l O). apply (format_type_own u q p' l); auto. apply (built_in_none q p' l xsd Q). auto. }
  unfold SpecGen.ty. rewrite Eq. auto.
Qed.
Lemma last_one w : last_word [TWord w] = [TWord w]. Proof. reflexivity. Qed.
Lemma last_path m x w : last_word ([TWord m] ++ x ++ [TWord w]) = [TWord w].
Proof. unfold last_word. rewrite !rev_app_distr. reflexivity. Qed.
Lemma visible_in path t p d : visible path t p d -> In (p, last_word t, d) D.
Proof. intros H. destruct H; rewrite ?last_path; auto. Qed.
Lemma visible_word path w p d : visible path [TWord w] p d -> exists q, path = p ++ q /\ In (p, [TWord w], d) D.
Proof.
  intros H. inversion H as [w0 p0 q d0 E I|]; subst. eauto.
Qed.
Ltac derived := eexists; split; [left; reflexivity|cbn; auto 10].
Lemma concrete_common p n d c : well p n d -> (forall t, d <> DAlias t) -> In c common -> provides p n d c.
Proof.
  intros Wd N I. destruct Wd as [(a & ->)|[(t & ->)|[(a & -> & J)|(_ & q & -> & _)]]]; [| | |exfalso; eapply N; eauto].
  - cbn in I. destruct I as [<-|[<-|[<-|[<-|[<-|[<-|[]]]]]]].
    + apply provides_struct with (s := "Default"%string); [derived|cbn; auto].
    + apply provides_struct with (s := "Clone"%string); [derived|cbn; auto].
    + apply provides_struct with (s := "PartialEq"%string); [derived|cbn; auto].
    + apply provides_struct with (s := "Debug"%string); [derived|cbn; auto].
    + apply provides_struct with (s := "YaSerialize"%string); [derived|cbn; auto].
    + apply provides_struct with (s := "YaDeserialize"%string); [derived|cbn; auto].
  - cbn in I. destruct I as [<-|[<-|[<-|[<-|[<-|[<-|[]]]]]]].
    + apply provides_tuple with (s := "Default"%string); [derived|cbn; auto].
    + apply provides_tuple with (s := "Clone"%string); [derived|cbn; auto].
    + apply provides_tuple with (s := "PartialEq"%string); [derived|cbn; auto].
    + apply provides_tuple with (s := "Debug"%string); [derived|cbn; auto].
    + apply provides_tuple with (s := "UtilsDefaultSerde"%string); [derived|cbn; auto].
    + apply provides_tuple with (s := "UtilsDefaultSerde"%string); [derived|cbn; auto].
  - cbn in I. destruct I as [<-|[<-|[<-|[<-|[<-|[<-|[]]]]]]].
    + apply provides_default; auto.
    + apply provides_enum with (s := "Clone"%string); [derived|cbn; auto].
    + apply provides_enum with (s := "PartialEq"%string); [derived|cbn; auto].
    + apply provides_enum with (s := "Debug"%string); [derived|cbn; auto].
    + apply provides_enum with (s := "YaSerialize"%string); [derived|cbn; auto].
    + apply provides_enum with (s := "YaDeserialize"%string); [derived|cbn; auto].
Qed.
Lemma common_library s c : In c common -> library_provides s c.
Proof. intros I. cbn in I. repeat (destruct I as [<-|I]; [exact Logic.I|]). destruct I. Qed.
Lemma vec_common path t c : In c common -> able path t c -> able path (rust u "Vec<" ++ t ++ rust u ">") c.
Proof. intros I A. cbn in I. destruct I as [<-|I]; [apply able_vec; left; auto|apply able_vec_of; auto]. cbn. repeat (destruct I as [<-|I]; [auto 10|]). destruct I. Qed.
Lemma option_common path t c : In c common -> able path t c -> able path (rust u "Option<" ++ t ++ rust u ">") c.
Proof. intros I A. cbn in I. destruct I as [<-|I]; [apply able_option|apply able_option_of; auto]. cbn. repeat (destruct I as [<-|I]; [auto 10|]). destruct I. Qed.
Lemma texts_text : rust u "Vec<String>" = rust u "Vec<" ++ rust u "String" ++ rust u ">".
Proof. reflexivity. Qed.
Lemma builtin_common path q v c : to_builtin q v -> In c common -> able path (ty q) c.
Proof.
  intros B I. destruct (builtin_text q v B) as (s & t & _ & -> & (T1 & T2 & _)).
  assert (X : forall s, s = STexts \/ s <> STexts) by (intros []; auto; right; discriminate). destruct (X s) as [E|E].
  - rewrite (T1 E), texts_text. apply vec_common; auto. apply able_library; [left; auto|apply common_library; auto].
  - apply able_library; [auto|apply common_library; auto].
Qed.
Lemma alias_common q c : known q -> alias_target q -> In c common -> able [] (ty q) c.
Proof.
  intros K [B|[O|(l & O & S)]] I; [eapply builtin_common; eauto|apply able_foreign, other_foreign; auto|].
  destruct (own_known q l K O) as (_ & -> & w & Ew). destruct (HS l S) as (d & J & N). rewrite Ew in *. apply able_name.
  - exists [], d. apply visible_above with (q := []); auto.
  - intros p d' V. destruct (visible_word _ _ _ _ V) as (q' & E & J'). symmetry in E. apply app_eq_nil in E as [-> ->].
    destruct (proj1 C [] [] _ _ _ J J') as [_ X]. rewrite <- (X eq_refl). apply concrete_common; auto.
Qed.
Lemma def_common p n d c : In (p, n, d) D -> In c common -> provides p n d c.
Proof.
  intros I J. assert (Wd := W _ _ _ I).
  assert (X : (exists t, d = DAlias t) \/ forall t, d <> DAlias t) by (destruct d; eauto; right; discriminate).
  destruct X as [(t & ->)|X]; [|apply concrete_common; auto].
  destruct Wd as [(a & E)|[(t' & E)|[(a & E & _)|(-> & q & [= ->] & K & A)]]]; try discriminate. apply provides_alias. apply alias_common; auto.
Qed.
Lemma resolves_common path t c : resolves u (namespaces schema) own xs (map fst D) path t -> In c common -> able path t c.
Proof.
  intros (b & Wi & H) I. induction Wi as [t|t b Wi IH|t b Wi IH]; [|apply vec_common; auto|apply option_common; auto].
  destruct H as [(s & Is & ->)|[F|S]].
  - apply able_library; auto. apply common_library; auto.
  - apply able_foreign; auto.
  - apply able_name.
    + destruct S as [w p q -> J|m w J]; apply in_map_iff in J as ([[p' n'] d] & E & J); cbn in E; injection E as -> ->.
      * exists p, d. apply visible_above with (q := q); auto.
      * exists (path ++ [m]), d. apply visible_module. auto.
    + intros p d V. apply def_common; auto. apply visible_in with (path := path). auto.
Qed.

(** Text. *)
Lemma scalar_text path q c : known q -> scalar u schema own xs q -> In c [CParse; CDisplay] -> able path (ty q) c.
Proof.
  intros K [B|[O|(l & O & T)]] I.
  - destruct (builtin_text _ _ B) as (s & t & N & -> & (_ & T2 & _)). apply able_library; [auto|]. cbn in I. repeat (destruct I as [<-|I]; [exact Logic.I|]). destruct I.
  - apply able_foreign, other_foreign; auto.
  - destruct (own_known q l K O) as (_ & -> & w & Ew). destruct (HT l T) as (x & J). rewrite Ew in *. apply able_name.
    + exists [], (DTuple [tuple_derive] x). apply visible_above with (q := path); auto.
    + intros p d V. destruct (visible_word _ _ _ _ V) as (q' & _ & J'). destruct (proj1 C [] p _ _ _ J J') as [X _]. cbn in X.
      destruct (W _ _ _ J') as [(a & ->)|[(t' & ->)|[(a & -> & _)|(_ & q0 & -> & _)]]]; try (destruct X; fail).
      apply provides_tuple with (s := "UtilsTupleIo"%string); [derived|]. cbn in *. tauto.
Qed.
Lemma vec_text t : modified u t [MArray] = rust u "Vec<" ++ t ++ rust u ">". Proof. reflexivity. Qed.
Lemma plain_text t : modified u t [] = t. Proof. reflexivity. Qed.
Lemma library_text_like path s : In s library_types -> able path (rust u s) CParse /\ able path (rust u s) CDisplay.
Proof. intros I. split; apply able_library; auto; exact Logic.I. Qed.
Lemma tuple_textual path q ms fs : tuple_fit q ms fs -> textual u (namespaces schema) own xs D dfl path (modified u (ty q) ms).
Proof.
  intros (K & [(-> & [S|S] & _)|(-> & S & _)]).
  - rewrite plain_text. left. split; apply scalar_text; cbn; auto.
  - rewrite plain_text. destruct (builtin_text _ _ S) as (s & t & E & -> & (T1 & _)). rewrite (T1 E), texts_text. right. eexists. split; [reflexivity|].
    apply library_text_like. left. auto.
  - rewrite vec_text. right. eexists. split; [reflexivity|]. split; apply scalar_text; cbn; auto.
Qed.
(** Checks. *)
Lemma checks_facets t fs ks k : Forall2 (facet_checks t) fs ks -> In k (concat ks) ->
  exists f, In f fs /\ ((bound_facet f /\ exists op v, ck_cond k = CBound op v t) \/ (length_facet f /\ exists op m, ck_cond k = CLen op m)).
Proof.
  intros F I. apply in_concat in I as (l & Il & I). destruct (Forall2_in_r _ _ _ _ F Il) as (f & If & H). exists f. split; auto.
  inversion H; subst; try (destruct I; fail); destruct I as [<-|[]]; cbn; eauto.
Qed.
Lemma checks_met path n q ms fs ks k : tuple_fit q ms fs -> In (path, n, DTuple [tuple_derive] (modified u (ty q) ms)) D ->
  Forall2 (facet_checks (modified u (ty q) ms)) (map fa_type fs) ks -> In k (concat ks) -> check_met u (namespaces schema) own xs D dfl path n k.
Proof.
  intros (K & Fq) J F I. destruct (checks_facets _ _ _ _ F I) as (f & If & H). apply in_map_iff in If as (fa & <- & Ifa). unfold check_met.
  destruct H as [(Bf & op & v & ->)|(Lf & op & m & ->)].
  - destruct Fq as [(-> & _ & Bo & _)|(-> & _ & Nb)]; [|exfalso; eapply Nb; eauto]. rewrite plain_text. destruct (Bo fa Ifa Bf) as [B|O].
    + destruct (builtin_text _ _ B) as (s & t & Os & -> & (_ & T2 & _ & T4)). assert (Lt : In t library_types) by (apply T2; intros ->; destruct Os).
      repeat split; apply able_library; auto; try exact Logic.I. apply T4. auto.
    + repeat split; apply able_foreign, other_foreign; auto.
  - intros l t J'. assert (E := proj1 C path [] n _ (DTuple l t) J). rewrite app_nil_r in E. destruct (E J') as [_ E']. clear E. rename E' into E. specialize (E eq_refl). injection E as _ <-.
    destruct Fq as [(-> & _ & _ & Me)|(-> & _ & _)]; [|rewrite vec_text; apply able_vec; right; left; auto]. rewrite plain_text. destruct (Me fa Ifa Lf) as [B|O].
    + destruct (builtin_text _ _ B) as (s & t & [Os|Os] & -> & (T1 & T2 & T3 & _)).
      * rewrite (T3 Os). apply able_library; [left; auto|reflexivity].
      * rewrite (T1 Os), texts_text. apply able_vec. right. left. auto.
    + apply able_foreign, other_foreign; auto.
Qed.
Lemma unknown_text path q : unknown_type schema tns xsd q -> able path (ty q) CText.
Proof.
  intros [->|[_ B]].
  - rewrite string_text. apply able_library; [left; auto|reflexivity].
  - destruct (builtin_text _ _ B) as (s & t & T & -> & (_ & _ & T3 & _)). rewrite (T3 T). apply able_library; [left; auto|reflexivity].
Qed.

Definition usual : list string := ["Default"; "Clone"; "PartialEq"; "Debug"; "YaSerialize"; "YaDeserialize"]%string.
Definition usual_derives (l : list attr) : Prop := forall s, derives l s -> In s usual.
Lemma usual_demands l s : usual_derives l -> derives l s -> (forall c, In c (derive_demands s) -> In c common) /\ derive_demands_self s = [] /\ s <> "UtilsTupleIo"%string.
Proof.
  intros U Ds. apply U in Ds. unfold usual in Ds. cbn in Ds. repeat (destruct Ds as [<-|Ds]; [split; [|split; [reflexivity|discriminate]]; intros c I; cbn in I |- *; destruct I as [<-|[]]; auto 10|]). destruct Ds.
Qed.
Lemma struct_usual a : usual_derives [struct_derive; AYaserde a].
Proof. intros s (ds & [E|[E|[]]] & I); [|discriminate]. injection E as <-. exact I. Qed.
Lemma enum_usual a : usual_derives [choice_derive; AYaserde a].
Proof. intros s (ds & [E|[E|[]]] & I); [|discriminate]. injection E as <-. cbn in I |- *. tauto. Qed.
Lemma tuple_demands s : derives [tuple_derive] s -> (forall c, In c (derive_demands s) -> In c common) /\ forall c, In c (derive_demands_self s) -> exists s', derives [tuple_derive] s' /\ In c (derive_provides s').
Proof.
  intros (ds & [E|[]] & I). injection E as <-. cbn in I.
  repeat (destruct I as [<-|I]; [split; [intros c J; cbn in J |- *; try (destruct J as [<-|[]]; auto 10; fail); destruct J|intros c J; cbn in J; try (destruct J; fail)]|]); [|destruct I].
  exists "UtilsTupleIo"%string. split; [derived|]. cbn. tauto.
Qed.
Lemma bare_met path i : attributes_of i = [] -> (forall d l n vs, i <> IEnum d l n vs) -> (forall n ks k, i = IValidate n ks -> In k ks -> check_met u (namespaces schema) own xs D dfl path n k) ->
  met u (namespaces schema) own xs D dfl path i.
Proof.
  intros E N Ck. assert (X : forall s, ~ derives (attributes_of i) s) by (rewrite E; intros s (ds & I & _); destruct I).
  split; [intros s x t Ds; destruct (X _ Ds)|]. split; [intros s x Ds; destruct (X _ Ds)|]. split; [intros Ds; destruct (X _ Ds)|]. split; auto.
  intros d l n vs v Ei. destruct (N _ _ _ _ Ei).
Qed.
Lemma sound_met path i : sound u schema tns xsd D dfl path i -> (forall t, In t (components i) -> resolves u (namespaces schema) own xs (map fst D) path t) ->
  met u (namespaces schema) own xs D dfl path i.
Proof.
  intros S R. assert (Rc : forall t c, In t (components i) -> In c common -> able path t c) by (intros; apply resolves_common; auto).
  destruct S as [c a n fs|c n q ms fs F|c a n cs q Uq Df|n|n|n q ms fs ks F J Fk|m l|w|c n q E K A]; try (apply bare_met; [reflexivity|discriminate|try discriminate]).
  - split; [intros s x t Ds Dd I; apply Rc; auto; eapply usual_demands; eauto; apply struct_usual|].
    split; [intros s x Ds Dd; destruct (usual_demands _ _ (struct_usual a) Ds) as (_ & E & _); rewrite E in Dd; destruct Dd|].
    split; [intros Ds; destruct (usual_demands _ _ (struct_usual a) Ds) as (_ & _ & E); congruence|]. split; discriminate.
  - split; [intros s x t Ds Dd I; apply Rc; auto; destruct (tuple_demands _ Ds); auto|].
    split; [intros s x Ds Dd; destruct (tuple_demands _ Ds); auto|].
    split; [intros _; eexists; split; [reflexivity|eapply tuple_textual; eauto]|]. split; discriminate.
  - split; [intros s x t Ds Dd I; apply Rc; auto; eapply usual_demands; eauto; apply enum_usual|].
    split; [intros s x Ds Dd; destruct (usual_demands _ _ (enum_usual a) Ds) as (_ & E & _); rewrite E in Dd; destruct Dd|].
    split; [intros Ds; destruct (usual_demands _ _ (enum_usual a) Ds) as (_ & _ & E); congruence|]. split; [|discriminate].
    intros d l n' vs v [= <- <- <- <-] I Ev. apply in_app_or in I as [I|I].
    + exfalso. apply in_map_iff in I as (cc & <- & _). unfold case_variant in Ev. destruct (colon_split (ec_name cc)). cbn in Ev. eapply variant_known; eauto.
    + destruct I as [<-|[]]. eexists. split; [reflexivity|]. apply unknown_text. auto.
  - intros n' ks k [= <- <-] [].
  - intros n' ks' k [= <- <-] I. eapply checks_met; eauto.
Qed.
End Capable.

(** ** Documents *)
Lemma type_declared n d : In d (children n) -> one ["simpleType"; "complexType"] d -> In d (declarations n).
Proof.
  intros I Td.
  assert (Nd : forall t, In t ["annotation"; "attributeGroup"] -> ~ tag t d).
  { intros t It X. destruct Td as (s & Is & Ts). unfold tag in *. rewrite X in Ts. cbn in It, Is. clear - It Is Ts.
    repeat (destruct It as [<-|It]; [repeat (destruct Is as [<-|Is]; [discriminate|]); destruct Is|]). destruct It. }
  assert (Ed : is_element d = true) by (destruct Td as (s & Is & Ts); apply (nonempty_element s d); auto; cbn in Is; clear - Is; repeat (destruct Is as [<-|Is]; [discriminate|]); destruct Is).
  unfold declarations. rewrite filter_In, !andb_true_iff, !negb_true_iff. split; auto. split; [split; auto|].
  - destruct (tagged "annotation" d) eqn:X; auto. apply tagged_iff in X. exfalso. eapply (Nd "annotation"%string); eauto. cbn; auto.
  - destruct (tagged "attributeGroup" d) eqn:X; auto. apply tagged_iff in X. exfalso. eapply (Nd "attributeGroup"%string); eauto. cbn; auto.
Qed.
Lemma Forall2_in_l {A B} (R : A -> B -> Prop) l r x : Forall2 R l r -> In x l -> exists y, In y r /\ R x y.
Proof. intros F. induction F; intros I; [destruct I|]. destruct I as [<-|I]; [eexists; split; [left; reflexivity|auto]|]. destruct (IHF I) as (z & Z1 & Z2). exists z. split; [right; auto|auto]. Qed.
Lemma tuple_type_present u n f l : ok_schema n -> parse_schema u n [] = Ok f -> tuple_type u n l -> exists t, In (ETuple t) (rf_types f) /\ tu_name t = l.
Proof.
  intros O H (d & I & T & Hn & Fd). destruct (schema_inv _ _ _ _ H) as (_ & H1 & _).
  assert (Id : In d (declarations n)) by (apply type_declared; auto; eexists; split; [left; reflexivity|auto]).
  destruct (Forall2_in_l _ _ _ _ H1 Id) as (e & Ie & Pe). cbn beta in Pe.
  destruct (simple_type_ok _ _ _ _ _ T Pe) as (c & e0 & Fc & Pc & [[_ (nm & Hnm & ->)]|(X & _)]); [|exfalso; apply X, O].
  unfold has in *. rewrite Hn in Hnm. injection Hnm as <-.
  assert (X : exists t, e0 = ETuple t).
  { destruct (Fd c Fc) as [Tc|[Tc Nc]].
    - destruct (list_ok _ _ _ _ Tc Pc) as (t & -> & _). eauto.
    - destruct (restriction_ok _ _ _ _ _ Tc T Pc) as (b & _ & _ & R). destruct (R Nc) as (t & -> & _). eauto. }
  destruct X as (t & ->). eexists. split; [exact Ie|reflexivity].
Qed.
Lemma tuple_linked f f' t : link f = Ok f' -> In (ETuple t) (rf_types f) -> In (ETuple t) (rf_types f').
Proof.
  intros L I. destruct (link_ok _ _ L) as (_ & _ & _ & _ & Other & _). apply In_nth_error in I as (i & Hi). eapply nth_error_In. apply (Other i _ Hi). discriminate.
Qed.

Section Equipped.
Context (u : uni) (schema : node) (f : rs_file) (its : list item).
Notation tns := (rf_target_ns f).
Notation xsd := (rf_xsd_ns f).
Notation own := (ns_prefix tns).
Notation xs := (ns_prefix xsd).
Notation tid := (fun q => format_type_name u q xsd tns).
Context (O : ok_schema schema) (T : tidy schema) (Or : forall x, part x schema -> orderly u schema own xs x) (Pr : forall x, part x schema -> practical u schema own xs x)
  (A : all_items u tns tid (format_name u) (variant_name u tns) (rf_types f) its)
  (C : consistent (concat (map (definitions []) its))).
Lemma all_prepared x : part x schema -> prepared u schema tns xsd x.
Proof. intros P. split; [apply good_parts; auto|auto]. Qed.
Lemma equipped : Forall (top u schema own xs) (rf_types f) ->
  (forall P t, In (P, t) (concat (map (mentions []) its)) -> resolves u (namespaces schema) own xs (concat (map (introduces []) its)) P t) ->
  (forall l, tuple_type u schema l -> exists t, In (ETuple t) (rf_types f) /\ tu_name t = l) ->
  (forall l, some_type schema l -> exists e, In e (rf_types f) /\ typelike e /\ named l e) ->
  well_equipped u (namespaces schema) own xs its.
Proof.
  intros Tp R HT HS. assert (S : forall P i, In (P, i) (concat (map (placed []) its)) -> sound u schema tns xsd (concat (map (definitions []) its)) (concat (map (defaulted []) its)) P i).
  { eapply top_sound; eauto; apply incl_refl. }
  intros path i I. apply sound_met with (xsd := xsd); auto.
  - intros p n d. eapply defined_well; eauto.
  - intros l Il. eapply introduced_clear; eauto.
  - intros l Tl. destruct (HT l Tl) as (t & It & <-). eapply file_tuple; eauto.
  - intros l Sl. destruct (HS l Sl) as (e & Ie & Te & Ne). eapply file_defined; eauto. apply named_present; auto.
  - intros t It. rewrite <- introduces_all. apply R. apply in_placed_concat in I as (j & Ij & I). apply in_placed_concat. exists j. split; auto. eapply placed_mentions; eauto. left. auto.
Qed.
End Equipped.
Lemma schema_equipped u schema f its : ok_schema schema -> tidy schema -> parse_schema u schema [] = Ok f ->
  (forall x, part x schema -> orderly u schema (ns_prefix (rf_target_ns f)) (ns_prefix (rf_xsd_ns f)) x) ->
  (forall x, part x schema -> practical u schema (ns_prefix (rf_target_ns f)) (ns_prefix (rf_xsd_ns f)) x) ->
  all_items u (rf_target_ns f) (fun q => format_type_name u q (rf_xsd_ns f) (rf_target_ns f)) (format_name u) (variant_name u (rf_target_ns f)) (rf_types f) its ->
  consistent (concat (map (definitions []) its)) ->
  well_equipped u (namespaces schema) (ns_prefix (rf_target_ns f)) (ns_prefix (rf_xsd_ns f)) its.
Proof.
  intros O T H Or Pr A C. destruct (file_fit u schema (rf_target_ns f) (rf_xsd_ns f) schema f O) as [Tp _]; auto; [intros; apply all_prepared; auto|].
  eapply equipped; eauto.
  - eapply schema_resolves; eauto.
  - intros l Tl. eapply tuple_type_present; eauto.
  - intros l (d & I & Td & Hn). eapply declaration_named; eauto. apply T.
Qed.
Lemma document_equipped u roots schema f its : document roots schema -> ok_schema schema -> tidy schema -> parse u roots = Ok f ->
  (forall x, part x schema -> orderly u schema (ns_prefix (rf_target_ns f)) (ns_prefix (rf_xsd_ns f)) x) ->
  (forall x, part x schema -> practical u schema (ns_prefix (rf_target_ns f)) (ns_prefix (rf_xsd_ns f)) x) ->
  all_items u (rf_target_ns f) (fun q => format_type_name u q (rf_xsd_ns f) (rf_target_ns f)) (format_name u) (variant_name u (rf_target_ns f)) (rf_types f) its ->
  consistent (concat (map (definitions []) its)) ->
  well_equipped u (namespaces schema) (ns_prefix (rf_target_ns f)) (ns_prefix (rf_xsd_ns f)) its.
Proof.
  intros Dc O T H Or Pr A C. assert (R := document_resolves _ _ _ _ _ Dc O T H Or A). destruct Dc as (a & b & -> & E & L). destruct (parse_document u (a ++ schema :: b)) as [PD _].
  destruct (proj1 (proj1 (PD a schema b eq_refl E L) f) H) as (f0 & Hp & Hl).
  destruct (file_fit u schema (rf_target_ns f) (rf_xsd_ns f) schema f0 O) as [Tp Lk]; [intros; apply all_prepared; auto|auto|].
  assert (Tp' := link_fit _ _ _ _ _ _ Hl Tp Lk). eapply equipped; eauto.
  - intros l Tl. destruct (tuple_type_present _ _ _ _ O Hp Tl) as (t & It & Et). exists t. split; auto. eapply tuple_linked; eauto.
  - intros l (d & I & Td & Hn). destruct (declaration_named u schema f0 d l O (proj1 T) Hp I Hn (or_introl Td)) as (e & Ie & Te & Ne). eapply named_linked; eauto.
Qed.
