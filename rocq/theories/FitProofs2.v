(** Proofs about instances, continued: the generated types. *)
From Coq Require Import Arith NArith ZArith Bool Ascii String List Lia Permutation.
From Verif Require Import Str StrFacts SpecLex SpecNames SpecBuiltin Xml Comment CommentProofs Names NamesProofs Entity Parser ParserFacts SpecSchema ParserProofs Link SpecLink LinkProofs Gen SpecRust SpecGen RustFacts GenProofs GenProofs2 SpecDoc DocProofs SpecScope ScopeProofs SpecTraits TraitProofs SpecSize SizeProofs ShapeProofs SpecDistinct DistinctProofs DistinctProofs2 MemberProofs SpecFit SpecRestrict SpecWrite FitProofs.
Import ListNotations.
Local Open Scope string_scope.
Local Open Scope list_scope.
Local Open Scope N_scope.
Notation concat := List.concat.
Arguments lit : simpl never.

Section Final.
Context (u : uni) (schema : node) (f0 f1 : rs_file) (its : list item).
Notation tns := (rf_target_ns f1).
Notation xsn := (rf_xsd_ns f1).
Notation own := (ns_prefix tns).
Notation xsd := (ns_prefix xsn).
Notation tid := (fun q => format_type_name u q xsn tns).
Notation ty := (SpecGen.ty u tid).
Notation ident := (format_name u).
Notation items := (items u tns tid ident (variant_name u tns)).
Notation all_items := (all_items u tns tid ident (variant_name u tns)).
Notation P := (concat (map (placed []) its)).
Notation ds := (declarations schema).
Notation regular := (regular schema own xsd).
Notation composed := (composed schema own xsd regular).
Notation elements gs := (concat (map particles gs)).
Notation clear := (clear_name u own xsd).
Notation M := (ScopeProofs.M u tns).
Context (O : ok_schema schema) (H : parse_schema u schema [] = Ok f0) (L : link f0 = Ok f1).
Context (Td : forall x, part x schema -> tidy_element x).
Context (Or : forall x, part x schema -> orderly u schema own xsd x).
Context (A : all_items (rf_types f1) its).
Context (Un : unshadowed P).
Notation made := (made u schema f0 f1).
Notation slots_are := (slots_are u schema f0 f1).
Notation members_are := (members_are u schema f0 f1).
Notation restricts := (restricts schema own xsd).

Lemma AF : all_fine schema. Proof. eapply good_fine; eauto. Qed.
Lemma part_clear x nm : part x schema -> has x "name" nm -> clear nm.
Proof. intros Px Hn. destruct (Or x Px) as (_ & N & _). auto. Qed.
Lemma NC x nm : part x schema -> has x "name" nm -> ~ In 58 nm.
Proof. intros Px Hn. destruct (part_clear x nm Px Hn) as (_ & N & _). auto. Qed.

(** ** Entities of types *)
Definition text_entity (e : entity) : Prop :=
  (exists t, e = ETuple t) \/ exists en, e = EEnum en /\ (en_source en = OfUnion \/ Forall (fun c => ec_type c = None) (en_cases en)).
Definition from_simple (s : sref) (e : entity) : Prop :=
  match s with
  | Named _ => True
  | Within n => part n schema /\ tag "simpleType" n /\ exists p anc e0 nm, parse_node u n (p :: anc) = Ok e0 /\ e = set_name nm e0
  end.
Definition models (T : typ) (e : entity) : Prop :=
  match T with
  | Simple s => text_entity e /\ from_simple s e
  | Complex n => part n schema /\ exists t, e = EStruct t /\ M (st_name t) /\ st_subtypes t = [] /\ (forall s gs r, composed n s gs r -> slots_are gs r (st_fields t)) /\
      forall d b s gs r, restricts n d b -> composed b s gs r -> members_are (body_elements d ++ kept (restated d) (elements gs)) (body_attributes d ++ kept (restated d) r) (st_fields t)
  end.
Definition known_shape (n : node) : Prop := regular n \/ exists d b, restricts n d b.
Lemma shaped_struct n anc e : tag "complexType" n -> known_shape n -> parse_node u n anc = Ok e -> exists s, e = EStruct s /\ type_name n anc (st_name s) /\ st_subtypes s = [] /\ st_groups s = [].
Proof. intros T [R|(d & b & R)] Hp; [eapply regular_struct; eauto|eapply restricts_struct; eauto]. Qed.
Definition proper_type (T : typ) : Prop := match T with Simple _ => True | Complex n => known_shape n end.
Lemma text_set nm e : text_entity e -> text_entity (set_name nm e).
Proof. intros [(t & ->)|(en & -> & X)]; [left|right]; cbn; eauto. Qed.
Lemma text_comment c e : text_entity e -> text_entity (set_comment c e).
Proof. intros [(t & ->)|(en & -> & X)]; [left|right]; cbn; eauto. Qed.
Lemma text_not_struct e : text_entity e -> forall s, e <> EStruct s.
Proof. intros [(t & ->)|(en & -> & X)]; discriminate. Qed.
Lemma simple_text n p anc e : part n schema -> tag "simpleType" n -> parse_node u n (p :: anc) = Ok e -> text_entity e.
Proof.
  intros Pn T Hp. destruct (simple_type_ok _ _ _ _ _ T Hp) as (c & e0 & Fc & Hc & R). assert (Ic := final_in _ _ Fc).
  assert (Pc : part c schema) by (eapply part_trans; [|exact Pn]; eapply ScopeProofs.particle_part; [exact Ic|constructor]).
  assert (X : text_entity e0).
  { destruct (Td n Pn) as (_ & _ & _ & _ & Tn & _). destruct (Tn T c Ic) as (s & [<-|[<-|[<-|[]]]] & Tc).
    - destruct (restriction_ok _ _ _ _ _ Tc T Hc) as (b & Hb & R1 & R2).
      rewrite (step_simple_restriction u c n (p :: anc) Tc T) in Hc. unfold simple_type_restriction in Hc. bo Hc b' Hb'. bo Hc fs Hf. cbv zeta in Hc.
      destruct (_ && _); [|injection Hc as <-; left; eauto]. bo Hc pn Hpn. injection Hc as <-. right. eexists. split; [reflexivity|]. right. cbn [en_cases]. apply ScopeProofs.cases_untyped.
    - destruct (list_ok _ _ _ _ Tc Hc) as (t & -> & _). left; eauto.
    - destruct (union_ok _ _ _ _ Tc Hc) as (fs & _ & U & _). destruct (Or c Pc) as (_ & _ & _ & Nu & _). destruct (U (Nu Tc)) as (en & -> & _ & Su & _). right. exists en. auto. }
  destruct R as [[_ (nm & _ & ->)]|(_ & _ & ->)]; apply text_comment; auto. apply text_set; auto.
Qed.
Lemma types_at i e : nth_error (rf_types f0) i = Some e -> (forall s, e <> EStruct s) -> nth_error (rf_types f1) i = Some e.
Proof. intros Hi N. destruct (link_ok _ _ L) as (_ & _ & _ & _ & Ot & _). auto. Qed.
Lemma struct_types i s : nth_error (rf_types f0) i = Some (EStruct s) -> exists t, nth_error (rf_types f1) i = Some (EStruct t) /\ st_name t = st_name s /\ st_subtypes t = st_subtypes s.
Proof. intros Hi. destruct (link_ok _ _ L) as (_ & _ & _ & _ & _ & St). destruct (St i s Hi) as (t & At & o & ou & g & (N & _ & _ & Su) & _). exists t. auto. Qed.
Lemma child_part t d : In d (children schema) -> tag t d -> In t ["complexType"; "simpleType"; "element"; "attribute"] -> part d schema.
Proof. intros I T It. apply declaration_part. eapply declaration_in; eauto. Qed.

Lemma named_complex l d : SpecFit.declared schema "complexType" l d -> known_shape d -> exists e, In e (rf_types f1) /\ entity_name e = l /\ clear l /\ models (Complex d) e.
Proof.
  intros (I & T & N) R. assert (Id := declaration_in schema _ d I T ltac:(left; auto)). assert (Pd := declaration_part _ _ Id). apply In_nth_error in Id as (i & Hi).
  destruct (declaration_parsed u schema f0 H i d Hi) as (e & He & Pe). destruct (shaped_struct d _ _ T R Pe) as (s & -> & Ns & Es & Eg).
  destruct (struct_types i s He) as (t & At & Nt & Su). exists (EStruct t). split; [eapply nth_error_In; eauto|]. cbn [entity_name]. destruct Ns as [Ns _]. specialize (Ns (proj1 O)).
  assert (Et : st_name t = l) by (rewrite Nt; unfold has in *; congruence). assert (Cl := part_clear d l Pd N). split; auto. split; auto. split; auto. exists t. split; auto.
  rewrite Et. split; [apply (clear_M u tns xsn l Cl)|]. split; [congruence|]. split; [intros s' gs r C; eapply (all_complete u schema own xsd f0 f1 O AF H L NC i); eauto|].
  intros d' b s' gs r Rs C. eapply (top_restricted u schema own xsd f0 f1 O AF H L NC i); eauto. constructor.
Qed.
Lemma named_simple l d : SpecFit.declared schema "simpleType" l d -> exists e, In e (rf_types f1) /\ entity_name e = l /\ clear l /\ text_entity e.
Proof.
  intros (I & T & N). assert (Id := declaration_in schema _ d I T ltac:(right; left; auto)). assert (Pd := declaration_part _ _ Id). apply In_nth_error in Id as (i & Hi).
  destruct (declaration_parsed u schema f0 H i d Hi) as (e & He & Pe). assert (Te := simple_text d schema [] e Pd T Pe).
  exists e. split; [eapply nth_error_In, types_at; eauto; apply text_not_struct; auto|]. split; [|split; [eapply part_clear; eauto|auto]].
  destruct (simple_type_ok _ _ _ _ _ T Pe) as (c & e0 & _ & _ & [[_ (nm & Hn & ->)]|(X & _)]); [|destruct (X (proj1 O))]. assert (nm = l) by (unfold has in *; congruence). subst nm.
  destruct e0; cbn in *; auto; destruct Te as [(? & X)|(? & X & _)]; discriminate.
Qed.
Lemma named_element l d T : SpecFit.declared schema "element" l d -> absent d "ref" -> type_of schema own xsd d T -> proper_type T ->
  clear l /\ exists e, In e (rf_types f1) /\
    ((exists q c, has d "type" q /\ type_named schema own xsd q T /\ e = EAlias (new_alias l q c) /\ forall k, SpecSchema.documented d k -> c = Some k) \/
     absent d "type" /\ entity_name e = l /\ models T e).
Proof.
  intros (I & Te & N) Ar To Pt. assert (Id := declaration_in schema _ d I Te ltac:(right; right; left; auto)). assert (Pd := declaration_part _ _ Id). apply In_nth_error in Id as (i & Hi).
  assert (Cl := part_clear d l Pd N). split; auto. destruct (declaration_parsed u schema f0 H i d Hi) as (e & He & Pe). destruct (global_element_shape u schema [] d e (proj1 O) Te Pe) as (nm & Hn & Sh).
  assert (nm = l) by (unfold has in *; congruence). subst nm.
  assert (Kid : forall t, tagged_children ["simpleType"; "complexType"] d = [t] -> part t d).
  { intros t E. assert (X : In t (tagged_children ["simpleType"; "complexType"] d)) by (rewrite E; left; auto). apply in_tagged in X as [X Y]. eapply part_kid; eauto. }
  inversion To as [? q ? Hq Tn|? ? ? ? ? _ Hr|? t At _ Et Tt|? t At _ Et Tt]; subst.
  - unfold has in Hq. rewrite Hq in Sh. subst e. eexists. split; [eapply nth_error_In, types_at; eauto; discriminate|]. left. exists q, (get_documentation d). split; auto. split; auto. split; auto.
    intros k Dk. apply documented_iff. auto.
  - unfold absent, has in *. congruence.
  - assert (Pt' : part t schema) by (eapply part_trans; eauto). unfold absent in At. rewrite At, Et in Sh. destruct Sh as [[X _]|(t' & e0 & Ft & Hp & ->)]; [discriminate|]. destruct Ft as ([|? [|]] & [= <-]).
    assert (Te0 := simple_text t _ _ e0 Pt' Tt Hp). assert (Ts := text_set l e0 Te0). exists (set_name l e0). split; [eapply nth_error_In, types_at; eauto; apply text_not_struct; auto|]. right. split; auto. split.
    + destruct e0; cbn; auto; destruct Ts as [(? & X)|(? & X & _)]; discriminate.
    + split; auto. split; auto. split; auto. exists d, [schema], e0, l. auto.
  - assert (Pt' : part t d) by auto. unfold absent in At. rewrite At, Et in Sh. destruct Sh as [[X _]|(t' & e0 & Ft & Hp & ->)]; [discriminate|]. destruct Ft as ([|? [|]] & [= <-]).
    cbn in Pt. destruct (shaped_struct t _ _ Tt Pt Hp) as (s & -> & _ & Es & Eg). cbn [set_name] in *. destruct (struct_types i _ He) as (t2 & At2 & Nt & Su). cbn in Nt, Su.
    exists (EStruct t2). split; [eapply nth_error_In; eauto|]. right. split; auto. split; auto. split; [eapply part_trans; eauto|]. exists t2. split; auto. rewrite Nt. split; [apply (clear_M u tns xsn l Cl)|]. split; [congruence|].
    split; [intros s' gs r C; eapply (top_slots u schema own xsd f0 f1 O AF H L NC i); [intros; apply (all_complete u schema own xsd f0 f1 O AF H L NC)| | | | |exact Hp| | | |]; try exact He; eauto|].
    intros d' b s' gs r Rs C. eapply (top_restricted u schema own xsd f0 f1 O AF H L NC i); [| | | | |exact Hp| | |exact He|]; eauto.
Qed.

(** ** Places *)
Lemma top_placed e : In e (rf_types f1) -> exists l, items e l /\ incl (concat (map (placed []) l)) P.
Proof.
  intros I. assert (X : forall l r, all_items l r -> In e l -> exists a, items e a /\ incl (concat (map (placed []) a)) (concat (map (placed []) r))).
  { intros l r B. induction B as [|x l a b B1 B2 IH]; intros [<-|J] || (intros J; destruct J); rewrite map_app, concat_app.
    - exists a. split; auto. apply incl_appl, incl_refl.
    - destruct (IH J) as (a' & X1 & X2). exists a'. split; auto. apply incl_appr. auto. }
  eapply X; eauto.
Qed.
Lemma nested_placed l r path e : all_items l r -> In e l -> incl (concat (map (placed path) r)) P -> exists a, items e a /\ incl (concat (map (placed path) a)) P.
Proof.
  intros B I. induction B as [|x l a b B1 B2 IH]; [destruct I|]. rewrite map_app, concat_app. intros J. destruct I as [<-|I].
  - exists a. split; auto. intros y Iy. apply J. apply in_or_app. auto.
  - apply IH; auto. intros y Iy. apply J. apply in_or_app. auto.
Qed.
Lemma head_item e l : typelike e -> items e l -> exists i r, l = i :: r /\ defines i (ty (entity_name e)).
Proof. intros T I. inversion I; subst; cbn in T |- *; try contradiction; eexists; eexists; (split; [reflexivity|]); reflexivity. Qed.
Lemma head_placed path i r : incl (concat (map (placed path) (i :: r))) P -> In (path, i) P.
Proof. intros X. apply X. cbn. destruct i; left; reflexivity. Qed.

Lemma names_top w i path : In ([], i) P -> defines i [TWord w] -> names u P path [TWord w] [] i.
Proof.
  intros I D. split; [eapply seen_above; eauto; reflexivity|]. intros p' i' S. inversion S as [w' p r j E I' D'|m w' j I' D']; subst.
  destruct (proj1 Un [] p' [TWord w] i i' I I' D D') as [-> ->]. auto.
Qed.
Lemma names_module m w i path : In (path ++ [m], i) P -> defines i [TWord w] -> names u P path ([TWord m] ++ rust u "::" ++ [TWord w]) (path ++ [m]) i.
Proof.
  intros I D. split; [eapply seen_module; eauto; reflexivity|]. intros p' i' S. inversion S as [w' p r j E I' D' E2|m' w' j I' D' E2]; subst.
  split; auto.
  rewrite <- (app_nil_r (path ++ [m])) in I'. destruct (proj1 Un (path ++ [m]) [] [TWord w] i i' I I' D D') as [_ ->]. auto.
Qed.

(** [makes path t s]: what is known of the simple type [s], made into the type written [t] at [path]. *)
Context (makes : list str -> list token -> sref -> Prop).
Context (makes_named : forall q path, type_named schema own xsd q (Simple (Named q)) -> makes path (ty q) (Named q)).
Context (makes_within : forall d pn anc e nm path t p i r, part d schema -> tag "simpleType" d -> parse_node u d (pn :: anc) = Ok e ->
  items (set_name nm e) (i :: r) -> incl (concat (map (placed p) (i :: r))) P -> names u P path t p i -> makes path t (Within d)).
Definition known (path : list str) (t : list token) (T : typ) : Prop := forall q, T = Simple (Named q) -> makes path t (Named q).
Inductive goal : list str -> list token -> typ -> Prop :=
| g_lib path s q : In s library_types -> makes path (rust u s) (Named q) -> goal path (rust u s) (Simple (Named q))
| g_ent path t p e i r T : items e (i :: r) -> incl (concat (map (placed p) (i :: r))) P -> names u P path t p i -> models T e -> known path t T -> goal path t T
| g_alias path t p d m t' T : names u P path t p (IType d m t') -> goal p t' T -> goal path t T.

Lemma own_ty q l : to_own own xsd q l -> clear l -> ty q = ty l.
Proof.
  intros (p & Q & NB & Pp) C. assert (Ow := clear_own u tns xsn l C). unfold SpecGen.ty. f_equal. rewrite (own_text u tns xsn l Ow). apply (format_type_own u q p l); auto. apply (built_in_none q p l xsn Q). auto.
Qed.
Lemma models_typelike T e : models T e -> typelike e.
Proof. destruct T; cbn; [intros [[(t & ->)|(en & -> & _)] _]|intros (_ & s & -> & _)]; exact Logic.I. Qed.
Lemma top_goal e l q path T : In e (rf_types f1) -> entity_name e = l -> clear l -> models T e -> ty q = ty l -> known path (ty q) T -> goal path (ty q) T.
Proof.
  intros I E C Mo Eq Kn. destruct (top_placed e I) as (a & It & Ic). destruct (head_item e a (models_typelike _ _ Mo) It) as (i & r & -> & D). rewrite E in D.
  destruct (own_token u tns xsn l (clear_own u tns xsn l C)) as (w & W). rewrite Eq, W in *. eapply g_ent; eauto. apply names_top; auto. eapply head_placed; eauto.
Qed.
Lemma library_plain l t : assoc l built_in_table = Some t -> ~ In (l, STexts) xsd_builtins -> exists s, In s library_types /\ lexemes u t = rust u s.
Proof.
  assert (X : forallb (fun p => existsb (fun t => str_eqb (snd p) (lit t)) library_types || existsb (fun b => str_eqb (fst b) (fst p) && match snd b with STexts => true | _ => false end) xsd_builtins) built_in_table = true) by (vm_compute; reflexivity).
  rewrite forallb_forall in X. intros As N. apply assoc_in in As. apply X in As. cbn [fst snd] in As. apply orb_true_iff in As as [I|I].
  - apply existsb_exists in I as (s & It & E). apply str_eqb_eq in E. subst t. exists s. split; auto.
  - exfalso. apply existsb_exists in I as ([k v] & Ik & E). cbn in E. apply andb_true_iff in E as [E1 E2]. apply str_eqb_eq in E1. subst k. destruct v; try discriminate. auto.
Qed.
Lemma named_goal q T path : type_named schema own xsd q T -> proper_type T -> regular_type xsd q -> goal path (ty q) T.
Proof.
  intros Tn Pt Rt. inversion Tn as [q' l Q B|q' l d To De|q' l d To De]; subst.
  - destruct (match_built_in_type q xsn) as [t|] eqn:E.
    + pose proof E as E'. apply built_in_iff in E' as (l' & Q' & As). assert (l' = l) by (eapply (qualified_unique q); eauto). subst l'. destruct (library_plain l t As (Rt l Q)) as (s & Is & Es).
      assert (X := makes_named q path Tn). unfold SpecGen.ty, format_type_name in X |- *. rewrite E, Es in X |- *. apply g_lib; auto.
    + exfalso. apply (built_in_none q (ns_prefix xsn) l xsn Q) in E. apply E. auto.
  - destruct (named_simple l d De) as (e & I & En & C & Mo). eapply top_goal; eauto; [split; [auto|exact Logic.I]|apply own_ty; auto|]. intros q' [= <-]. auto.
  - destruct (named_complex l d De Pt) as (e & I & En & C & Mo). eapply top_goal; eauto; [apply own_ty; auto|]. intros q' X. discriminate X.
Qed.
Lemma inner_known d T path t : absent d "type" -> absent d "ref" -> type_of schema own xsd d T -> known path t T.
Proof.
  intros At Ar To q E. subst T. exfalso. inversion To as [? q' ? Hq Tn|? q' ? ? ? _ Hr|?|?]; unfold has, absent in *; congruence.
Qed.
Lemma ref_goal q l d T path : to_own own xsd q l -> SpecFit.declared schema "element" l d -> absent d "ref" -> type_of schema own xsd d T -> proper_type T ->
  (forall t, has d "type" t -> regular_type xsd t /\ exists c, SpecSchema.documented d c /\ SpecGen.documented (Some c)) -> goal path (ty q) T.
Proof.
  intros To De Ar Ty Pt Doc. destruct (named_element l d T De Ar Ty Pt) as (C & e & I & [(t & c & Ht & Tn & -> & Dc)|(At & En & Mo)]); [|eapply top_goal; eauto; [apply own_ty; auto|apply inner_known with (d := d); auto]].
  destruct (Doc t Ht) as (Rt & k & Dk & Sk). apply Dc in Dk. subst c. destruct (top_placed _ I) as (a & It & Ic). inversion It; subst; [cbn in *; contradiction|]. cbn [new_alias al_name al_original] in *.
  destruct (own_token u tns xsn l (clear_own u tns xsn l C)) as (w & W). rewrite (own_ty q l To C). rewrite W in *. eapply g_alias; [apply names_top; [apply (head_placed _ _ _ Ic)|reflexivity]|]. apply named_goal; auto.
Qed.

(** ** The type of an element *)
Lemma made_text nm n x : made nm n x -> tag "simpleType" n -> models (Simple (Within n)) x /\ entity_name x = nm.
Proof.
  intros (i & D & x0 & Hi & Pn & (e & anc & x1 & Hp & ->) & Cx) Tn. assert (Ps : part n schema) by (eapply part_trans; [exact Pn|apply declaration_part; eapply nth_error_In; eauto]).
  assert (T1 := simple_text n e anc x1 Ps Tn Hp). assert (T2 := text_set nm x1 T1). assert (x = set_name nm x1).
  { inversion Cx as [s t own0 Ss Sf As E|y X]; subst; auto. exfalso. apply (text_not_struct _ T2 s). auto. }
  subst x. split; [split; auto; split; auto; split; auto; exists e, anc, x1, nm; auto|]. destruct x1; cbn; auto; destruct T1 as [(? & X)|(? & X & _)]; discriminate.
Qed.
Lemma made_struct nm n x : made nm n x -> tag "complexType" n -> known_shape n -> exists t, x = EStruct t /\ st_name t = nm /\ st_subtypes t = [].
Proof.
  intros (i & D & x0 & Hi & Pn & (e & anc & x1 & Hp & ->) & Cx) Tn R. destruct (shaped_struct n _ _ Tn R Hp) as (s0 & -> & _ & Es & _).
  cbn [set_name] in Cx. inversion Cx as [? t own0 Ss Sf As|? X]; subst; [|exfalso; eapply X; reflexivity]. destruct Ss as (N & _ & _ & Su). exists t. split; auto. split; auto. rewrite Su. auto.
Qed.
Lemma slot_goal p t l e f T : items (EStruct t) l -> incl (concat (map (placed p) l)) P -> M (st_name t) -> In f (st_fields t) -> eslot made e f -> part e schema ->
  regular_element schema own xsd e -> type_of schema own xsd e T -> proper_type T ->
  goal p (ty (match fl_subtypes f with [] => fl_type f | _ => ident (st_name t) ++ lit "::" ++ fl_type f end)) T.
Proof.
  intros It Ic Mt If (Te & En & _ & _ & Sl) Pe (_ & Pr & _ & _ & Rr & _ & Rt) To Pt.
  inversion To as [? q ? Hq Tn|? q k d ? At Hr Tk De Ar Td'|? n At Ar Et Tt|? n At Ar Et Tt]; subst.
  - unfold has in Hq. rewrite Hq in Sl. destruct Sl as [-> ->]. apply named_goal; auto.
  - unfold has in Hr. unfold absent in At. rewrite Hr, At in Sl. destruct Sl as [-> ->]. eapply ref_goal; eauto.
  - unfold absent in At, Ar. rewrite At, Ar in Sl. destruct Sl as (n' & x & Fn & Ft & Fs & Mx). rewrite Et in Fn. destruct Fn as ([|? [|]] & [= <-]).
    destruct (made_text _ _ _ Mx Tt) as [Tx Nx]. rewrite Fs.
    assert (Hn : has e "name" (element_name e)). { destruct Pr as [(v & V)|(v & V)]; unfold has, element_name in *; [rewrite V; auto|congruence]. }
    assert (Cl := part_clear e _ Pe Hn). destruct (type_name_nested u tns xsn _ Cl) as [Ox Ux]. destruct (own_token u tns xsn _ Ox) as (w & W). destruct Ox as [[_ Cx] Bx]. destruct Mt as [Ne Np].
    rewrite (nested_ty u tns xsn (st_name t) (fl_type f)); rewrite ?Ft; auto.
    2:{ intros [X Y]. apply (built_in_none (element_name e ++ lit "Type") None (element_name e ++ lit "Type") xsn) in Bx; [|split; auto]. apply Bx. split; auto. apply builtins_names. auto. }
    inversion It as [s inner B E1| | | | |]; subst. rewrite map_app, concat_app in Ic.
    assert (Inx : In x (SpecGen.nested t)). { unfold SpecGen.nested. apply in_or_app. right. apply in_concat. exists (fl_subtypes f). split; [apply in_map; auto|rewrite Fs; left; auto]. }
    destruct (SpecGen.nested t) as [|y ys] eqn:Ey; [destruct Inx|]. destruct (nested_placed _ _ (p ++ [ident (st_name t)]) x B Inx) as (a & Ia & Ja).
    { intros z Iz. apply Ic. apply in_or_app. right. cbn [map placed List.concat]. rewrite app_nil_r. right. auto. }
    assert (Mo : models (Simple (Within n)) x) by exact Tx. destruct (head_item x a (models_typelike _ _ Mo) Ia) as (i & r & -> & Di). rewrite Nx, W in Di. rewrite W, (word_nonempty _ Ne).
    eapply g_ent; eauto; [|intros q' X; discriminate X]. apply names_module; auto. eapply head_placed; eauto.
  - unfold absent in At, Ar. rewrite At, Ar in Sl. destruct Sl as (n' & x & Fn & Ft & Fs & Mx). rewrite Et in Fn. destruct Fn as ([|? [|]] & [= <-]). cbn in Pt.
    destruct (made_struct _ _ _ Mx Tt Pt) as (tx & -> & Nx & Sx). rewrite Fs.
    assert (Hn : has e "name" (element_name e)). { destruct Pr as [(v & V)|(v & V)]; unfold has, element_name in *; [rewrite V; auto|congruence]. }
    assert (Cl := part_clear e _ Pe Hn). destruct (type_name_nested u tns xsn _ Cl) as [Ox Ux]. destruct (own_token u tns xsn _ Ox) as (w & W). destruct Ox as [[_ Cx] Bx]. destruct Mt as [Ne Np].
    rewrite (nested_ty u tns xsn (st_name t) (fl_type f)); rewrite ?Ft; auto.
    2:{ intros [X Y]. apply (built_in_none (element_name e ++ lit "Type") None (element_name e ++ lit "Type") xsn) in Bx; [|split; auto]. apply Bx. split; auto. apply builtins_names. auto. }
    inversion It as [s inner B E1| | | | |]; subst. rewrite map_app, concat_app in Ic.
    assert (Inx : In (EStruct tx) (SpecGen.nested t)). { unfold SpecGen.nested. apply in_or_app. right. apply in_concat. exists (fl_subtypes f). split; [apply in_map; auto|rewrite Fs; left; auto]. }
    destruct (SpecGen.nested t) as [|y ys] eqn:Ey; [destruct Inx|]. destruct (nested_placed _ _ (p ++ [ident (st_name t)]) (EStruct tx) B Inx) as (a & Ia & Ja).
    { intros z Iz. apply Ic. apply in_or_app. right. cbn [map placed List.concat]. rewrite app_nil_r. right. auto. }
    assert (Mo : models (Complex n) (EStruct tx)).
    { split; [assert (Inn : In n (tagged_children ["simpleType"; "complexType"] e)) by (rewrite Et; left; auto); apply in_tagged in Inn as [I1 I2]; eapply part_trans; [eapply part_kid; eauto|auto]|].
      exists tx. split; auto. rewrite Nx. split; [apply (clear_M u tns xsn _ Cl)|]. split; auto. split; [intros s gs r C; destruct (made_slots u schema own xsd f0 f1 O AF H L NC _ _ _ _ _ _ Mx Tt C) as (t2 & [= <-] & _ & _ & X); auto|].
      intros d b s gs r Rs C. eapply (made_restricted u schema own xsd f0 f1 O AF H L NC); eauto. }
    destruct (head_item _ a (models_typelike _ _ Mo) Ia) as (i & r & -> & Di). cbn [entity_name] in Di. rewrite Nx, W in Di. rewrite W, (word_nonempty _ Ne).
    eapply g_ent; eauto; [|intros q' X; discriminate X]. apply names_module; auto. eapply head_placed; eauto.
Qed.

(** ** Names of members *)
Lemma colon_qualified q p l : qualified q p l -> colon_split q = (p, l).
Proof.
  assert (X : forall p l, ~ In 58 p -> before_colon (p ++ 58 :: l) = Some (p, l)).
  { induction p0 as [|c p0 IH]; intros m N; cbn; auto. assert (Nc : c <> 58) by (intros ->; apply N; left; auto). apply N.eqb_neq in Nc. rewrite Nc. rewrite IH; auto. intros Y. apply N. right. auto. }
  assert (Y : forall s, ~ In 58 s -> before_colon s = None).
  { induction s as [|c s IH]; intros N; cbn; auto. assert (Nc : c <> 58) by (intros ->; apply N; left; auto). apply N.eqb_neq in Nc. rewrite Nc. rewrite IH; auto. intros Z. apply N. right. auto. }
  unfold colon_split. destruct p as [p|]; intros [Q1 Q2]; [subst q; change (p ++ [58] ++ l) with (p ++ 58 :: l); rewrite (X p l Q2)|rewrite (Y q Q2); subst]; auto.
Qed.
Definition fname (f : field entity) : qname :=
  let '(p, n) := colon_split (fl_name f) in
  match fl_source f with FromElement => (match p with Some _ => p | None => own end, n) | _ => (p, n) end.
Notation member := (member u tns tid ident).
Notation members := (members u tns tid ident).
Lemma attribute_member_iff m f x : fl_source f = FromAttribute -> attribute_member (member m f) x <-> x = fname f.
Proof.
  intros S. unfold attribute_member, in_instance, argued, fname. cbn [member rf_attrs]. unfold field_attrs. rewrite S. destruct (colon_split (fl_name f)) as [p n]. split.
  - intros (_ & (l & [[= <-]|[]] & I) & _ & X). destruct x as [q k]. cbn [fst snd] in *.
    assert (k = n). { destruct I as [I|I]; [discriminate|]. apply in_app_or in I as [I|[I|[]]]; [|congruence]. destruct p; cbn in I; [destruct I as [I|[]]; discriminate|destruct I]. } subst k. f_equal.
    destruct q as [q|].
    + destruct X as (l & [[= <-]|[]] & J). destruct J as [J|J]; [discriminate|]. apply in_app_or in J as [J|[J|[]]]; [|discriminate]. destruct p; cbn in J; [destruct J as [J|[]]; congruence|destruct J].
    + destruct p as [p|]; auto. exfalso. apply (X (Some p)). eexists. split; [left; reflexivity|]. right. left. auto.
  - intros ->. cbn [fst snd]. split; [eexists; split; [left; reflexivity|left; auto]|]. split; [eexists; split; [left; reflexivity|right; apply in_or_app; right; left; auto]|]. split.
    + intros (l & [[= <-]|[]] & I). destruct I as [I|I]; [discriminate|]. apply in_app_or in I as [I|[I|[]]]; [|discriminate]. destruct p; cbn in I; [destruct I as [I|[]]; discriminate|destruct I].
    + destruct p as [p|]; [eexists; split; [left; reflexivity|right; left; auto]|]. intros q (l & [[= <-]|[]] & I). destruct I as [I|[I|[]]]; discriminate.
Qed.
Lemma element_member_iff m f x : fl_source f = FromElement -> element_member (member m f) x <-> x = fname f.
Proof.
  intros S. unfold element_member, in_instance, argued, fname. cbn [member rf_attrs]. unfold field_attrs. rewrite S. destruct (colon_split (fl_name f)) as [p n].
  assert (E : (match p with Some _ => p | None => match tns with Some t => ns_name t | None => None end end) = match p with Some _ => p | None => own end) by (destruct p; auto).
  rewrite E. generalize (match p with Some _ => p | None => own end) as q. clear p E. intros p. split.
  - intros (_ & (l & [[= <-]|[]] & I) & _ & X). destruct x as [q k]. cbn [fst snd] in *.
    assert (k = n). { apply in_app_or in I as [I|[I|[]]]; [|congruence]. destruct p; cbn in I; [destruct I as [I|[]]; discriminate|destruct I]. } subst k. f_equal.
    destruct q as [q|].
    + destruct X as (l & [[= <-]|[]] & J). apply in_app_or in J as [J|[J|[]]]; [|discriminate]. destruct p; cbn in J; [destruct J as [J|[]]; congruence|destruct J].
    + destruct p as [p|]; auto. exfalso. apply (X (Some p)). eexists. split; [left; reflexivity|]. left. auto.
  - intros ->. cbn [fst snd]. split.
    + intros (l & [[= <-]|[]] & I). apply in_app_or in I as [I|[I|[]]]; [|discriminate]. destruct p; cbn in I; [destruct I as [I|[]]; discriminate|destruct I].
    + split; [eexists; split; [left; reflexivity|apply in_or_app; right; left; auto]|]. split.
      * intros (l & [[= <-]|[]] & I). apply in_app_or in I as [I|[I|[]]]; [|discriminate]. destruct p; cbn in I; [destruct I as [I|[]]; discriminate|destruct I].
      * destruct p as [p|]; [eexists; split; [left; reflexivity|left; auto]|]. intros q (l & [[= <-]|[]] & I). destruct I as [I|[]]; discriminate.
Qed.
Lemma element_not_attribute m f x : fl_source f = FromElement -> ~ attribute_member (member m f) x.
Proof.
  intros S ((l & I & J) & _). cbn [member rf_attrs] in I. unfold field_attrs in I. rewrite S in I. destruct (colon_split (fl_name f)) as [p n]. destruct I as [[= <-]|[]].
  apply in_app_or in J as [J|[J|[]]]; [|discriminate]. destruct p, tns; cbn in J; try (destruct J as [J|[]]; discriminate); try destruct J. destruct (ns_name _); cbn in J; destruct J; [discriminate|auto].
Qed.
Lemma attribute_not_element m f x : fl_source f = FromAttribute -> ~ element_member (member m f) x.
Proof.
  intros S (X & _). apply X. unfold argued. cbn [member rf_attrs]. unfold field_attrs. rewrite S. destruct (colon_split (fl_name f)) as [p n]. eexists. split; [left; reflexivity|left; auto].
Qed.
Lemma ref_clear e q l : part e schema -> tag "element" e -> has e "ref" q -> to_own own xsd q l -> clear l.
Proof.
  intros Pe Te Hr (p & Q & NB & Pp). destruct (Or e Pe) as (R & _). destruct (R q) as (p' & l' & Q' & K). { left. split; [eexists; split; [left; reflexivity|exact Te]|auto]. }
  destruct (qualified_unique _ _ _ _ _ Q Q') as [<- <-]. destruct K as [K|[(_ & _ & K)|(x & ns & -> & _ & _ & No & _)]]; [contradiction|eapply introduced_clear; eauto|].
  destruct Pp as [Pp|Pp]; [discriminate|congruence].
Qed.
Lemma element_fname e f x : eslot made e f -> part e schema -> regular_element schema own xsd e -> element_named schema own xsd e x -> x = fname f /\ local_name e = Some (snd x).
Proof.
  intros (Te & En & S & _) Pe (_ & _ & Rn & _) Ne. unfold fname, local_name. rewrite S, En. unfold element_name. inversion Ne as [nm Hn Fm|nm Hn Fm|q l An Hr To]; subst.
  - unfold has in Hn. rewrite Hn. cbn [pick]. rewrite (colon_qualified nm None nm); auto. split; auto. eapply NC; eauto.
  - exfalso. apply Fm. apply Rn. exists nm. auto.
  - assert (Cl := ref_clear e q l Pe Te Hr To). unfold absent in An. unfold has in Hr. rewrite An, Hr. cbn [pick]. destruct To as (p & Q & _ & Pp). rewrite (colon_qualified q p l Q). cbn [snd]. split.
    + destruct p as [p|]; auto. destruct Pp as [Pp|Pp]; [discriminate|]. rewrite Pp. auto.
    + f_equal. apply local_part_ok. split; [apply Cl|]. destruct p as [p|]; destruct Q as [Q _]; [right; exists p|left]; auto.
Qed.
Lemma slot_fname e f : eslot made e f -> part e schema -> regular_element schema own xsd e -> local_name e = Some (snd (fname f)).
Proof.
  intros Ef Pe Re. assert (X : exists x, element_named schema own xsd e x).
  { destruct Re as (_ & Pr & Rn & Rr & _). destruct (attribute e (lit "name")) as [nm|] eqn:En; [exists (own, nm); apply en_qualified; auto; apply Rn; exists nm; auto|].
    destruct Pr as [(v & V)|(v & V)]; [unfold has in V; congruence|]. destruct (Rr v V) as (l & To). exists (own, l). eapply en_ref; eauto. }
  destruct X as (x & X). destruct (element_fname e f x Ef Pe Re X) as [-> Y]. auto.
Qed.
Lemma attribute_fname a f : aslot a f -> part a schema -> regular_attribute schema a -> forall x, attribute_named schema own a x <-> x = fname f.
Proof.
  intros (Ta & S & _ & _ & E & _) Pa (R1 & R2) x. destruct (E Ta) as (N & _). unfold fname. rewrite S. destruct N as [N|[N1 N2]].
  - assert (Nm := NC _ _ Pa N). rewrite (colon_qualified _ None (fl_name f)) by (split; auto). split.
    + intros X. inversion X as [nm Hn Fm|nm Hn Fm|q p l An]; subst; [exfalso; apply R1 in Fm; auto; exists nm; auto| |unfold has, absent in *; congruence]. unfold has in *. congruence.
    + intros ->. apply an_unqualified; auto. apply R1. eexists. eauto.
  - destruct (R2 N1 _ N2) as (p & l & Q). rewrite (colon_qualified _ _ _ Q). split.
    + intros X. inversion X as [nm Hn Fm|nm Hn Fm|q p' l' An Hr Q']; subst; try (unfold has, absent in *; congruence). assert (q = fl_name f) by (unfold has in *; congruence). subst q. destruct (qualified_unique _ _ _ _ _ Q Q') as [<- <-]. auto.
    + intros ->. eapply an_ref; eauto.
Qed.

(** ** Content *)
Definition plain_group (g : node) : Prop := one ["sequence"; "all"] g /\ absent g "minOccurs" /\ absent g "maxOccurs" /\ Forall (regular_element schema own xsd) (particles g).
Lemma body_groups n : regular_body schema own xsd n -> Forall plain_group (groups_of n) /\ Forall (regular_element schema own xsd) (body_elements n) /\ Forall (regular_attribute schema) (body_attributes n).
Proof.
  intros (B & _ & Ra). destruct B as [B|(c & B & Oc & A1 & A2 & F)].
  - rewrite groups_of_content, B, (body_none n B). repeat (split; auto). constructor.
  - rewrite (body_group n c B Oc), groups_of_content, B. cbn [filter]. rewrite (group_tagged c Oc). split; auto. constructor; [|constructor]. split; auto.
Qed.
Lemma composed_bodies t s gs r : composed t s gs r -> Forall plain_group gs /\ Forall (regular_element schema own xsd) (elements gs) /\ Forall (regular_attribute schema) r.
Proof.
  intros C. induction C as [t r Rt E At|t c d q l b s gs r r' Rt E Tc Od Tdd Hq To De Cb IH At|t c d q r' Rt E Tc Od Tdd Hq Tn At].
  - destruct (composed_inv _ _ _ _ _ _ _ (composed_plain schema own xsd regular t r Rt E At)) as [(B & _ & _ & Er)|(c & d & q & l & b & gs0 & r0 & Ec & _ & Tc & _)]; [rewrite Er; apply body_groups; auto|].
    exfalso. assert (Y : In c (tagged_children content_tags t)) by (rewrite Ec; left; auto). apply in_tagged in Y as [Y _].
    assert (Z : In c (tagged_children ["complexContent"; "simpleContent"] t)) by (apply in_tagged; split; auto; eexists; split; [left; reflexivity|auto]). rewrite E in Z. destruct Z.
  - destruct (composed_inv _ _ _ _ _ _ _ (composed_extension schema own xsd regular t c d q l b s gs r r' Rt E Tc Od Tdd Hq To De Cb At)) as [(B & _)|(c' & d' & _ & _ & _ & _ & _ & Ec & _ & _ & Od' & _ & _ & _ & Bd & _)].
    + rewrite (body_no_content _ _ _ _ B) in E. discriminate.
    + assert (c' = c). { unfold tagged_children in E. rewrite (tagged_split _ content_tags) in E by (unfold content_tags; cbn; intuition subst; tauto). fold (tagged_children content_tags t) in E. rewrite Ec in E. cbn [filter] in E. destruct (existsb _ _); [congruence|discriminate]. }
      subst c'. assert (d' = d). { apply only_final in Od. apply only_final in Od'. congruence. } subst d'.
      assert (Er : r' = body_attributes d) by (eapply attributed_plain; eauto; apply Bd). rewrite Er. destruct IH as (I1 & I2 & I3). destruct (body_groups d Bd) as (J1 & J2 & J3). rewrite map_app, concat_app. repeat split; apply Forall_app; auto.
  - exfalso. assert (X := composed_not_text _ _ _ _ _ _ _ (composed_text schema own xsd regular t c d q r' Rt E Tc Od Tdd Hq Tn At)). discriminate.
Qed.
Definition run (e : node) (l : list (node * inst)) : Prop := (forall x, In x l -> fst x = e) /\ occurs e (N.of_nat (List.length l)).
Lemma element_run e l : tag "element" e -> arranged e l -> run e l.
Proof.
  intros T X. inversion X as [p runs Oc F]; subst. assert (Y : Forall (fun r => exists k, r = [(e, k)]) runs).
  { eapply Forall_impl; [|exact F]. intros r Z. inversion Z as [? k T'|? k T'|? ps T'|? ps ? T'|? ? ? T']; subst; eauto; unfold tag in *; rewrite T in T'; discriminate. }
  assert (EL : List.length (concat runs) = List.length runs) by (clear - Y; induction Y as [|? ? (k & ->) Y IH]; cbn; auto).
  split; [|rewrite EL; auto]. intros x I. apply in_concat in I as (r & Ir & I). rewrite Forall_forall in Y. destruct (Y r Ir) as (k & ->). destruct I as [<-|[]]. auto.
Qed.
Lemma occurs_once g k : absent g "minOccurs" -> absent g "maxOccurs" -> occurs g k -> k = 1.
Proof.
  clear.
  intros A1 A2 (a & b & [[_ ->]|(s & X & _)] & [[_ ->]|[[X' _]|(s' & k' & X' & _)]] & L1 & L2); unfold has, absent in *; try congruence. cbn in L2. lia.
Qed.
Lemma group_runs g l : plain_group g -> arranged g l -> exists PP, Forall2 run (particles g) PP /\ Permutation l (concat PP).
Proof.
  intros (Og & A1 & A2 & F) X. inversion X as [p runs Oc Fr]; subst. apply occurs_once in Oc; auto. destruct runs as [|r [|]]; cbn in Oc; try (exfalso; lia). inversion Fr as [|? ? Or' _]; subst. cbn [List.concat]. rewrite app_nil_r.
  assert (Y : forall ps, Forall2 arranged (particles g) ps -> Forall2 run (particles g) ps).
  { intros ps Z. eapply Forall2_imp; [|exact Z]. intros e l' Ie Al. rewrite Forall_forall in F. apply element_run; auto. apply F. auto. }
  destruct Og as (t & It & T). inversion Or' as [? k T'|? k T'|? ps T' Fp|? ps ? T' Fp Pm|? ? ? T']; subst.
  3:{ exists ps. split; auto. } 3:{ exists ps. split; auto. symmetry. auto. }
  all: exfalso; cbn in It; destruct It as [<-|[<-|[]]]; unfold tag in *; rewrite T in T'; discriminate.
Qed.
Lemma content_runs gs parts : Forall plain_group gs -> Forall2 arranged gs parts -> exists PP, Forall2 run (elements gs) PP /\ Permutation (concat parts) (concat PP).
Proof.
  intros F X. induction X as [|g l gs parts Ag X IH]; [exists []; split; constructor|]. inversion F; subst. destruct IH as (PP & F1 & P1); auto. destruct (group_runs g l) as (QQ & F2 & P2); auto.
  exists (QQ ++ PP). cbn [map List.concat]. split; [apply Forall2_app; auto|]. rewrite concat_app. apply Permutation_app; auto.
Qed.
Lemma Permutation_filter' {B} (p : B -> bool) l r : Permutation l r -> Permutation (filter p l) (filter p r).
Proof. intros X. induction X; cbn; [constructor|destruct (p x); auto|destruct (p x), (p y); auto; constructor|eapply perm_trans; eauto]. Qed.
Lemma name_eqb_iff a b : name_eqb a b = true <-> a = b.
Proof.
  destruct a as [[p|] n], b as [[q|] m]; unfold name_eqb; cbn [fst snd]; rewrite ?andb_true_iff, ?str_eqb_eq; cbn; split; intros X; try (destruct X; congruence); try discriminate; try (injection X as -> ->; auto); try (injection X as ->; auto).
Qed.
Lemma number_runs es PP e x : Forall2 run es PP -> NoDup (map local_name es) -> In e es -> local_name e = Some (snd x) ->
  (forall e' k, In (e', k) (concat PP) -> local_name e' = Some (snd (inst_name k)) /\ (e' = e -> inst_name k = x)) -> exists k, occurs e k /\ number x (map snd (concat PP)) = k.
Proof.
  intros F N I El X. eexists. split; [|reflexivity]. revert N I X. induction F as [|e' l es PP R F IH]; intros N I X; [destruct I|]. cbn [map] in N. inversion N as [|? ? N1 N2]; subst.
  cbn [List.concat] in *. unfold number in *. rewrite map_app, filter_app, app_length. destruct I as [->|I].
  - assert (E1 : filter (fun i => name_eqb (inst_name i) x) (map snd l) = map snd l).
    { apply filter_id. intros i Ii. apply in_map_iff in Ii as ([e1 k] & <- & Ik). cbn. apply name_eqb_iff. destruct (X e1 k) as [_ Y]; [apply in_or_app; auto|]. apply Y. apply (proj1 R _ Ik). }
    assert (E2 : filter (fun i => name_eqb (inst_name i) x) (map snd (concat PP)) = []).
    { apply filter_nil. intros i Ii. apply not_true_iff_false. intros Y. apply name_eqb_iff in Y. apply in_map_iff in Ii as ([e1 k] & <- & Ik). cbn in Y. destruct (X e1 k) as [Z _]; [apply in_or_app; auto|].
      apply in_concat in Ik as (l' & Il & Ik). destruct (Forall2_in_r _ _ _ _ F Il) as (e2 & Ie & R2). assert (e1 = e2) by (apply (proj1 R2 _ Ik)). subst e2. apply N1. apply in_map_iff. exists e1. split; auto. rewrite Z, El, Y. auto. }
    rewrite E1, E2, map_length. cbn [List.length]. rewrite Nat.add_0_r. apply R.
  - assert (E1 : filter (fun i => name_eqb (inst_name i) x) (map snd l) = []).
    { apply filter_nil. intros i Ii. apply not_true_iff_false. intros Y. apply name_eqb_iff in Y. apply in_map_iff in Ii as ([e1 k] & <- & Ik). cbn in Y. destruct (X e1 k) as [Z _]; [apply in_or_app; auto|].
      assert (e1 = e') by (apply (proj1 R _ Ik)). subst e1. apply N1. apply in_map_iff. exists e. split; auto. rewrite Z, El, Y. auto. }
    rewrite E1. cbn [List.length]. apply IH; auto. intros e1 k Ik. apply X. apply in_or_app. auto.
Qed.
Lemma holds_count e m r t k : container e m -> occurs e k -> r = [] \/ r = [MRecursive] -> ~ (xsd_min e 0 /\ present e "maxOccurs" /\ (xsd_max e (Some 0) \/ xsd_max e (Some 1))) ->
  holds u (modified u t (m :: r)) t k.
Proof.
  intros C (a & b & Ha & Hb & L1 & L2) R N. assert (AB : at_most a b) by (destruct b; cbn in *; lia). apply container_iff in C.
  assert (Na : natural a b m). { rewrite <- C. apply (natural_iff e a b Ha Hb AB). intros (-> & Pm & Y). apply N. split; auto. split; auto. destruct Y as [Y|Y]; rewrite Y in Hb; auto. }
  assert (Nm : m = MArray \/ m = MOption \/ m = MNone). { apply container_iff in C. inversion C; auto. }
  unfold modified. destruct R as [->| ->].
  - destruct Nm as [->|[->| ->]]; cbn [existsb modifier_eqb orb fold_left wrap].
    + right. right. auto.
    + right. left. split; auto. destruct b as [j|]; cbn in Na, L2; [|discriminate]. destruct Na as (Y & _). assert (~ 1 < j) by (intros Z; specialize (Y Z); discriminate). lia.
    + left. split; auto. destruct b as [j|]; cbn in Na, L2; [|discriminate]. destruct Na as (Y & Z & _). assert (~ 1 < j) by (intros W; specialize (Y W); discriminate). assert (a <> 0) by (intros W; specialize (Z ltac:(lia) W); discriminate). lia.
  - right. right. destruct Nm as [->|[->| ->]]; reflexivity.
Qed.

(** ** Instances *)
Lemma names_same path t p i p' i' : names u P path t p i -> names u P path t p' i' -> p = p' /\ i = i'.
Proof. intros [S _] [_ U]. apply U; auto. Qed.
Lemma known_simple path t p e i r s : items e (i :: r) -> incl (concat (map (placed p) (i :: r))) P -> names u P path t p i -> models (Simple s) e -> known path t (Simple s) -> makes path t s.
Proof.
  intros It Ic Na (_ & Fs) Kn. destruct s as [q|n]; [apply Kn; auto|]. destruct Fs as (Pn & Tn & pn & anc & e0 & nm & Hp & ->). eapply makes_within; eauto.
Qed.
(** [V]: the texts allowed; [text]: what is wanted of them; [K] and [KA]: further conditions on
    complex types and attributes. *)
Context (V : sref -> str -> Prop) (text : list str -> list token -> str -> Prop).
Context (G1 : forall path t s x, makes path t s -> V s x -> text path t x).
Context (K KA : node -> Prop).
Context (HK : forall t s gs r, K t -> SpecFit.composed schema own xsd (fun _ => True) t s gs r -> Forall KA r).
Notation atype a := (ty (pick (attribute a (lit "type")) (attribute a (lit "ref")) (lit "String"))).
Notation attribute_typed := (attribute_typed schema own xsd).
Context (GA : forall a p v, KA a -> (forall s, attribute_typed a s -> V s v) -> text p (atype a) v).
Notation ordered := (fun t => regular t /\ K t).
Notation valid := (SpecFit.valid schema own xsd ordered V).
Notation fits := (fits u P text).
Lemma composed_mono (R S : node -> Prop) t s gs r : (forall n, R n -> S n) -> SpecFit.composed schema own xsd R t s gs r -> SpecFit.composed schema own xsd S t s gs r.
Proof. intros I C. induction C; [apply composed_plain|eapply composed_extension|eapply composed_text]; eauto. Qed.
Lemma attributes_mono (V1 V2 : sref -> str -> Prop) r attrs : (forall s x, V1 s x -> V2 s x) -> attributes_fit schema own xsd V1 r attrs -> attributes_fit schema own xsd V2 r attrs.
Proof. intros I [A1 A2]. split; auto. intros n v J. destruct (A1 n v J) as (a & Ia & Na & Np & Ty). exists a. repeat (split; auto). Qed.
Lemma valid_mono (R S : node -> Prop) (V1 V2 : sref -> str -> Prop) T i : (forall n, R n -> S n) -> (forall s x, V1 s x -> V2 s x) -> SpecFit.valid schema own xsd R V1 T i -> SpecFit.valid schema own xsd S V2 T i.
Proof. intros I J X. induction X; [apply valid_simple; auto|eapply valid_complex; eauto]. { eapply composed_mono; eauto. } eapply attributes_mono; eauto. Qed.
Lemma valid_proper T i : valid T i -> proper_type T.
Proof. intros X. inversion X as [|t s gs r n attrs parts x typing C]; subst; [exact Logic.I|]. assert (Y : regular t /\ K t) by (inversion C; auto). left. apply Y. Qed.
Lemma same_named a a' x : regular_attribute schema a -> regular_attribute schema a' -> attribute_named schema own a x -> attribute_named schema own a' x -> local_name a = local_name a'.
Proof.
  intros (R1 & R2) (R1' & R2') N N'. unfold local_name. inversion N as [nm Hn Fm|nm Hn Fm|q p l An Hr Q]; inversion N' as [nm' Hn' Fm'|nm' Hn' Fm'|q' p' l' An' Hr' Q']; subst;
    try (exfalso; apply R1 in Fm; auto; eexists; eauto; fail); try (exfalso; apply R1' in Fm'; auto; eexists; eauto; fail).
  - unfold has in *. rewrite Hn, Hn'. congruence.
  - exfalso. destruct (R2' An' _ Hr') as (p & l & Q2). destruct (qualified_unique _ _ _ _ _ Q' Q2) as [E _]. match goal with X : (_, _) = (_, _) |- _ => injection X; intros; congruence end.
  - exfalso. destruct (R2 An _ Hr) as (p' & l' & Q2). destruct (qualified_unique _ _ _ _ _ Q Q2) as [E _]. match goal with X : (_, _) = (_, _) |- _ => injection X; intros; congruence end.
  - match goal with X : (_, _) = (_, _) |- _ => injection X as -> -> end. unfold has, absent in *. rewrite An, Hr, An', Hr'. destruct (R2 An _ Hr) as (p0 & l0 & Q2). destruct (qualified_unique _ _ _ _ _ Q Q2) as [-> ->]. destruct Q as [-> _]. destruct Q' as [-> _]. auto.
Qed.
Lemma nodup_same {B C} (f : B -> C) l a b : NoDup (map f l) -> In a l -> In b l -> f a = f b -> a = b.
Proof.
  intros N I J E. induction l as [|y l IHl]; [destruct I|]. cbn in N. inversion N as [|? ? N1 N2]; subst.
  destruct I as [->|I], J as [->|J]; auto; exfalso; apply N1; [rewrite E|rewrite <- E]; apply in_map; auto.
Qed.
Lemma in_members m fs f : In f fs -> ~ In MEmpty (fl_mods f) -> In (member m f) (members m fs).
Proof.
  intros I N. unfold SpecGen.members. apply in_map_iff. exists f. split; auto. apply filter_In. split; auto. apply negb_true_iff, not_true_iff_false. intros X. apply existsb_exists in X as (y & Iy & E). apply N. destruct y; try discriminate. auto.
Qed.
Lemma members_in m fs g : In g (members m fs) -> exists f, In f fs /\ g = member m f /\ ~ In MEmpty (fl_mods f).
Proof.
  unfold SpecGen.members. intros I. apply in_map_iff in I as (f & <- & I). apply filter_In in I as [I E]. exists f. split; auto. split; auto. intros X. apply negb_true_iff in E. enough (existsb (modifier_eqb MEmpty) (fl_mods f) = true) by congruence. apply existsb_exists. exists MEmpty. auto.
Qed.
Lemma element_kept e f : eslot made e f -> ~ In MEmpty (fl_mods f).
Proof.
  intros (_ & _ & _ & (m & r & C & -> & R) & _) [E|I]; [subst m; inversion C|]. destruct R as [->| ->]; [destruct I|destruct I as [I|[]]; discriminate].
Qed.
Lemma use_type m f a : aslot a f -> ~ In MEmpty (fl_mods f) -> exists mo, (mo = MNone \/ mo = MOption) /\ rf_type (member m f) = modified u (atype a) [mo].
Proof.
  intros (Ta & _ & Es & _ & E & _) Ne. destruct (E Ta) as (_ & Et & mo & Um & Em). exists mo. split.
  - inversion Um as [U|U|U|U]; subst mo; auto; exfalso; apply Ne; rewrite Em; left; auto.
  - cbn [member rf_type]. rewrite Es, Et, Em. auto.
Qed.
(** A struct with the right members holds an instance, if the types of the members hold the
    children in the sense of [Q]. *)
Lemma struct_shape (Q : list str -> list token -> inst -> Prop) (atext : qname -> list str -> list token -> str -> Prop) path t p st i r' gs r attrs parts : items (EStruct st) (i :: r') -> incl (concat (map (placed p) (i :: r'))) P -> names u P path t p i ->
  (forall e, In e (elements gs) -> exists f, In f (st_fields st) /\ eslot made e f) -> (forall a, In a r -> exists f, In f (st_fields st) /\ aslot a f) ->
  (forall f, In f (st_fields st) -> (exists e, In e (elements gs) /\ eslot made e f) \/ (exists a, In a r /\ aslot a f)) ->
  NoDup (map local_name (elements gs ++ r)) -> Forall plain_group gs -> Forall (regular_element schema own xsd) (elements gs) -> Forall (regular_attribute schema) r ->
  (forall e, In e (elements gs) -> part e schema) -> (forall a, In a r -> part a schema) -> (forall a x p v, In a r -> attribute_named schema own a x -> (forall s, attribute_typed a s -> V s v) -> atext x p (atype a) v) ->
  attributes_fit schema own xsd V r attrs -> Forall2 arranged gs parts ->
  (forall e k, In (e, k) (concat parts) -> tag "element" e -> element_named schema own xsd e (inst_name k)) ->
  (forall e k f, In (e, k) (concat parts) -> In f (st_fields st) -> eslot made e f -> Q p (ty (match fl_subtypes f with [] => fl_type f | _ => ident (st_name st) ++ lit "::" ++ fl_type f end)) k) ->
  exists d a m fs, names u P path t p (IStruct d a m fs) /\
    (forall x v, In (x, v) attrs -> exists f, In f fs /\ attribute_member f x) /\
    (forall f x, In f fs -> attribute_member f x -> exists c, holds u (rf_type f) c 1 /\ forall v, In (x, v) attrs -> atext x p c v) /\
    (forall f x, In f fs -> attribute_member f x -> ~ In x (map fst attrs) -> exists c, rf_type f = rust u "Option<" ++ c ++ rust u ">") /\
    (forall k, In k (map snd (concat parts)) -> exists f, In f fs /\ element_member f (inst_name k)) /\
    (forall f x, In f fs -> element_member f x -> exists c, holds u (rf_type f) c (number x (map snd (concat parts))) /\
       forall k, In k (map snd (concat parts)) -> inst_name k = x -> Q p c k) /\
    (forall f, In f fs -> exists x, attribute_member f x \/ element_member f x).
Proof.
  clear GA HK. intros It Ic Na S1 S2 S3 ND Gs Re Ra Pe Pa Ka Af Ar En Ev. rewrite Forall_forall in Re, Ra.
  destruct (content_runs gs parts Gs Ar) as (PP & Fr & Pm).
  assert (Src : forall e k, In (e, k) (concat parts) -> In e (elements gs)).
  { intros e k I. apply (Permutation_in _ Pm) in I. apply in_concat in I as (l & Il & I). destruct (Forall2_in_r _ _ _ _ Fr Il) as (e' & Ie & R). assert (e = e') by (apply (proj1 R _ I)). subst e'. auto. }
  assert (Tag : forall e, In e (elements gs) -> tag "element" e) by (intros e I; apply Re; auto).
  assert (Loc : forall e k, In (e, k) (concat parts) -> local_name e = Some (snd (inst_name k)) /\ forall f, eslot made e f -> inst_name k = fname f).
  { intros e k I. assert (Ie := Src e k I). assert (Nk := En e k I (Tag e Ie)). destruct (S1 e Ie) as (f & If & Ef). destruct (element_fname e f _ Ef (Pe e Ie) (Re e Ie) Nk) as [_ Y]. split; auto.
    intros g Eg. apply (element_fname e g _ Eg (Pe e Ie) (Re e Ie) Nk). }
  assert (NDe : NoDup (map local_name (elements gs))) by (rewrite map_app in ND; apply nodup_disjoint in ND; apply ND).
  assert (Same : forall e e', In e (elements gs) -> In e' (elements gs) -> local_name e = local_name e' -> e = e').
  { intros e e' I I' El. clear - NDe I I' El. induction (elements gs) as [|y l IHl]; [destruct I|]. cbn in NDe. inversion NDe as [|? ? N1 N2]; subst.
    destruct I as [->|I], I' as [->|I']; auto; exfalso; apply N1; [rewrite El|rewrite <- El]; apply in_map; auto. }
  assert (NDa : NoDup (map local_name r)) by (rewrite map_app in ND; apply nodup_disjoint in ND; apply ND).
  inversion It as [s' inner B Es' Ei| | | | |]; subst. do 4 eexists. split; [exact Na|]. split; [|split; [|split; [|split; [|split]]]].
  + intros x v Ix. destruct Af as [Af _]. destruct (Af x v Ix) as (a & Ia & Na' & Np & _). destruct (S2 a Ia) as (f & If & Ef). exists (member (ident (st_name st)) f).
    assert (X := proj1 (attribute_fname a f Ef (Pa a Ia) (Ra a Ia) x) Na'). destruct Ef as (Ta & Sf & _ & _ & E & _). destruct (E Ta) as (_ & _ & m & Um & Em). split; [|apply attribute_member_iff; auto].
    apply in_members; auto. rewrite Em. intros [->|[]]. inversion Um. contradiction.
  + intros g x Ig Ag. apply members_in in Ig as (f & If & -> & Ne). destruct (S3 f If) as [(e & Ie & Ef)|(a & Ia & Ef)]; [exfalso; eapply element_not_attribute; [|exact Ag]; apply Ef|].
    apply attribute_member_iff in Ag; [|apply Ef].
    destruct (use_type (ident (st_name st)) f a Ef Ne) as (mo & Mo & ->). exists (atype a). split; [destruct Mo as [->| ->]; [left; split; reflexivity|right; left; split; [reflexivity|lia]]|].
    intros v Ix. destruct Af as [Af _]. destruct (Af x v Ix) as (a' & Ia' & Na' & _ & Vx).
    assert (a' = a). { apply (nodup_same local_name r); auto. apply (same_named a' a x); auto. apply (attribute_fname a f); auto. } subst a'. apply (Ka a); auto.
  + intros g x Ig Ag Nx. apply members_in in Ig as (f & If & -> & Ne). destruct (S3 f If) as [(e & Ie & Ef)|(a & Ia & Ef)]; [exfalso; eapply element_not_attribute; [|exact Ag]; apply Ef|].
    assert (X := attribute_fname a f Ef (Pa a Ia) (Ra a Ia)). destruct Ef as (Ta & Sf & _ & _ & E & _). destruct (E Ta) as (_ & _ & m & Um & Em). apply attribute_member_iff in Ag; auto. subst x.
    cbn [member rf_type]. rewrite Em. inversion Um as [U|U|U|U]; subst m.
    * eexists. reflexivity.
    * eexists. reflexivity.
    * exfalso. apply Ne. rewrite Em. left. auto.
    * exfalso. apply Nx. destruct Af as [_ Af]. apply (Af a); auto. apply X. auto.
  + intros k Ik. apply in_map_iff in Ik as ([e k'] & <- & Ik). cbn [snd] in *. assert (Ie := Src _ _ Ik). destruct (S1 e Ie) as (f & If & Ef). exists (member (ident (st_name st)) f).
    split; [apply in_members; auto; eapply element_kept; eauto|]. apply element_member_iff; [apply Ef|]. apply (Loc e k' Ik). auto.
  + intros g x Ig Eg. apply members_in in Ig as (f & If & -> & Ne). destruct (S3 f If) as [(e & Ie & Ef)|(a & Ia & Ef)]; [|exfalso; eapply attribute_not_element; [|exact Eg]; apply Ef].
    apply element_member_iff in Eg; [|apply Ef]. subst x. eexists. split.
    * cbn [member rf_type]. pose proof Ef as Ef'. destruct Ef' as (_ & _ & _ & (m & rr & Cm & Em & Rm) & _). rewrite Em.
      assert (El := slot_fname e f Ef (Pe e Ie) (Re e Ie)).
      destruct (number_runs _ _ e (fname f) Fr NDe Ie El) as (k & Ok & Ek).
      { intros e' k I. apply (Permutation_in _ (Permutation_sym Pm)) in I. destruct (Loc e' k I) as [L1 L2]. split; auto. intros ->. auto. }
      assert (Ek' : number (fname f) (map snd (concat parts)) = k). { rewrite <- Ek. unfold number. f_equal. apply Permutation_length. apply Permutation_filter'. apply Permutation_map. auto. }
      rewrite Ek'. eapply holds_count; eauto. apply (Re e Ie).
    * intros k Ik Nk. apply in_map_iff in Ik as ([e' k'] & <- & Ik). cbn [snd] in *. assert (Ie' := Src _ _ Ik). destruct (Loc e' k' Ik) as [L1 L2].
      assert (e' = e). { apply Same; auto. rewrite L1, Nk. symmetry. apply slot_fname; auto. } subst e'.
      apply (Ev e k' f Ik If Ef).
  + intros g Ig. apply members_in in Ig as (f & If & -> & Ne). exists (fname f). destruct (S3 f If) as [(e & Ie & Ef)|(a & Ia & Ef)]; [right; apply element_member_iff; auto; apply Ef|left; apply attribute_member_iff; auto; apply Ef].
Qed.
(** In the sense of [fits]. *)
Lemma struct_holds path t p st i r' gs r nm attrs parts : items (EStruct st) (i :: r') -> incl (concat (map (placed p) (i :: r'))) P -> names u P path t p i ->
  (forall e, In e (elements gs) -> exists f, In f (st_fields st) /\ eslot made e f) -> (forall a, In a r -> exists f, In f (st_fields st) /\ aslot a f) ->
  (forall f, In f (st_fields st) -> (exists e, In e (elements gs) /\ eslot made e f) \/ (exists a, In a r /\ aslot a f)) ->
  NoDup (map local_name (elements gs ++ r)) -> Forall plain_group gs -> Forall (regular_element schema own xsd) (elements gs) -> Forall (regular_attribute schema) r ->
  (forall e, In e (elements gs) -> part e schema) -> (forall a, In a r -> part a schema) -> (forall a, In a r -> KA a) ->
  attributes_fit schema own xsd V r attrs -> Forall2 arranged gs parts ->
  (forall e k, In (e, k) (concat parts) -> tag "element" e -> element_named schema own xsd e (inst_name k)) ->
  (forall e k f, In (e, k) (concat parts) -> In f (st_fields st) -> eslot made e f -> fits p (ty (match fl_subtypes f with [] => fl_type f | _ => ident (st_name st) ++ lit "::" ++ fl_type f end)) k) ->
  fits path t (Inst nm attrs (map snd (concat parts)) []).
Proof.
  intros It Ic Na S1 S2 S3 ND Gs Re Ra Pe Pa Ka Af Ar En Ev. destruct (struct_shape fits (fun _ => text) path t p st i r' gs r attrs parts) as (d & a & m & fs & N & X1 & X2 & X3 & X4 & X5 & X6); auto. eapply fits_struct; eauto.
Qed.
Theorem valid_fits T i : valid T i -> forall path t, goal path t T -> fits path t i.
Proof.
  intros X. induction X as [sr n x Vx|n s gs r nm attrs parts x typing C' Af Ar Ex En Ety Ev IH]; intros path t G.
  - remember (Simple sr) as T eqn:ET. induction G as [path s q Is Sk|path t p e i r T It Ic Na Mo Kn|path t p d m t' T Na G IHG]; try subst T.
    + injection ET as <-. apply fits_library; eauto.
    + assert (Sk := known_simple _ _ _ _ _ _ _ It Ic Na Mo Kn). destruct Mo as [[(tu & ->)|(en & -> & Mo)] _]; inversion It; subst; [eapply fits_tuple; eauto|]. eapply fits_enum; eauto. destruct Mo as [Mo|Mo]; [left; rewrite Mo; left; auto|right].
      intros v Iv Nv. apply in_app_or in Iv as [Iv|[<-|[]]]; [|destruct Nv; auto]. apply in_map_iff in Iv as (c & <- & Ic'). rewrite Forall_forall in Mo. unfold case_variant. destruct (colon_split _). cbn. rewrite (Mo c Ic'). auto.
    + eapply fits_alias; eauto.
  - assert (Kn : K n) by (inversion C'; tauto). assert (C : composed n s gs r) by (eapply composed_mono; [|exact C']; intros ? Y; apply Y).
    assert (Ka : Forall KA r) by (eapply HK; [exact Kn|]; eapply composed_mono; [|exact C']; auto). rewrite Forall_forall in Ka.
    remember (Complex n) as T eqn:ET. induction G as [path y ? Is|path t p e i r' T It Ic Na Mo _|path t p d m t' T Na G IHG]; [discriminate|subst T|subst T; eapply fits_alias; eauto].
    destruct Mo as (Pn & st & -> & Mn & Su & Sl & _). specialize (Sl s gs r C). destruct Sl as (S1 & S2 & S3 & _).
    assert (Rn := composed_regular _ _ _ _ _ _ _ C). destruct Rn as (Nmix & _ & ND). specialize (ND _ _ _ (composed_any _ _ _ _ _ _ _ _ C)).
    assert (x = []). { destruct Ex as [Ex|[Ex|Ex]]; auto; [|contradiction]. rewrite (composed_not_text _ _ _ _ _ _ _ C) in Ex. discriminate. } subst x.
    destruct (composed_bodies _ _ _ _ C) as (Gs & Re & Ra).
    assert (Parts : (forall e, In e (elements gs) -> part e schema) /\ (forall a, In a r -> part a schema)).
    { destruct (composed_parts schema own xsd _ _ _ _ _ C Pn) as [Y1 Y2]. rewrite Forall_forall in Re. split; [intros e I; apply Y1; auto; apply Re; auto|intros a I; apply Y2; auto]. }
    destruct Parts as [Pe Pa]. rewrite Forall_forall in Re, Ra.
    eapply (struct_holds path t p st i r' gs r); eauto; try (rewrite Forall_forall; assumption).
    intros e k f Ik If Ef. assert (Ie : In e (elements gs)).
    { destruct (content_runs gs parts Gs Ar) as (PP & Fr & Pm). apply (Permutation_in _ Pm) in Ik. apply in_concat in Ik as (l & Il & Ik). destruct (Forall2_in_r _ _ _ _ Fr Il) as (e' & Ie & R). assert (e = e') by (apply (proj1 R _ Ik)). subst e'. auto. }
    apply (IH e k Ik (proj1 (Re e Ie))). eapply slot_goal; eauto; [apply (Ety e k Ik); apply (Re e Ie)|]. eapply valid_proper. apply (Ev e k Ik). apply (Re e Ie).
Qed.

(** ** Restrictions *)
Lemma nodup_join' {B} (a b : list B) : NoDup a -> NoDup b -> (forall x, In x a -> In x b -> False) -> NoDup (a ++ b).
Proof.
  intros Na. induction Na as [|x a N Na IH]; intros Nb D; auto. cbn. constructor; [|apply IH; auto; intros y I J; apply (D y); auto; right; auto].
  intros I. apply in_app_or in I as [I|I]; [auto|]. apply (D x); auto. left. auto.
Qed.
Lemma nodup_kept {B} (f : B -> option str) (p : B -> bool) l : NoDup (map f l) -> NoDup (map f (filter p l)).
Proof.
  induction l as [|x l IH]; intros N; cbn; auto. cbn in N. inversion N as [|? ? N1 N2]; subst. destruct (p x); auto. cbn. constructor; auto. intros I. apply N1. apply in_map_iff in I as (y & <- & I). apply filter_In in I as [I _]. apply in_map. auto.
Qed.
Lemma restricted_names d gs r : NoDup (map local_name (restated d)) -> NoDup (map local_name (elements gs ++ r)) ->
  NoDup (map local_name ((body_elements d ++ kept (restated d) (elements gs)) ++ body_attributes d ++ kept (restated d) r)).
Proof.
  intros N1 N2. assert (X : NoDup (map local_name (restated d ++ kept (restated d) (elements gs ++ r)))).
  { rewrite map_app. apply nodup_join'; auto; [apply nodup_kept; auto|]. intros x I J. apply in_map_iff in I as (a & <- & Ia), J as (b & E & Ib). apply kept_iff in Ib as [_ Ib]. apply (Ib a Ia). auto. }
  eapply Permutation_NoDup; [|exact X]. apply Permutation_map. unfold restated at 1. fold (body_elements d) (body_attributes d). unfold kept. rewrite filter_app. rewrite <- !app_assoc. apply Permutation_app_head. rewrite !app_assoc. apply Permutation_app_tail. apply Permutation_app_comm.
Qed.
(** The elements a restriction drops, as a group that may be empty. *)
Definition dropped (l : list node) : node := Elem (lit "sequence") [] [] l.
Lemma dropped_particles l : Forall (tag "element") l -> particles (dropped l) = l.
Proof.
  intros F. rewrite Forall_forall in F. unfold particles. cbn [dropped children]. apply filter_id. intros x I. specialize (F x I). apply andb_true_iff. split; [destruct x; auto; vm_compute in F; discriminate F|].
  apply negb_true_iff. apply (tagged_not _ "annotation" _ F). reflexivity.
Qed.
Lemma dropped_arranged l : Forall (tag "element") l -> (forall e, In e l -> occurs e 0) -> arranged (dropped l) [].
Proof.
  intros F Oc. apply (arranged_runs (dropped l) [[]]).
  - exists 1, (Some 1). split; [left; split; reflexivity|]. split; [left; split; reflexivity|]. cbn. lia.
  - constructor; [|constructor]. assert (E : [] = concat (map (fun _ : node => @nil (node * inst)) l)) by (clear; induction l; auto). assert (Y : once (dropped l) (concat (map (fun _ : node => @nil (node * inst)) l))); [|rewrite <- E in Y; exact Y]. apply once_sequence; [reflexivity|]. rewrite (dropped_particles l F).
    clear F E. induction l as [|e l IH]; constructor; [apply (arranged_runs e []); [apply Oc; left; auto|constructor]|apply IH; intros; apply Oc; right; auto].
Qed.
Notation sound := (sound schema own xsd).
Lemma sound_proper T i : sound T i -> proper_type T.
Proof. intros X. inversion X; subst; [exact Logic.I|left; eapply composed_regular; eauto|right; eauto]. Qed.
Lemma any_attributes r attrs : (forall s x, V s x) -> attributes_fit schema own xsd any_text r attrs -> attributes_fit schema own xsd V r attrs.
Proof. intros X. apply attributes_mono. auto. Qed.
Theorem sound_fits T i : (forall path t x, text path t x) -> (forall s x, V s x) -> (forall a, KA a) -> sound T i -> forall path t, goal path t T -> fits path t i.
Proof.
  intros Any AnyV AnyK X. induction X as [sr n x|n s gs r nm attrs parts typing C Af Ar En Ety Ev IH|n d b s gs r nm attrs parts typing Rs C Af Ar En Ety Ev IH]; intros path t G.
  - remember (Simple sr) as T eqn:ET. induction G as [path s q Is Sk|path t p e i r T It Ic Na Mo Kn|path t p d m t' T Na G IHG]; try subst T.
    + injection ET as <-. apply fits_library; auto.
    + destruct Mo as [[(tu & ->)|(en & -> & Mo)] _]; inversion It; subst; [eapply fits_tuple; eauto|]. eapply fits_enum; eauto. destruct Mo as [Mo|Mo]; [left; rewrite Mo; left; auto|right].
      intros v Iv Nv. apply in_app_or in Iv as [Iv|[<-|[]]]; [|destruct Nv; auto]. apply in_map_iff in Iv as (c & <- & Ic'). rewrite Forall_forall in Mo. unfold case_variant. destruct (colon_split _). cbn. rewrite (Mo c Ic'). auto.
    + eapply fits_alias; eauto.
  - remember (Complex n) as T eqn:ET. induction G as [path y ? Is|path t p e i r' T It Ic Na Mo _|path t p d m t' T Na G IHG]; [discriminate|subst T|subst T; eapply fits_alias; eauto].
    destruct Mo as (Pn & st & -> & Mn & Su & Sl & _). specialize (Sl s gs r C). destruct Sl as (S1 & S2 & S3 & _).
    assert (Rn := composed_regular _ _ _ _ _ _ _ C). destruct Rn as (Nmix & _ & ND). specialize (ND _ _ _ (composed_any _ _ _ _ _ _ _ _ C)). destruct (composed_bodies _ _ _ _ C) as (Gs & Re & Ra).
    assert (Parts : (forall e, In e (elements gs) -> part e schema) /\ (forall a, In a r -> part a schema)).
    { destruct (composed_parts schema own xsd _ _ _ _ _ C Pn) as [Y1 Y2]. rewrite Forall_forall in Re. split; [intros e I; apply Y1; auto; apply Re; auto|intros a I; apply Y2; auto]. }
    destruct Parts as [Pe Pa]. rewrite Forall_forall in Re, Ra.
    eapply (struct_holds path t p st i r' gs r); eauto using any_attributes; try (rewrite Forall_forall; assumption).
    intros e k f Ik If Ef. assert (Ie : In e (elements gs)).
    { destruct (content_runs gs parts Gs Ar) as (PP & Fr & Pm). apply (Permutation_in _ Pm) in Ik. apply in_concat in Ik as (l & Il & Ik). destruct (Forall2_in_r _ _ _ _ Fr Il) as (e' & Ie & R). assert (e = e') by (apply (proj1 R _ Ik)). subst e'. auto. }
    apply (IH e k Ik (proj1 (Re e Ie))). eapply slot_goal; eauto; [apply (Ety e k Ik); apply (Re e Ie)|]. eapply sound_proper. apply (Ev e k Ik). apply (Re e Ie).
  - remember (Complex n) as T eqn:ET. induction G as [path y ? Is|path t p e i r' T It Ic Na Mo _|path t p d' m t' T Na G IHG]; [discriminate|subst T|subst T; eapply fits_alias; eauto].
    destruct Mo as (Pn & st & -> & Mn & Su & _ & Sl). destruct (Sl d b s gs r Rs C) as (S1 & S2 & S3). destruct (restricts_part schema own xsd n d b Rs Pn) as [Pd Pb].
    destruct Rs as (_ & _ & Bd & ND1 & Rb & Cond). destruct (Cond s gs r C) as [_ Dr]. clear Cond. destruct Rb as (_ & _ & ND2). specialize (ND2 _ _ _ (composed_any _ _ _ _ _ _ _ _ C)).
    destruct (composed_bodies _ _ _ _ C) as (_ & Re & Ra). destruct (body_groups d Bd) as (Gd & Red & Rad). rewrite Forall_forall in Re, Ra, Red, Rad.
    set (l := kept (restated d) (elements gs)) in *. assert (Kl : forall e, In e l -> In e (elements gs)) by (intros e I; apply kept_iff in I; apply I).
    assert (Tl : Forall (tag "element") l) by (apply Forall_forall; intros e I; apply Re; auto).
    assert (El : elements (groups_of d ++ [dropped l]) = body_elements d ++ l). { rewrite map_app, concat_app. cbn [map List.concat]. rewrite (dropped_particles l Tl), app_nil_r. auto. }
    assert (RE : forall e, In e (body_elements d ++ l) -> regular_element schema own xsd e) by (intros e I; apply in_app_or in I as [I|I]; auto).
    assert (RA : forall a, In a (body_attributes d ++ kept (restated d) r) -> regular_attribute schema a) by (intros a I; apply in_app_or in I as [I|I]; auto; apply Ra; apply kept_iff in I; apply I).
    destruct (composed_parts schema own xsd _ _ _ _ _ C Pb) as [Y1 Y2]. destruct (body_parts schema d Pd) as [Z1 Z2].
    assert (Pe : forall e, In e (body_elements d ++ l) -> part e schema) by (intros e I; assert (T := proj1 (RE e I)); apply in_app_or in I as [I|I]; [apply Z1; auto|apply Y1; auto]).
    assert (Pa : forall a, In a (body_attributes d ++ kept (restated d) r) -> part a schema) by (intros a I; apply in_app_or in I as [I|I]; [apply Z2; auto|apply Y2; apply kept_iff in I; apply I]).
    assert (Gs : Forall plain_group (groups_of d ++ [dropped l])).
    { apply Forall_app. split; auto. constructor; [|constructor]. split; [exists "sequence"%string; split; [cbn; auto|reflexivity]|]. split; [reflexivity|]. split; [reflexivity|]. rewrite (dropped_particles l Tl). apply Forall_forall. auto. }
    assert (Ar' : Forall2 arranged (groups_of d ++ [dropped l]) (parts ++ [[]])) by (apply Forall2_app; auto; constructor; [|constructor]; apply dropped_arranged; auto).
    assert (Ep : concat (parts ++ [[]]) = concat parts) by (rewrite concat_app; cbn; rewrite !app_nil_r; auto).
    rewrite <- Ep in *. rewrite <- El in S1, S3, RE, Pe.
    eapply (struct_holds path t p st i r' (groups_of d ++ [dropped l]) (body_attributes d ++ kept (restated d) r)); eauto using any_attributes; try (rewrite Forall_forall; assumption).
    + rewrite El. apply restricted_names; auto.
    + intros e k f Ik If Ef. assert (Ie : In e (elements (groups_of d ++ [dropped l]))).
      { destruct (content_runs _ _ Gs Ar') as (PP & Fr & Pm). apply (Permutation_in _ Pm) in Ik. apply in_concat in Ik as (l' & Il & Ik). destruct (Forall2_in_r _ _ _ _ Fr Il) as (e' & Ie & R). assert (e = e') by (apply (proj1 R _ Ik)). subst e'. auto. }
      apply (IH e k Ik (proj1 (RE e Ie))). eapply slot_goal; eauto; [apply (Ety e k Ik); apply (RE e Ie)|]. eapply sound_proper. apply (Ev e k Ik). apply (RE e Ie).
Qed.

(** ** Writing *)
(** [V']: the texts allowed of what is written; [W]: texts of one value; [wtext]: what is written. *)
Context (V' : sref -> str -> Prop) (W : sref -> str -> str -> Prop) (wtext : list str -> list token -> str -> str -> Prop).
Context (G2 : forall path t s x y, makes path t s -> V s x -> wtext path t x y -> W s x y) (GV : forall s x y, W s x y -> V' s y).
Notation same_attribute := (same_attribute schema own xsd W).
Context (GA2 : forall a m p v w c, KA a -> m = MNone \/ m = MOption -> (forall s, attribute_typed a s -> V s v) -> holds u (modified u (atype a) [m]) c 1 -> wtext p c v w ->
  same_attribute a v w /\ forall s, attribute_typed a s -> V' s w).
Notation written := (written u P wtext).
Notation valid' := (SpecFit.valid schema own xsd ordered V').
Notation same := (same schema own xsd W).
Lemma written_name path t i o : written path t i o -> inst_name o = inst_name i.
Proof. intros X. induction X; auto. Qed.
Lemma library_free s path p i : In s library_types -> ~ names u P path (rust u s) p i.
Proof.
  intros I [S _]. destruct Un as [_ B]. assert (I' := I). cbn [library_types In] in I.
  repeat (destruct I as [<-|I]; [vm_compute in S; inversion S as [w p1 r j E J D E2|m w j J D E2]; subst; destruct (B _ _ _ J D) as [X Y];
    first [match type of D with defines _ [TWord ?x] => match goal with I' : In ?s library_types |- _ => apply (X s); [vm_compute; tauto|reflexivity] end end|apply Y, in_or_app; right; left; reflexivity]|]).
  destruct I.
Qed.
Lemma simple_written path t s n x o : goal path t (Simple s) -> V s x -> written path t (Inst n [] [] x) o -> exists y, o = Inst n [] [] y /\ W s x y.
Proof.
  intros G Vx. remember (Simple s) as T eqn:ET. induction G as [path l q Is Sk|path t p e i r T It Ic Na Mo Kn|path t p d m t' T Na G IHG]; intros X; try subst T.
  - injection ET as <-. remember (rust u l) as t eqn:Et. inversion X as [? l' ? ? y Is' Tx|? ? ? ? ? ? ? ? Na'|? ? ? ? ? ? ? ? ? y Na'|? ? ? ? ? ? ? ? ? y Na'|? ? ? ? ? ? ? ? ? ? ? Na']; subst;
      try (exfalso; eapply library_free; eauto; fail). exists y. split; auto. eapply G2; eauto. match goal with E : rust u _ = rust u _ |- _ => rewrite <- E end. auto.
  - assert (Sk := known_simple _ _ _ _ _ _ _ It Ic Na Mo Kn).
    inversion X as [? l' ? ? y Is' Tx|? ? ? ? ? ? ? ? Na'|? ? ? ? ? ? ? ? ? y Na' Tx|? ? ? ? ? ? ? ? ? y Na' Te Tx|? ? ? ? ? ? ? ? ? ? ? Na']; subst; [exfalso; eapply library_free; eauto| |eauto|eauto|];
      exfalso; destruct (names_same _ _ _ _ _ _ Na Na') as [_ E]; destruct Mo as [[(tu & ->)|(en & -> & _)] _]; inversion It; subst; discriminate.
  - inversion X as [? l' ? ? y Is' Tx|? ? ? ? ? ? ? ? Na'|? ? ? ? ? ? ? ? ? y Na' Tx|? ? ? ? ? ? ? ? ? y Na' Te Tx|? ? ? ? ? ? ? ? ? ? ? Na']; subst; [exfalso; eapply library_free; eauto|..];
      destruct (names_same _ _ _ _ _ _ Na Na') as [E1 E2]; try discriminate E2. injection E2 as <- <- <-. subst. auto.
Qed.
Definition second (t : list token) : Prop := match t with _ :: TPunct 60 :: _ => False | _ => True end.
Lemma seen_second path t p i : seen u P path t p i -> second t.
Proof. intros X. inversion X; exact Logic.I. Qed.
Lemma library_second s : In s library_types -> second (rust u s).
Proof. unfold library_types. cbn [In]. intros X. repeat (destruct X as [<-|X]; [exact Logic.I|]). destruct X. Qed.
Lemma goal_second path t T : goal path t T -> second t.
Proof. intros G. destruct G as [path s q I|path t p e i r T _ _ Na _ _|path t p d m t' T Na _]; [apply library_second; auto|eapply seen_second; apply Na|eapply seen_second; apply Na]. Qed.
Lemma written_second path t i o : written path t i o -> second t.
Proof. intros X. destruct X as [path s n x y I|? ? ? ? ? ? ? ? Na|? ? ? ? ? ? ? ? ? ? Na|? ? ? ? ? ? ? ? ? ? Na|? ? ? ? ? ? ? ? ? ? ? Na]; [apply library_second; auto|eapply seen_second; apply Na..]. Qed.
Lemma holds_inner m r t c k : m = MArray \/ m = MOption \/ m = MNone -> r = [] \/ r = [MRecursive] -> second t -> second c -> holds u (modified u t (m :: r)) c k -> c = t.
Proof.
  intros Nm R S1 S2 X. assert (Vo : forall a b, rust u "Vec<" ++ a ++ rust u ">" = rust u "Vec<" ++ b ++ rust u ">" -> a = b) by (intros a b Y; cbn in Y; injection Y; apply app_inv_tail).
  assert (Oo : forall a b, rust u "Option<" ++ a ++ rust u ">" = rust u "Option<" ++ b ++ rust u ">" -> a = b) by (intros a b Y; cbn in Y; injection Y; apply app_inv_tail).
  assert (Y : modified u t (m :: r) = t \/ modified u t (m :: r) = rust u "Option<" ++ t ++ rust u ">" \/ modified u t (m :: r) = rust u "Vec<" ++ t ++ rust u ">").
  { destruct R as [->| ->]; destruct Nm as [->|[->| ->]]; auto. }
  destruct Y as [Y|[Y|Y]]; rewrite Y in X; destruct X as [[<- _]|[[X _]|X]]; auto; try (subst; destruct S1; fail); try (destruct S2; fail); try discriminate.
Qed.
Lemma element_arranged e l : tag "element" e -> run e l -> arranged e l.
Proof.
  intros T [Fe Oc]. assert (E : concat (map (fun x : node * inst => [x]) l) = l) by (clear; induction l; cbn; congruence). rewrite <- E. constructor; [rewrite map_length; auto|].
  apply Forall_forall. intros r I. apply in_map_iff in I as ([e' k] & <- & I). rewrite (Fe _ I : e' = e). constructor. auto.
Qed.
Lemma group_arranged g PP : plain_group g -> Forall2 run (particles g) PP -> arranged g (concat PP).
Proof.
  intros (Og & A1 & A2 & F) X. assert (E : concat PP = concat [concat PP]) by (cbn; rewrite app_nil_r; auto). rewrite E. constructor; [exists 1, (Some 1); repeat split; try (left; auto); cbn; lia|].
  assert (Y : Forall2 arranged (particles g) PP). { eapply Forall2_imp; [|exact X]. intros e l I Rl. apply element_arranged; auto. rewrite Forall_forall in F. apply (F e I). }
  constructor; [|constructor]. destruct Og as (t & [<-|[<-|[]]] & T); [apply once_sequence|eapply once_all]; eauto.
Qed.
Lemma content_arranged gs PP : Forall plain_group gs -> Forall2 run (elements gs) PP -> exists parts, Forall2 arranged gs parts /\ concat parts = concat PP.
Proof.
  intros F. revert PP. induction F as [|g gs Pg F IH]; intros PP X; cbn [map List.concat] in X; [inversion X; subst; exists []; auto|]. apply Forall2_app_inv_l in X as (QQ & RR & X1 & X2 & ->).
  destruct (IH RR X2) as (parts & Y & E). exists (concat QQ :: parts). split; [constructor; auto; apply group_arranged; auto|]. cbn [List.concat]. rewrite concat_app, E. auto.
Qed.
Lemma single_elements gs gs' : (forall a g b h c, gs = a ++ g :: b ++ h :: c -> particles g = [] \/ particles h = []) -> Permutation gs' gs -> elements gs' = elements gs.
Proof.
  intros S Pm. set (full := fun g : node => match particles g with [] => false | _ => true end).
  assert (E : forall l, elements l = elements (filter full l)). { intros l. induction l as [|g l IH]; auto. cbn [map filter List.concat]. unfold full at 1. destruct (particles g) eqn:Eg; [exact IH|]. cbn [map List.concat]. rewrite Eg, IH. auto. }
  rewrite (E gs), (E gs'). f_equal. f_equal. assert (X := Permutation_filter' full _ _ Pm). assert (Ln : (List.length (filter full gs) <= 1)%nat).
  { clear - S. induction gs as [|g l IH]; cbn; [lia|]. assert (IH' : (List.length (filter full l) <= 1)%nat) by (apply IH; intros a x b h c ->; apply (S (g :: a) x b h c); auto).
    destruct (full g) eqn:Eg; auto. destruct (filter full l) as [|h r] eqn:El; [cbn; lia|]. exfalso. assert (Ih : In h (filter full l)) by (rewrite El; left; auto). apply filter_In in Ih as [Ih Fh].
    apply in_split in Ih as (b & c & ->). unfold full in Eg, Fh. destruct (S [] g b h c eq_refl) as [Y|Y]; rewrite Y in *; discriminate. }
  destruct (filter full gs) as [|g [|]]; cbn in Ln; try lia; [apply Permutation_sym, Permutation_nil in X; auto|apply Permutation_sym, Permutation_length_1_inv in X; auto].
Qed.
Lemma outs_fields (outs : list (rfield * (list (qname * str) * list (inst * inst)))) m fs :
  (forall f, In f fs -> from_element f = true -> ~ In MEmpty (fl_mods f)) ->
  (forall f l ks, In f fs -> from_element f = false -> In (member m f, (l, ks)) outs -> ks = []) ->
  map fst outs = members m fs ->
  exists KS, Forall2 (fun f ks => exists l, In (member m f, (l, ks)) outs) (filter from_element fs) KS /\ concat (map (fun o => snd (snd o)) outs) = concat KS.
Proof.
  intros Kp At. enough (G : forall os, incl os outs -> map fst os = members m fs ->
    exists KS, Forall2 (fun f ks => exists l, In (member m f, (l, ks)) outs) (filter from_element fs) KS /\ concat (map (fun o => snd (snd o)) os) = concat KS) by (intros E; apply G; auto; apply incl_refl).
  induction fs as [|f fs IH]; intros os I0 E.
  - destruct os; [|discriminate]. exists []. split; [constructor|auto].
  - unfold SpecGen.members in E. cbn [filter] in E. destruct (negb (existsb (modifier_eqb MEmpty) (fl_mods f))) eqn:Sh.
    + destruct os as [|[g [l ks]] os]; [discriminate|]. cbn [map fst] in E. injection E as -> E.
      destruct (IH (fun g I => Kp g (or_intror I)) (fun g l ks I => At g l ks (or_intror I)) os) as (KS & F & Ec); [intros y I; apply I0; right; auto|exact E|].
      assert (In0 := I0 _ (or_introl eq_refl)). cbn [map List.concat filter snd fst]. destruct (from_element f) eqn:Ef.
      * exists (ks :: KS). split; [constructor; eauto|]. cbn [List.concat]. rewrite Ec. auto.
      * rewrite (At f l ks (or_introl eq_refl) Ef In0). exists KS. auto.
    + destruct (IH (fun g I => Kp g (or_intror I)) (fun g l ks I => At g l ks (or_intror I)) os I0 E) as (KS & F & Ec). cbn [filter]. destruct (from_element f) eqn:Ef; [|eauto].
      exfalso. apply (Kp f (or_introl eq_refl) Ef). apply negb_false_iff in Sh. apply existsb_exists in Sh as (y & Iy & Ey). destruct y; try discriminate. auto.
Qed.
Lemma retag (Q : node -> list (inst * inst) -> Prop) es KS : Forall2 Q es KS ->
  exists PP, Forall2 (fun e pp => exists ks, Q e ks /\ pp = map (fun p : inst * inst => (e, snd p)) ks) es PP /\ map snd (concat PP) = map snd (concat KS).
Proof.
  intros F. induction F as [|e ks es KS X F (PP & G & E)]; [exists []; auto|]. exists (map (fun p : inst * inst => (e, snd p)) ks :: PP). split; [constructor; eauto|].
  cbn [List.concat]. rewrite !map_app, E, map_map. auto.
Qed.
Lemma those_app x l r : those x (l ++ r) = those x l ++ those x r. Proof. apply filter_app. Qed.
Lemma those_same x l : those x (those x l) = those x l.
Proof. unfold those. apply filter_id. intros k I. apply filter_In in I. apply I. Qed.
Lemma those_other x y l : x <> y -> those y (those x l) = [].
Proof. intros N. unfold those. apply filter_nil. intros k I. apply filter_In in I as [_ I]. apply name_eqb_iff in I. apply not_true_iff_false. intros X. apply name_eqb_iff in X. congruence. Qed.
Lemma those_all xs (KS : list (list (inst * inst))) kids : Forall2 (fun x ks => map fst ks = those x kids) xs KS -> NoDup xs -> (forall k, In k kids -> In (inst_name k) xs) ->
  forall y, those y (map fst (concat KS)) = those y kids.
Proof.
  intros F N Al y. assert (X : (In y xs -> those y (map fst (concat KS)) = those y kids) /\ (~ In y xs -> those y (map fst (concat KS)) = [])).
  { clear Al. induction F as [|x ks xs KS E F IH]; [split; [intros []|auto]|]. inversion N as [|? ? N1 N2]; subst. destruct (IH N2) as [I1 I2]. cbn [List.concat]. rewrite map_app, those_app, E.
    split; [intros [<-|I]|intros I].
    - rewrite those_same, (I2 N1), app_nil_r. auto.
    - rewrite those_other, (I1 I); auto. intros ->. contradiction.
    - rewrite those_other, I2; auto; [intros Y; apply I; right; auto|intros ->; apply I; left; auto]. }
  destruct X as [X1 X2]. destruct (existsb (name_eqb y) xs) eqn:Ex.
  - apply X1. apply existsb_exists in Ex as (z & Iz & Ez). apply name_eqb_iff in Ez. subst z. auto.
  - assert (Ny : ~ In y xs). { intros I. enough (existsb (name_eqb y) xs = true) by congruence. apply existsb_exists. exists y. split; auto. apply name_eqb_iff. auto. }
    rewrite (X2 Ny). symmetry. unfold those. apply filter_nil. intros k I. apply not_true_iff_false. intros Y. apply name_eqb_iff in Y. apply Ny. rewrite <- Y. auto.
Qed.
Lemma in_values x v attrs : In (x, v) attrs -> In v (values x attrs).
Proof. intros I. unfold values. apply in_map_iff. exists (x, v). split; auto. apply filter_In. split; auto. apply name_eqb_iff. auto. Qed.
Lemma values_in x v attrs : In v (values x attrs) -> In (x, v) attrs.
Proof. unfold values. intros I. apply in_map_iff in I as ([y w] & <- & I). apply filter_In in I as [I E]. apply name_eqb_iff in E. cbn in *. subst. auto. Qed.
Theorem valid_written T i : valid T i -> forall path t o, goal path t T -> written path t i o -> ((forall n, K n -> SpecWrite.one_content schema own xsd n) -> valid' T o) /\ same T i o.
Proof.
  intros X. induction X as [sr n x Vx|n s gs r nm attrs parts x typing C' Af Ar Ex En Ety Ev IH]; intros path t o G Wr.
  { destruct (simple_written _ _ _ _ _ _ G Vx Wr) as (y & -> & Wy). split; [intros _; apply valid_simple; eauto|apply same_simple; auto]. }
  remember (Inst nm attrs (map snd (concat parts)) x) as i0 eqn:Ei.
  remember (Complex n) as T eqn:ET. induction G as [path y ? Is|path t p e it r' T It Ic Na Mo _|path t p d m t' T Na G IHG]; [discriminate| |].
  2:{ inversion Wr as [? ? ? ? ? Is'|? ? p' d' m' t0 ? ? Na' W'|? ? ? ? ? ? ? ? ? ? Na'|? ? ? ? ? ? ? ? ? ? Na'|? ? ? ? ? ? ? ? ? ? ? Na']; subst; [exfalso; eapply library_free; eauto|..];
      destruct (names_same _ _ _ _ _ _ Na Na') as [E1 E]; try discriminate E. injection E as <- <- <-. subst. apply IHG; auto. }
  subst T. destruct Mo as (Pn & st & -> & Mn & Su & Sl & _). inversion It as [s' inner B Es' Ei'| | | | |]; subst it.
  inversion Wr as [? ? ? ? ? Is'|? ? p' d' m' t0 ? ? Na' W'|? ? ? ? ? ? ? ? ? ? Na'|? ? ? ? ? ? ? ? ? ? Na'|? ? p' d a mm fs n' attrs' kids' outs Na' Ef Ho]; subst t; [exfalso; subst; eapply library_free; eauto|..].
  all: destruct (names_same _ _ _ _ _ _ Na Na') as [Ep E]; try discriminate E. subst p'.
  clear Wr H4. rewrite Ei in H3. injection H3 as -> -> -> <-. injection E as _ _ _ E'. rewrite <- E' in Ef. clear E' Ei i0 o.
  assert (C : composed n s gs r) by (eapply composed_mono; [|exact C']; intros ? Y; apply Y).
  assert (Ct : SpecFit.composed schema own xsd (fun _ => True) n s gs r) by (eapply composed_mono; [|exact C']; auto).
  specialize (Sl s gs r C). destruct Sl as (S1 & S2 & S3 & gs' & Pmg & S4).
  assert (Rn := composed_regular _ _ _ _ _ _ _ C). destruct Rn as (Nmix & _ & ND). specialize (ND _ _ _ (composed_any _ _ _ _ _ _ _ _ C)).
  assert (Kn : K n) by (inversion C'; tauto).
  assert (Pme : Permutation (elements gs') (elements gs)) by (clear - Pmg; induction Pmg; cbn [map List.concat]; auto; [apply Permutation_app_head; auto|rewrite !app_assoc; apply Permutation_app_tail, Permutation_app_comm|eapply perm_trans; eauto]).
  destruct (composed_bodies _ _ _ _ C) as (Gs & Re & Ra).
  assert (Parts : (forall e, In e (elements gs) -> part e schema) /\ (forall a, In a r -> part a schema)).
  { destruct (composed_parts schema own xsd _ _ _ _ _ C Pn) as [Y1 Y2]. rewrite Forall_forall in Re. split; [intros e I; apply Y1; auto; apply Re; auto|intros b I; apply Y2; auto]. }
  destruct Parts as [Pe Pa]. rewrite Forall_forall in Re, Ra.
  destruct (content_runs gs parts Gs Ar) as (PP & Fr & Pm).
  assert (Src : forall e k, In (e, k) (concat parts) -> In e (elements gs)).
  { intros e k I. apply (Permutation_in _ Pm) in I. apply in_concat in I as (l & Il & I). destruct (Forall2_in_r _ _ _ _ Fr Il) as (e' & Ie & R). assert (e = e') by (apply (proj1 R _ I)). subst e'. auto. }
  assert (Tag : forall e, In e (elements gs) -> tag "element" e) by (intros e I; apply Re; auto).
  assert (Loc : forall e k, In (e, k) (concat parts) -> local_name e = Some (snd (inst_name k)) /\ forall f, eslot made e f -> inst_name k = fname f).
  { intros e k I. assert (Ie := Src e k I). assert (Nk := En e k I (Tag e Ie)). destruct (S1 e Ie) as (f & If & Ef'). destruct (element_fname e f _ Ef' (Pe e Ie) (Re e Ie) Nk) as [_ Y]. split; auto.
    intros g Eg. apply (element_fname e g _ Eg (Pe e Ie) (Re e Ie) Nk). }
  assert (NDe : NoDup (map local_name (elements gs))) by (rewrite map_app in ND; apply nodup_disjoint in ND; apply ND).
  assert (Same : forall e e', In e (elements gs) -> In e' (elements gs) -> local_name e = local_name e' -> e = e').
  { intros e e' I I' El. clear - NDe I I' El. induction (elements gs) as [|y l IHl]; [destruct I|]. cbn in NDe. inversion NDe as [|? ? N1 N2]; subst.
    destruct I as [->|I], I' as [->|I']; auto; exfalso; apply N1; [rewrite El|rewrite <- El]; apply in_map; auto. }
  set (kids := map snd (concat parts)) in *. set (m := ident (st_name st)) in *.
  (* the written members *)
  assert (Src' : forall f, In f (st_fields st) -> from_element f = true -> exists e, In e (elements gs) /\ eslot made e f).
  { intros f If Fe. destruct (S3 f If) as [Y|(a' & _ & _ & Y & _)]; auto. unfold from_element in Fe. rewrite Y in Fe. discriminate. }
  assert (Src'' : forall f, In f (st_fields st) -> from_element f = false -> exists b, In b r /\ aslot b f).
  { intros f If Fe. destruct (S3 f If) as [(e & _ & _ & _ & Y & _)|Y]; auto. unfold from_element in Fe. rewrite Y in Fe. discriminate. }
  set (Q := fun (f : field entity) (ks : list (inst * inst)) => In f (st_fields st) /\ map fst ks = those (fname f) kids /\
    exists c, holds u (rf_type (member m f)) c (number (fname f) kids) /\ forall k o, In (k, o) ks -> written p c k o).
  destruct (outs_fields outs m (st_fields st)) as (KS & FK & EK).
  { intros f If Fe. destruct (Src' f If Fe) as (e & _ & Y). eapply element_kept; eauto. }
  { intros f l ks If Fe I. destruct (Src'' f If Fe) as (b & _ & Y). destruct (Ho _ _ _ I) as (x & [(_ & Z & _)|(Z & _)]); auto. exfalso. eapply attribute_not_element; [|exact Z]. apply Y. }
  { auto. }
  assert (FQ : Forall2 Q (filter from_element (st_fields st)) KS).
  { eapply Forall2_imp; [|exact FK]. intros f ks I (l & Io). apply filter_In in I as [If Fe]. destruct (Src' f If Fe) as (e & _ & Y). split; auto. destruct (Ho _ _ _ Io) as (x & [(Z & _)|(Z & _ & E1 & E2)]).
    - exfalso. eapply element_not_attribute; [|exact Z]. apply Y.
    - apply element_member_iff in Z; [|apply Y]. subst x. auto. }
  assert (FE := Forall2_compose _ _ _ _ _ S4 FQ). destruct (retag _ _ _ FE) as (PO & FO & EO).
  (* child elements written, and the ones they come from *)
  assert (Orig : forall e ks f k o, In e (elements gs) -> eslot made e f -> Q f ks -> In (k, o) ks -> In (e, k) (concat parts) /\ ((forall n, K n -> SpecWrite.one_content schema own xsd n) -> valid' (typing e) o) /\ same (typing e) k o /\ inst_name o = inst_name k).
  { intros e ks f k o Ie Es (If & E1 & c & Hc & Hw) Ik. assert (Y : In k (those (fname f) kids)) by (rewrite <- E1; apply in_map_iff; exists (k, o); auto).
    unfold those in Y. apply filter_In in Y as [Y Z]. apply name_eqb_iff in Z. apply in_map_iff in Y as ([e' k'] & Ek & Y). cbn in Ek. subst k'. destruct (Loc e' k Y) as [L1 _].
    assert (e' = e). { apply Same; eauto. rewrite L1, Z. symmetry. apply slot_fname; auto. } subst e'. split; auto. specialize (Hw k o Ik). assert (Wn := written_name _ _ _ _ Hw).
    assert (Gl : goal p (ty (match fl_subtypes f with [] => fl_type f | _ => ident (st_name st) ++ lit "::" ++ fl_type f end)) (typing e)).
    { eapply slot_goal; eauto. eapply valid_proper. apply (Ev e k Y). auto. }
    pose proof Es as Es2. destruct Es2 as (_ & _ & _ & (mo & rr & Cm & Em & Rm) & _).
    cbn [member rf_type] in Hc. rewrite Em in Hc. apply holds_inner in Hc; auto; [|apply container_iff in Cm; apply container_iff in Cm; inversion Cm; auto|eapply goal_second; eauto|eapply written_second; eauto].
    subst c. destruct (IH e k Y (Tag e Ie) _ _ _ Gl Hw) as [Y1 Y2]. auto. }
  assert (NDa : NoDup (map local_name r)) by (rewrite map_app in ND; apply nodup_disjoint in ND; apply ND).
  assert (Kr : forall b, In b r -> KA b) by (assert (Y := HK _ _ _ _ Kn Ct); rewrite Forall_forall in Y; exact Y).
  assert (One : forall f l ks, In (member m f, (l, ks)) outs -> In f (st_fields st) -> ~ In MEmpty (fl_mods f) -> forall b, In b r -> aslot b f ->
    exists c, Forall2 (fun v w => wtext p c v w) (values (fname f) attrs) (map snd l) /\ (forall a, In a l -> fst a = fname f) /\
      forall v w, In (fname f, v) attrs -> wtext p c v w -> ~ has b "use" (lit "prohibited") /\ same_attribute b v w /\ forall s, attribute_typed b s -> V' s w).
  { intros f l ks Io If Ne b Ib Ea. destruct (Ho _ _ _ Io) as (z & [(Z & _ & (c & Hc & F2) & Hl)|(Z & _)]); [|exfalso; eapply attribute_not_element; [|exact Z]; apply Ea].
    apply attribute_member_iff in Z; [|apply Ea]. subst z. exists c. split; [exact F2|]. split; [exact Hl|]. intros v w Iv Tw.
    destruct Af as [Af _]. destruct (Af _ v Iv) as (b' & Ib' & Nb' & Np & Vx).
    assert (b' = b). { apply (nodup_same local_name r); auto. apply (same_named b' b (fname f)); auto. apply (attribute_fname b f); auto. } subst b'.
    split; auto. destruct (use_type m f b Ea Ne) as (mo & Mo & Et). rewrite Et in Hc. apply (GA2 b mo p v w c); auto. }
  assert (AttsL : forall y v, In (y, v) attrs -> exists b w, In b r /\ attribute_named schema own b y /\ In (y, w) (concat (map (fun o : rfield * (list (qname * str) * list (inst * inst)) => fst (snd o)) outs)) /\ same_attribute b v w).
  { intros y v Iy. destruct (proj1 Af y v Iy) as (b & Ib & Nb & Np & Vx). destruct (S2 b Ib) as (f & If & Ea).
    assert (X := proj1 (attribute_fname b f Ea (Pa b Ib) (Ra b Ib) y) Nb). subst y.
    assert (Ne : ~ In MEmpty (fl_mods f)). { destruct Ea as (Ta & Sf & _ & _ & E & _). destruct (E Ta) as (_ & _ & mo & Um & Em). rewrite Em. intros [->|[]]. inversion Um. contradiction. }
    assert (Im : In (member m f) (members m (st_fields st))) by (apply in_members; auto).
    rewrite <- Ef in Im. apply in_map_iff in Im as ([g [l ks]] & Eg & Io). cbn in Eg. subst g. destruct (One f l ks Io If Ne b Ib Ea) as (c & F2 & Hl & Y).
    destruct (Forall2_in_l _ _ _ _ F2 (in_values _ _ _ Iy)) as (w & Iw & Tw). exists b, w. destruct (Y v w Iy Tw) as (_ & Sa & _). repeat (split; auto).
    apply in_concat. exists l. split; [apply in_map_iff; exists (member m f, (l, ks)); auto|]. apply in_map_iff in Iw as ([y w'] & Ew & Iw). cbn in Ew. subst w'. assert (Ey := Hl _ Iw). cbn in Ey. subst y. auto. }
  assert (AttsR : forall y w, In (y, w) (concat (map (fun o : rfield * (list (qname * str) * list (inst * inst)) => fst (snd o)) outs)) ->
    exists b v, In b r /\ attribute_named schema own b y /\ In (y, v) attrs /\ ~ has b "use" (lit "prohibited") /\ same_attribute b v w /\ forall s, attribute_typed b s -> V' s w).
  { intros y w I. apply in_concat in I as (l & Il & I). apply in_map_iff in Il as ([g [l' ks]] & El & Io). cbn in El. subst l'.
    assert (Ig : In g (members m (st_fields st))) by (rewrite <- Ef; apply in_map_iff; exists (g, (l, ks)); auto). apply members_in in Ig as (f & If & -> & Ne).
    destruct (S3 f If) as [(e' & Ie & Ee)|(b & Ib & Ea)].
    { destruct (Ho _ _ _ Io) as (z & [(Z & _)|(_ & -> & _)]); [exfalso; eapply element_not_attribute; [|exact Z]; apply Ee|destruct I]. }
    destruct (One f l ks Io If Ne b Ib Ea) as (c & F2 & Hl & Y). assert (Ey := Hl _ I). cbn in Ey. subst y.
    assert (Iw : In w (map snd l)) by (apply in_map_iff; exists (fname f, w); auto).
    destruct (Forall2_in_r _ _ _ _ F2 Iw) as (v & Iv & Tv). apply values_in in Iv. exists b, v. destruct (Y v w Iv Tv) as (Y1 & Y2 & Y3). repeat (split; auto). apply (attribute_fname b f); auto. }
  rewrite EK. split.
  - intros Oc. rewrite (single_elements gs gs' (Oc n Kn _ _ _ (composed_any _ _ _ _ _ _ _ _ C)) Pmg) in FO.
    assert (Run : Forall2 run (elements gs) PO).
    { eapply Forall2_imp; [|exact FO]. intros e pp Ie (ks & (f & Es & Qf) & ->). split; [intros y I; apply in_map_iff in I as (z & <- & _); auto|]. rewrite map_length.
      destruct Qf as (If & E1 & _). assert (El := slot_fname e f Es (Pe e Ie) (Re e Ie)).
      destruct (number_runs _ _ e (fname f) Fr NDe Ie El) as (k & Ok & Ek).
      { intros e' k I. apply (Permutation_in _ (Permutation_sym Pm)) in I. destruct (Loc e' k I) as [L1 L2]. split; auto. intros ->. auto. }
      assert (Ek' : number (fname f) kids = k). { rewrite <- Ek. unfold number. f_equal. apply Permutation_length. apply Permutation_filter'. apply Permutation_map. auto. }
      rewrite <- (map_length fst ks), E1. unfold number in Ek'. fold (those (fname f) kids) in Ek'. rewrite Ek'. auto. }
    destruct (content_arranged gs PO Gs Run) as (parts' & Ar' & Ep).
    assert (Kids : forall e o, In (e, o) (concat parts') -> exists k, In (e, k) (concat parts) /\ valid' (typing e) o /\ inst_name o = inst_name k).
    { intros e o I. rewrite Ep in I. apply in_concat in I as (pp & Ip & I). destruct (Forall2_in_r _ _ _ _ FO Ip) as (e' & Ie & ks & (f & Es & Qf) & ->). apply in_map_iff in I as ([k o'] & [= <- <-] & I). exists k. destruct (Orig _ _ _ _ _ Ie Es Qf I) as (Y1 & Y2 & _ & Y3). auto. }
    rewrite <- EO, <- Ep. eapply (valid_complex schema own xsd ordered V' n s gs r nm _ parts' [] typing); eauto.
    + split.
      * intros y w I. destruct (AttsR y w I) as (b & v & Ib & Nb & _ & Np & _ & Y). eauto 10.
      * intros b y Ib Ub Nb. destruct Af as [_ A2]. assert (Iy := A2 b y Ib Ub Nb). apply in_map_iff in Iy as ([y' v] & Ey & Iy). cbn in Ey. subst y'. destruct (AttsL y v Iy) as (b' & w & _ & _ & Iw & _). apply in_map_iff. exists (y, w). auto.
    + intros e o I Te. destruct (Kids e o I) as (k & Ik & _ & ->). auto.
    + intros e o I Te. destruct (Kids e o I) as (k & Ik & _). eauto.
    + intros e o I Te. destruct (Kids e o I) as (k & Ik & Vo & _). auto.
  - assert (Pairs : forall k o, In (k, o) (concat KS) -> inst_name k = inst_name o /\ exists e T, In e (elements gs) /\ element_named schema own xsd e (inst_name k) /\ type_of schema own xsd e T /\ same T k o).
    { intros k o I. apply in_concat in I as (ks & Ik & I). destruct (Forall2_in_r _ _ _ _ FE Ik) as (e & Ie & f & Es & Qf). destruct (Orig e ks f k o (Permutation_in _ Pme Ie) Es Qf I) as (Y0 & _ & Y1 & Y2). assert (Ie' := Src _ _ Y0). split; auto. exists e, (typing e). eauto 10. }
    eapply same_complex; [exact Ct|intros y v I; destruct (AttsL y v I) as (b & w & ?); exists b, w; tauto|intros y w I; destruct (AttsR y w I) as (b & v & ?); exists b, v; tauto| |intros k o I; apply Pairs; auto|intros k o I; apply Pairs; auto].
    apply (those_all (map fname (filter from_element (st_fields st)))).
    + clear - FQ. induction FQ as [|f ks l KS Y F IHF]; constructor; auto. apply Y.
    + assert (El : map local_name (elements gs') = map (fun x : qname => Some (snd x)) (map fname (filter from_element (st_fields st)))).
      { assert (Pe' : forall e, In e (elements gs') -> part e schema) by (intros; apply Pe; eapply Permutation_in; eauto). assert (Re' : forall e, In e (elements gs') -> regular_element schema own xsd e) by (intros; apply Re; eapply Permutation_in; eauto).
        clear - S4 Pe' Re' O H L Td Or A Un. induction S4 as [|e f es fs Es S4 IHS]; auto. cbn [map]. rewrite (slot_fname e f Es), IHS; auto; intros; first [apply Pe'|apply Re']; cbn; auto. }
      apply (Permutation_NoDup (Permutation_map local_name (Permutation_sym Pme))) in NDe. rewrite El in NDe. apply NoDup_map_inv in NDe. auto.
    + intros k Ik. apply in_map_iff in Ik as ([e k'] & <- & Ik). cbn. destruct (Forall2_in_l _ _ _ _ S4 (Permutation_in _ (Permutation_sym Pme) (Src _ _ Ik))) as (f & If & Es). apply in_map_iff. exists f. split; auto. symmetry. apply (Loc e k' Ik). auto.
Qed.
Lemma start_goal path t T : proper_type T ->
  (exists q, type_named schema own xsd q T /\ regular_type xsd q /\ t = ty q) \/
  (exists l d, SpecFit.declared schema "element" l d /\ absent d "ref" /\ absent d "type" /\ type_of schema own xsd d T /\ t = ty l) -> goal path t T.
Proof.
  intros Pt [(q & Tn & Rq & ->)|(l & d & De & Ar & At & To & ->)]; [eapply named_goal; eauto|].
  destruct (named_element l d T De Ar To Pt) as (C & e & I & [(q & c & Hq & _)|(_ & En & Mo)]); [unfold has, absent in *; congruence|]. eapply top_goal; eauto.
  intros q ->. inversion To; subst; unfold has, absent in *; congruence.
Qed.
End Final.

Theorem document_fits u roots schema f its : document roots schema -> ok_schema schema -> tidy schema -> parse u roots = Ok f ->
  (forall x, part x schema -> orderly u schema (ns_prefix (rf_target_ns f)) (ns_prefix (rf_xsd_ns f)) x) ->
  separate_types schema (SpecGen.ty u (fun q => format_type_name u q (rf_xsd_ns f) (rf_target_ns f))) (format_name u) ->
  all_items u (rf_target_ns f) (fun q => format_type_name u q (rf_xsd_ns f) (rf_target_ns f)) (format_name u) (variant_name u (rf_target_ns f)) (rf_types f) its ->
  let own := ns_prefix (rf_target_ns f) in let xsd := ns_prefix (rf_xsd_ns f) in
  let fits := fits u (concat (map (placed []) its)) any_texts in let ty := SpecGen.ty u (fun q => format_type_name u q (rf_xsd_ns f) (rf_target_ns f)) in
  forall T i path, valid schema own xsd (regular schema own xsd) any_text T i ->
    (forall q, type_named schema own xsd q T -> regular_type xsd q -> fits path (ty q) i) /\
    (forall l d, SpecFit.declared schema "element" l d -> absent d "ref" -> absent d "type" -> type_of schema own xsd d T -> fits path (ty l) i).
Proof.
  intros Do O T H Or Sep A own xsd ft ty Ty i path V. pose proof (distinct_unshadowed _ (document_distinct u roots schema f its Do O T H Or Sep A)) as Un.
  destruct Do as (a & b & -> & E & L). destruct (parse_document u (a ++ schema :: b)) as [PD _].
  destruct (proj1 (proj1 (PD a schema b eq_refl E L) f) H) as (f0 & Hp & Hl). clear PD.
  assert (Vk : valid schema own xsd (fun t => regular schema own xsd t /\ True) any_text Ty i) by (eapply (valid_mono schema f); [| |exact V]; auto).
  assert (Pt := valid_proper schema f any_text (fun _ => True) Ty i Vk).
  assert (G : forall t, (exists q, type_named schema own xsd q Ty /\ regular_type xsd q /\ t = ty q) \/
    (exists l d, SpecFit.declared schema "element" l d /\ absent d "ref" /\ absent d "type" /\ type_of schema own xsd d Ty /\ t = ty l) -> ft path t i).
  { intros t Ht. eapply (valid_fits u schema f0 f its O Hp Hl (proj1 T) Or A Un (fun _ _ _ => True)) with (V := any_text) (K := fun _ => True) (KA := fun _ => True); try (unfold any_texts; tauto); eauto.
    - intros. apply Forall_forall. auto.
    - eapply start_goal; eauto. apply T. }
  split; intros; apply G; eauto 10.
Qed.

(** ** What is read can be written *)
Lemma fits_written u P (text : list str -> list token -> str -> Prop) (wtext : list str -> list token -> str -> str -> Prop) : (forall path t x, text path t x -> exists y, wtext path t x y) ->
  forall path t i, fits u P text path t i -> exists o, written u P wtext path t i o.
Proof.
  intros Tw. fix IH 4. intros path t i Ft. destruct Ft as [path s n x Is Tx|path t p d m t' i Na Ft|path t p d a m c n x Na Tx|path t p d a m vs n x Na Te Tx|path t p d a m fs n attrs kids Na A1 A0 A2 K1 K2 Al].
  - destruct (Tw _ _ _ Tx). eexists. apply written_library; eauto.
  - destruct (IH p t' i Ft) as (o & W). exists o. eapply written_alias; eauto.
  - destruct (Tw _ _ _ Tx). eexists. eapply written_tuple; eauto.
  - destruct (Tw _ _ _ Tx). eexists. eapply written_enum; eauto.
  - set (At := fun (f : rfield) (x : qname) (l : list (qname * str)) => (exists c, holds u (rf_type f) c 1 /\ Forall2 (fun v w => wtext p c v w) (values x attrs) (map snd l)) /\ (forall a, In a l -> fst a = x)).
    assert (Ex : forall f, In f fs -> exists l ks x, attribute_member f x /\ ks = [] /\ At f x l \/
       element_member f x /\ l = [] /\ map fst ks = those x kids /\ exists c, holds u (rf_type f) c (number x kids) /\ forall k o, In (k, o) ks -> written u P wtext p c k o).
    { intros f If. destruct (Al f If) as (x & [Y|Y]).
      - assert (Z : exists l, At f x l).
        { clear - A0 If Y Tw. destruct (A0 f x If Y) as (c & Hc & Tc).
          assert (Z : exists ws, Forall2 (fun v w => wtext p c v w) (values x attrs) ws).
          { assert (Z : forall v, In v (values x attrs) -> text p c v) by (intros v I; apply Tc, values_in; auto). clear - Z Tw. induction (values x attrs) as [|v l IHl]; [exists []; constructor|].
            destruct (Tw _ _ _ (Z v (or_introl eq_refl))) as (w & Hw). destruct IHl as (ws & F); [intros; apply Z; right; auto|]. exists (w :: ws). constructor; auto. }
          destruct Z as (ws & F). exists (map (fun w => (x, w)) ws). split; [|intros a I; apply in_map_iff in I as (w & <- & _); auto]. exists c. split; auto. rewrite map_map. cbn [snd]. rewrite map_id. auto. }
        destruct Z as (l & Z). exists l, [], x. left. auto.
      - destruct (K2 f x If Y) as (c & Hc & Hk). assert (Z : forall k, In k kids -> inst_name k = x -> exists o, written u P wtext p c k o) by (intros k Ik Nk; exact (IH p c k (Hk k Ik Nk))).
        clear - Hc Z Y. assert (Z' : exists ks, map fst ks = those x kids /\ forall k o, In (k, o) ks -> written u P wtext p c k o).
        { clear - Z. assert (Z' : forall k, In k (those x kids) -> exists o, written u P wtext p c k o).
          { intros k I. unfold those in I. apply filter_In in I as [I E]. apply Z; auto. apply name_eqb_iff in E. auto. }
          clear Z. induction (those x kids) as [|k l IHl]; [exists []; split; [auto|intros ? ? []]|]. destruct (Z' k (or_introl eq_refl)) as (o & W). destruct IHl as (ks & E & F); [intros; apply Z'; right; auto|].
          exists ((k, o) :: ks). split; [cbn; congruence|]. intros k' o' [[= <- <-]|I]; auto. }
        destruct Z' as (ks & E & F). exists [], ks, x. right. eauto 10. }
    assert (Outs : exists outs : list (rfield * (list (qname * str) * list (inst * inst))), map fst outs = fs /\ forall f l ks, In (f, (l, ks)) outs -> exists x, attribute_member f x /\ ks = [] /\ At f x l \/
       element_member f x /\ l = [] /\ map fst ks = those x kids /\ exists c, holds u (rf_type f) c (number x kids) /\ forall k o, In (k, o) ks -> written u P wtext p c k o).
    { clear - Ex. induction fs as [|f fs IHf]; [exists []; split; [auto|intros ? ? ? []]|]. destruct (Ex f (or_introl eq_refl)) as (l & ks & x & Y). destruct IHf as (outs & E & F); [intros; apply Ex; right; auto|].
      exists ((f, (l, ks)) :: outs). split; [cbn; congruence|]. intros f' l' ks' [[= <- <- <-]|I]; eauto. }
    destruct Outs as (outs & E & F). eexists. eapply written_struct; eauto.
Qed.

Lemma same_alike schema own xsd : forall T i o, same schema own xsd (fun _ x y => x = y) T i o -> alike i o.
Proof.
  fix IH 4. intros T i o S. destruct S as [s n x y <-|t s gs r n attrs attrs' kids pairs x C A1 A2 K1 K2 K3].
  - apply (alike_intro n [] [] [] []); try tauto; intros ? ? [].
  - assert (E : forall b v w, same_attribute schema own xsd (fun _ x y => x = y) b v w -> v = w) by (intros b v w [Y|(s0 & _ & Y)]; auto).
    apply alike_intro; auto.
    + intros [m v]. split; intros I; [destruct (A1 m v I) as (b & w & _ & _ & J & Y)|destruct (A2 m v I) as (b & w & _ & _ & J & Y)]; apply E in Y; subst; auto.
    + intros k o I. destruct (K3 k o I) as (e & T & _ & _ & _ & S). exact (IH T k o S).
Qed.

Theorem document_written u roots schema f its : document roots schema -> ok_schema schema -> tidy schema -> parse u roots = Ok f ->
  (forall x, part x schema -> orderly u schema (ns_prefix (rf_target_ns f)) (ns_prefix (rf_xsd_ns f)) x) ->
  separate_types schema (SpecGen.ty u (fun q => format_type_name u q (rf_xsd_ns f) (rf_target_ns f))) (format_name u) ->
  all_items u (rf_target_ns f) (fun q => format_type_name u q (rf_xsd_ns f) (rf_target_ns f)) (format_name u) (variant_name u (rf_target_ns f)) (rf_types f) its ->
  let own := ns_prefix (rf_target_ns f) in let xsd := ns_prefix (rf_xsd_ns f) in
  let R := fun t => regular schema own xsd t /\ SpecWrite.one_content schema own xsd t in
  let written := written u (concat (map (placed []) its)) same_text in let ty := SpecGen.ty u (fun q => format_type_name u q (rf_xsd_ns f) (rf_target_ns f)) in
  forall T i path t, valid schema own xsd (regular schema own xsd) any_text T i ->
    (exists q, type_named schema own xsd q T /\ regular_type xsd q /\ t = ty q) \/
    (exists l d, SpecFit.declared schema "element" l d /\ absent d "ref" /\ absent d "type" /\ type_of schema own xsd d T /\ t = ty l) ->
    (exists o, written path t i o) /\
    (forall o, written path t i o -> alike i o) /\
    (valid schema own xsd R any_text T i -> forall o, written path t i o -> valid schema own xsd R any_text T o).
Proof.
  intros Do O T H Or Sep A own xsd R wr ty Ty i path t V Ht. pose proof (distinct_unshadowed _ (document_distinct u roots schema f its Do O T H Or Sep A)) as Un.
  assert (Fi := document_fits u roots schema f its Do O T H Or Sep A Ty i path V).
  destruct Do as (a & b & -> & E & L). destruct (parse_document u (a ++ schema :: b)) as [PD _].
  destruct (proj1 (proj1 (PD a schema b eq_refl E L) f) H) as (f0 & Hp & Hl). clear PD.
  split; [|assert (G : forall K, valid schema own xsd (fun t => regular schema own xsd t /\ K t) any_text Ty i -> forall o, wr path t i o ->
    ((forall n, K n -> SpecWrite.one_content schema own xsd n) -> valid schema own xsd (fun t => regular schema own xsd t /\ K t) any_text Ty o) /\ same schema own xsd (fun _ x y => x = y) Ty i o)].
  - apply (fits_written u _ any_texts); [intros; eexists; reflexivity|]. destruct Ht as [(q & Tn & Rq & ->)|(l & d & De & Ar & At & To & ->)]; [apply Fi|eapply Fi]; eauto.
  - intros K Vk o W. assert (Pt := valid_proper schema f any_text K Ty i Vk).
    eapply (valid_written u schema f0 f its O Hp Hl (proj1 T) Or A Un (fun _ _ _ => True)) with (V := any_text) (text := any_texts) (KA := fun _ => True) (wtext := same_text); try exact Vk; try exact W; try (unfold any_texts; tauto); auto.
    + intros. apply Forall_forall. auto.
    + unfold any_text, same_attribute. auto.
    + unfold any_text, same_attribute. auto.
    + eapply (start_goal u schema f0 f its); eauto. apply T.
  - split.
    + intros o W. eapply same_alike. apply (G (fun _ => True)); [|exact W]. eapply (valid_mono schema f); [| |exact V]; auto.
    + intros V' o W. apply (G (fun t => SpecWrite.one_content schema own xsd t)); auto.
Qed.
