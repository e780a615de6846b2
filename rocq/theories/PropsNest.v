(** Property theorems C86: sequences, extensions, restrictions and choices inside each other. *)
From Coq Require Import Arith NArith ZArith Bool Ascii String List Permutation Lia.
From Verif Require Import Str StrFacts SpecLex SpecNames SpecBuiltin Xml Names NamesProofs Entity Parser ParserFacts SpecSchema ParserProofs PropsParser Link SpecLink LinkProofs PropsLink
  Gen SpecRust SpecGen RustFacts GenProofs GenProofs2 PropsGen SpecDoc DocProofs PropsDoc SpecScope ScopeProofs PropsScope SpecTraits TraitProofs PropsTraits SpecSize SizeProofs PropsSize
  SpecDistinct DistinctProofs DistinctProofs2 PropsDistinct MemberProofs PropsMembers SpecFit ShapeProofs FitProofs SpecRestrict FitProofs2 PropsFit PropsRestrict SpecChoice PropsChoice SpecNest.
Import ListNotations.
Local Open Scope string_scope.
Local Open Scope list_scope.
Local Open Scope N_scope.
Notation concat := List.concat.
Arguments lit : simpl never.

Section Nest.
Context (u : uni) (schema : node) (f0 f1 : rs_file) (its : list item).
Notation tns := (rf_target_ns f1).
Notation xsn := (rf_xsd_ns f1).
Notation own := (ns_prefix tns).
Notation xsd := (ns_prefix xsn).
Notation tid := (fun q => format_type_name u q xsn tns).
Notation ty := (SpecGen.ty u tid).
Notation ident := (format_name u).
Notation all_items := (all_items u tns tid ident (variant_name u tns)).
Notation P := (concat (map (placed []) its)).
Notation elements gs := (concat (map particles gs)).
Context (O : ok_schema schema) (H : parse_schema u schema [] = Ok f0) (L : link f0 = Ok f1).
Context (Td : forall x, part x schema -> tidy_element x).
Context (Or : forall x, part x schema -> orderly u schema own xsd x).
Context (A : all_items (rf_types f1) its).
Context (Un : unshadowed P).
Context (makes : list str -> list token -> sref -> Prop).
Context (makes_named : forall q path, type_named schema own xsd q (Simple (Named q)) -> makes path (ty q) (Named q)).
Context (makes_within : forall d pn anc e nm path t p i r, part d schema -> tag "simpleType" d -> parse_node u d (pn :: anc) = Ok e ->
  SpecGen.items u tns tid ident (variant_name u tns) (set_name nm e) (i :: r) -> incl (concat (map (placed p) (i :: r))) P -> SpecFit.names u P path t p i -> makes path t (Within d)).
Context (V : sref -> str -> Prop) (text : list str -> list token -> str -> Prop).
Context (G1 : forall path t s x, makes path t s -> V s x -> text path t x).
Context (KA : node -> Prop).
Context (GA : forall a p v, KA a -> (forall s, attribute_typed schema own xsd a s -> V s v) -> text p (ty (pick (attribute a (lit "type")) (attribute a (lit "ref")) (lit "String"))) v).
Notation goal := (goal u schema f0 f1 its makes).
Notation fits_deep := (fits_deep u P text).
Notation nested := (nested schema own xsd KA V).
Notation choice_type := (choice_type schema own xsd).
Notation proper_type := (proper_type schema f1).

(** [Q] holds of what is generated for the type [T], where it is defined and where it is named. *)
Definition meets (Q : list str -> list token -> Prop) (T : typ) : Prop :=
  (proper_type T -> forall path t, goal path t T -> Q path t) /\
  forall q path, type_named schema own xsd q T -> regular_type xsd q -> Q path (ty q).
(** [Q] holds of an alias if it holds of what the alias stands for. *)
Definition through_alias (Q : list str -> list token -> Prop) : Prop := forall path t p d m t', SpecFit.names u P path t p (IType d m t') -> Q p t' -> Q path t.
Definition deep_goal (T : typ) (i : inst) : Prop := meets (fun path t => fits_deep path t i) T.
Lemma goal_meets (Q : list str -> list token -> Prop) T : proper_type T -> (forall path t, goal path t T -> Q path t) -> meets Q T.
Proof. intros Pt X. split; auto. intros q path Tn Rt. apply X. eapply named_goal; eauto. Qed.
Lemma meets_mono (Q Q' : list str -> list token -> Prop) T : (forall path t, Q path t -> Q' path t) -> meets Q T -> meets Q' T.
Proof. intros X [D1 D2]. split; auto. Qed.
Lemma nested_cases T i : nested T i -> proper_type T \/ exists t c, T = Complex t /\ choice_type t c.
Proof. intros X. inversion X; subst; [left; exact Logic.I|left; left; eapply composed_regular; eauto|left; right; eauto|right; eauto]. Qed.
Lemma choice_unrestricted t c : choice_type t c -> ~ exists d b, restricts schema own xsd t d b.
Proof. intros (_ & E & Tc & _) (d & b & _ & (c' & q & l & E' & _ & Tc' & _) & _). rewrite E in E'. injection E' as <-. two_tags. Qed.
Lemma choice_improper t c : choice_type t c -> ~ proper_type (Complex t).
Proof. intros Cy [R|R]; [eapply choice_irregular; eauto|eapply choice_unrestricted; eauto]. Qed.
(** The type of the member made of an element. *)
Lemma slot_meets (Q : list str -> list token -> Prop) p t l e f T k : SpecGen.items u tns tid ident (variant_name u tns) (EStruct t) l -> incl (concat (map (placed p) l)) P -> ScopeProofs.M u tns (st_name t) ->
  In f (st_fields t) -> eslot (made u schema f0 f1) e f -> part e schema ->
  regular_element schema own xsd e -> type_of schema own xsd e T -> choice_by_name schema own xsd e T -> nested T k -> meets Q T ->
  Q p (ty (match fl_subtypes f with [] => fl_type f | _ => ident (st_name t) ++ lit "::" ++ fl_type f end)).
Proof.
  intros It Ic Mt If Ef Pe Re To Cb N [D1 D2]. destruct (nested_cases T k N) as [Pt|(n & c & -> & Cy)].
  - apply D1; auto. eapply slot_goal; eauto.
  - destruct (Cb n c eq_refl Cy) as (q & Hq). destruct Ef as (_ & _ & _ & _ & Sl). unfold has in Hq. rewrite Hq in Sl. destruct Sl as [-> ->].
    inversion To as [? q' ? Hq' Tn|? ? ? ? ? At|? ? At|? ? At]; subst; unfold has, absent in *; try congruence. assert (q' = q) by congruence. subst q'. apply D2; auto. apply Re. auto.
Qed.
(** The type of an alternative. *)
Lemma alternative_meets (R : list str -> list token -> Prop) e T p : through_alias R -> part e schema -> simple_alternative schema own xsd e -> type_of schema own xsd e T -> meets R T ->
  exists q, match attribute e (lit "ref") with Some r => q = r | None => attribute e (lit "type") = Some q end /\ R p (ty q).
Proof.
  intros Al Pe (Te & _ & _ & Rf) To [D1 D2]. destruct Rf as [(nm & q & Hn & Ar & Hq & Rt & _)|(q & l & An & At & Hr & Q & Tw & Doc)]; unfold has, absent in *.
  - exists q. rewrite Ar. split; auto. inversion To as [? q' ? Hq' Tn|? q' k' d ? At Hr|? t At|? t At]; subst; unfold has, absent in *; try congruence. assert (q' = q) by congruence. subst q'. auto.
  - exists q. rewrite Hr. split; auto. inversion To as [? q' ? Hq' Tn|? q' l' d ? At' Hr' Tw' De Ard Ty|? t At' Ar'|? t At' Ar']; subst; unfold has, absent in *; try congruence. assert (q' = q) by congruence. subst q'.
    assert (l' = l). { destruct Tw as (p1 & Q1 & _). destruct Tw' as (p2 & Q2 & _). apply (qualified_unique _ _ _ _ _ Q2 Q1). } subst l'. destruct (Doc d De) as [Dt Da].
    assert (Cl := ref_clear u schema f1 Or e q l Pe Te Hr Tw). rewrite (own_ty u f1 q l Tw Cl).
    destruct (attribute d (lit "type")) as [t|] eqn:Et.
    + destruct (Dt t eq_refl) as (Rt & c & Dk & Sk). inversion Ty as [? t' ? Ht Tn|? ? ? ? ? At2|? ? At2|? ? At2]; subst; unfold has, absent in *; try congruence. assert (t' = t) by congruence. subst t'.
      destruct De as (Id & Tg & Nm). assert (Ids := declaration_in schema _ d Id Tg ltac:(right; right; left; auto)). apply In_nth_error in Ids as (i & Hi). destruct (declaration_parsed u schema f0 H i d Hi) as (e1 & He & Pe1).
      destruct (global_element_shape u schema [] d e1 (proj1 O) Tg Pe1) as (nm & Hn & Sh). rewrite Et in Sh. subst e1. assert (nm = l) by (unfold has in *; congruence). subst nm.
      apply documented_iff in Dk. assert (In1 := nth_error_In _ _ (types_at f0 f1 L i _ He ltac:(discriminate))). destruct (top_placed u f1 its A _ In1) as (a & It & Ic). inversion It as [| | |? Nd|? Dd|]; subst; cbn [new_alias al_comment] in *; [destruct Nd; rewrite Dk; auto|].
      destruct (own_token u tns xsn l (clear_own u tns xsn l Cl)) as (w & W). eapply Al; [|apply D2; eauto]. cbn [new_alias al_name al_original] in *. rewrite W in *. apply (names_top u its Un); [apply (head_placed its _ _ _ Ic)|reflexivity].
    + assert (Pt : proper_type T) by (destruct T as [|t]; [exact Logic.I|left; apply Da; auto]). apply D1; auto. eapply start_goal; eauto. right. exists l, d. auto.
Qed.
Definition any_shape (Q : list str -> list token -> inst -> Prop) atext := struct_shape u schema f0 f1 its Td Or A makes makes_named makes_within V text G1 (fun _ => False) KA Q atext.
Definition any_runs := content_runs u schema f1 its Td Or makes makes_within.
Definition any_dropped := dropped_arranged u schema f1 its Td Or makes makes_within V text (fun _ => False) KA (fun _ _ _ _ F => match F with end) GA.
Section Level.
(** One level: [R] holds of what is generated for a type if it holds of the struct that has the
    right members, the children meeting [Q] and the attributes [atext]. *)
Context (R : list str -> list token -> Prop) (Q : list str -> list token -> inst -> Prop) (atext : qname -> list str -> list token -> str -> Prop).
Context (Al : through_alias R).
Notation suits r := (forall a x p v, In a r -> attribute_named schema own a x -> (forall s, attribute_typed schema own xsd a s -> V s v) -> atext x p (ty (pick (attribute a (lit "type")) (attribute a (lit "ref")) (lit "String"))) v).
Notation struct_suffices attrs kids := (forall path t p d a m fs, SpecFit.names u P path t p (IStruct d a m fs) ->
    (forall x v, In (x, v) attrs -> exists f, In f fs /\ attribute_member f x) ->
    (forall f x, In f fs -> attribute_member f x -> exists c, holds u (rf_type f) c 1 /\ forall v, In (x, v) attrs -> atext x p c v) ->
    (forall f x, In f fs -> attribute_member f x -> ~ In x (map fst attrs) -> exists c, rf_type f = rust u "Option<" ++ c ++ rust u ">") ->
    (forall k, In k kids -> exists f, In f fs /\ element_member f (inst_name k)) ->
    (forall f x, In f fs -> element_member f x -> exists c, holds u (rf_type f) c (number x kids) /\ forall k, In k kids -> inst_name k = x -> Q p c k) ->
    (forall f, In f fs -> exists x, attribute_member f x \/ element_member f x) -> R path t).
Lemma regular_meets n s gs r attrs parts typing : composed schema own xsd (regular schema own xsd) n s gs r -> suits r -> attributes_fit schema own xsd V r attrs -> Forall2 arranged gs parts ->
  (forall e k, In (e, k) (concat parts) -> tag "element" e -> element_named schema own xsd e (inst_name k)) ->
  (forall e k, In (e, k) (concat parts) -> tag "element" e -> type_of schema own xsd e (typing e) /\ choice_by_name schema own xsd e (typing e)) ->
  (forall e k, In (e, k) (concat parts) -> tag "element" e -> nested (typing e) k) ->
  (forall e k, In (e, k) (concat parts) -> In e (elements gs) -> tag "element" e -> meets (fun p c => Q p c k) (typing e)) ->
  struct_suffices attrs (map snd (concat parts)) -> meets R (Complex n).
Proof.
  intros C Su Af Ar En Ety Ev IH Ho. apply goal_meets; [left; eapply composed_regular; eauto|]. intros path t G.
  remember (Complex n) as T eqn:ET. induction G as [path y ? Is|path t p e i r' T It Ic Na Mo _|path t p d m t' T Na G IHG]; [discriminate|subst T|subst T; eapply Al; eauto].
  destruct Mo as (Pn & st & -> & Mn & Su' & Sl & _). specialize (Sl s gs r C). destruct Sl as (S1 & S2 & S3 & _).
  assert (Rn := composed_regular _ _ _ _ _ _ _ C). destruct Rn as (Nmix & _ & ND). specialize (ND _ _ _ (composed_any _ _ _ _ _ _ _ _ C)). destruct (composed_bodies schema f1 _ _ _ _ C) as (Gs & Re & Ra).
  assert (Parts : (forall e, In e (elements gs) -> part e schema) /\ (forall a, In a r -> part a schema)).
  { destruct (composed_parts schema own xsd _ _ _ _ _ C Pn) as [Y1 Y2]. rewrite Forall_forall in Re. split; [intros e I; apply Y1; auto; apply Re; auto|intros a I; apply Y2; auto]. }
  destruct Parts as [Pe Pa]. rewrite Forall_forall in Re, Ra.
  assert (Hs : forall e k f, In (e, k) (concat parts) -> In f (st_fields st) -> eslot (made u schema f0 f1) e f -> Q p (ty (match fl_subtypes f with [] => fl_type f | _ => ident (st_name st) ++ lit "::" ++ fl_type f end)) k).
  { intros e k f Ik If Ef. assert (Ie : In e (elements gs)).
    { destruct (any_runs gs parts Gs Ar) as (PP & Fr & Pm). apply (Permutation_in _ Pm) in Ik. apply in_concat in Ik as (l & Il & Ik). destruct (Forall2_in_r _ _ _ _ Fr Il) as (e' & Ie & Rn). assert (e = e') by (apply (proj1 Rn _ Ik)). subst e'. auto. }
    assert (Te := proj1 (Re e Ie)). destruct (Ety e k Ik Te) as [To Cb]. eapply (slot_meets (fun p c => Q p c k)); eauto. }
  destruct (any_shape Q atext path t p st i r' gs r attrs parts) as (d & a & m & fs & N & X1 & X2 & X3 & X4 & X5 & X6); auto; try (apply Forall_forall; auto; fail).
  eapply Ho; eauto.
Qed.
Lemma restricted_meets n d b s gs r attrs parts typing : restricts schema own xsd n d b -> composed schema own xsd (regular schema own xsd) b s gs r ->
  suits (body_attributes d ++ kept (restated d) r) -> attributes_fit schema own xsd V (body_attributes d ++ kept (restated d) r) attrs -> Forall2 arranged (groups_of d) parts ->
  (forall e k, In (e, k) (concat parts) -> tag "element" e -> element_named schema own xsd e (inst_name k)) ->
  (forall e k, In (e, k) (concat parts) -> tag "element" e -> type_of schema own xsd e (typing e) /\ choice_by_name schema own xsd e (typing e)) ->
  (forall e k, In (e, k) (concat parts) -> tag "element" e -> nested (typing e) k) ->
  (forall e k, In (e, k) (concat parts) -> In e (body_elements d) -> tag "element" e -> meets (fun p c => Q p c k) (typing e)) ->
  struct_suffices attrs (map snd (concat parts)) -> meets R (Complex n).
Proof.
  intros Rs C Su Af Ar En Ety Ev IH Ho. apply goal_meets; [right; eauto|]. intros path t G.
  remember (Complex n) as T eqn:ET. induction G as [path y ? Is|path t p e i r' T It Ic Na Mo _|path t p d' m t' T Na G IHG]; [discriminate|subst T|subst T; eapply Al; eauto].
  destruct Mo as (Pn & st & -> & Mn & Su' & _ & Sl). destruct (Sl d b s gs r Rs C) as (S1 & S2 & S3). destruct (restricts_part schema own xsd n d b Rs Pn) as [Pd Pb].
  destruct Rs as (_ & _ & Bd & ND1 & Rb & Cond). destruct (Cond s gs r C) as [_ Dr]. clear Cond. destruct Rb as (_ & _ & ND2). specialize (ND2 _ _ _ (composed_any _ _ _ _ _ _ _ _ C)).
  destruct (composed_bodies schema f1 _ _ _ _ C) as (_ & Re & Ra). destruct (body_groups schema f1 d Bd) as (Gd & Red & Rad). rewrite Forall_forall in Re, Ra, Red, Rad.
  set (l := kept (restated d) (elements gs)) in *. assert (Kl : forall e, In e l -> In e (elements gs)) by (intros e I; apply kept_iff in I; apply I).
  assert (Tl : Forall (tag "element") l) by (apply Forall_forall; intros e I; apply Re; auto).
  assert (El : elements (groups_of d ++ [dropped l]) = body_elements d ++ l). { rewrite map_app, concat_app. cbn [map List.concat]. rewrite (dropped_particles l Tl), app_nil_r. auto. }
  assert (RE : forall e, In e (body_elements d ++ l) -> regular_element schema own xsd e) by (intros e I; apply in_app_or in I as [I|I]; auto).
  assert (RA : forall a, In a (body_attributes d ++ kept (restated d) r) -> regular_attribute schema a) by (intros a I; apply in_app_or in I as [I|I]; auto; apply Ra; apply kept_iff in I; apply I).
  destruct (composed_parts schema own xsd _ _ _ _ _ C Pb) as [Y1 Y2]. destruct (body_parts schema d Pd) as [Z1 Z2].
  assert (Pe : forall e, In e (body_elements d ++ l) -> part e schema) by (intros e I; assert (T := proj1 (RE e I)); apply in_app_or in I as [I|I]; [apply Z1; auto|apply Y1; auto]).
  assert (Pa : forall a, In a (body_attributes d ++ kept (restated d) r) -> part a schema) by (intros a I; apply in_app_or in I as [I|I]; [apply Z2; auto|apply Y2; apply kept_iff in I; apply I]).
  assert (Gs : Forall (plain_group schema f1) (groups_of d ++ [dropped l])).
  { apply Forall_app. split; auto. constructor; [|constructor]. split; [exists "sequence"%string; split; [cbn; auto|reflexivity]|]. split; [reflexivity|]. split; [reflexivity|]. rewrite (dropped_particles l Tl). apply Forall_forall. auto. }
  assert (Ar' : Forall2 arranged (groups_of d ++ [dropped l]) (parts ++ [[]])) by (apply Forall2_app; [exact Ar|constructor; [apply any_dropped; auto|constructor]]).
  assert (Ep : concat (parts ++ [[]]) = concat parts) by (rewrite concat_app; cbn; rewrite !app_nil_r; auto).
  assert (Src : forall e k, In (e, k) (concat parts) -> In e (body_elements d)).
  { intros e k Ik. destruct (any_runs _ _ Gd Ar) as (PP & Fr & Pm). apply (Permutation_in _ Pm) in Ik. apply in_concat in Ik as (l' & Il & Ik). destruct (Forall2_in_r _ _ _ _ Fr Il) as (e' & Ie & Rn). assert (e = e') by (apply (proj1 Rn _ Ik)). subst e'. auto. }
  rewrite <- Ep in *. rewrite <- El in S1, S3, RE, Pe.
  assert (Hs : forall e k f, In (e, k) (concat (parts ++ [[]])) -> In f (st_fields st) -> eslot (made u schema f0 f1) e f -> Q p (ty (match fl_subtypes f with [] => fl_type f | _ => ident (st_name st) ++ lit "::" ++ fl_type f end)) k).
  { intros e k f Ik If Ef. assert (Ib := Src e k Ik). assert (Ie : In e (elements (groups_of d ++ [dropped l]))) by (rewrite El; apply in_or_app; auto).
    assert (Te := proj1 (RE e Ie)). destruct (Ety e k Ik Te) as [To Cb]. eapply (slot_meets (fun p c => Q p c k)); eauto. }
  destruct (any_shape Q atext path t p st i r' (groups_of d ++ [dropped l]) (body_attributes d ++ kept (restated d) r) attrs (parts ++ [[]])) as (d' & a & m & fs & N & X1 & X2 & X3 & X4 & X5 & X6); auto; try (apply Forall_forall; auto; fail).
  - rewrite El. apply restricted_names; auto.
  - eapply Ho; eauto.
Qed.
Lemma choice_meets t c r attrs l typing : choice_type t c -> attributed schema (children t) r -> suits r -> attributes_fit schema own xsd V r attrs -> arranged c l ->
  (forall e k, In (e, k) l -> element_named schema own xsd e (inst_name k)) -> (forall e k, In (e, k) l -> type_of schema own xsd e (typing e)) ->
  (forall k, through_alias (fun p c => Q p c k)) -> (forall e k, In (e, k) l -> In e (particles c) -> meets (fun p c => Q p c k) (typing e)) ->
  (forall path t k p d a m fs f p' d' a' m' vs v c, map snd l = [k] -> SpecFit.names u P path t p (IStruct d a m fs) ->
    (forall x y, In (x, y) attrs -> exists g, In g fs /\ attribute_member g x) ->
    (forall g x, In g fs -> attribute_member g x -> exists c, holds u (rf_type g) c 1 /\ forall v, In (x, v) attrs -> atext x p c v) ->
    (forall g x, In g fs -> attribute_member g x -> ~ In x (map fst attrs) -> exists c, rf_type g = rust u "Option<" ++ c ++ rust u ">") ->
    In f fs -> argued f "flatten" None -> (forall g, In g fs -> g = f \/ exists x, attribute_member g x) ->
    SpecFit.names u P p (rf_type f) p' (IEnum d' a' m' vs) -> In choice_derive a' ->
    In v vs -> variant_member v (inst_name k) -> (forall w, In w vs -> variant_member w (inst_name k) -> w = v) ->
    va_type v = Some c -> Q p' c k -> R path t) -> meets R (Complex t).
Proof.
  intros Cy At Su Af Ar En Ty Alq IH Ho. split; [intros Pt; exfalso; eapply choice_improper; eauto|]. intros q path Tn Rt.
  assert (Src : forall e k, In (e, k) l -> In e (particles c)).
  { intros e k I. assert (Cy' := Cy). destruct Cy' as (_ & _ & Tc & A1 & A2 & _ & Fa & _). rewrite Forall_forall in Fa. destruct (arranged_choice c l Tc A1 A2 Ar) as (p & Ip & Ap). destruct (Fa p Ip) as (Tp & Mi & Ma & _). destruct (arranged_one p l Tp Mi Ma Ap) as (k' & ->).
    destruct I as [[= <- <-]|[]]. exact Ip. }
  destruct (choice_shape u schema f0 f1 its O H L Td Or A Un Q V atext t c r attrs l q path Cy At Su Af Ar En) as (k & p & d & a & m & fs & f & p' & d' & a' & m' & vs & v & c' & E & X1 & X2 & X2' & X3 & X4 & X5 & X6 & X7 & X8 & X9 & X10 & X11 & X12 & X13); auto.
  - intros e k I Pe Sa. eapply (alternative_meets (fun p c => Q p c k)); eauto.
  - eapply Ho; eauto.
Qed.
End Level.
Lemma deep_through i : through_alias (fun path t => fits_deep path t i).
Proof. intros path t p d m t' Na Ft. eapply deep_alias; eauto. Qed.
Lemma simple_meets (R : list str -> list token -> Prop) sr x : through_alias R -> V sr x ->
  (forall path s, In s library_types -> makes path (rust u s) sr -> R path (rust u s)) ->
  (forall path t p d a m c, SpecFit.names u P path t p (ITuple d a m c) -> makes path t sr -> R path t) ->
  (forall path t p d a m vs, SpecFit.names u P path t p (IEnum d a m vs) -> text_enum a vs -> makes path t sr -> R path t) -> meets R (Simple sr).
Proof.
  intros Al Vx H1 H2 H3. apply goal_meets; [exact Logic.I|]. intros path t G. remember (Simple sr) as T eqn:ET. induction G as [path s q Is Sk|path t p e i r T It Ic Na Mo Kn|path t p d m t' T Na G IHG]; try subst T.
  - injection ET as <-. apply H1; auto.
  - assert (Mk : makes path t sr) by (eapply known_simple; eauto). destruct Mo as [[(tu & ->)|(en & -> & Mo)] _]; inversion It; subst; [eapply H2; eauto|]. eapply H3; eauto. destruct Mo as [Mo|Mo]; [left; rewrite Mo; left; auto|right].
    intros v Iv Nv. apply in_app_or in Iv as [Iv|[<-|[]]]; [|destruct Nv; auto]. apply in_map_iff in Iv as (c & <- & Ic'). rewrite Forall_forall in Mo. unfold case_variant. destruct (colon_split _). cbn. rewrite (Mo c Ic'). auto.
  - eapply Al; eauto.
Qed.
Lemma nested_deep T i : nested T i -> deep_goal T i.
Proof.
  intros X. induction X as [sr n x Vx|n s gs r nm attrs parts typing C Kr Af Ar En Ety Ev IH|n d b s gs r nm attrs parts typing Rs C Kr Af Ar En Ety Ev IH|t c r n attrs l typing Cy At Kr Af Ar En Ty Ch IH].
  - apply (simple_meets _ sr x); [apply deep_through|exact Vx|intros path s Is Mk; apply deep_library; eauto|intros; eapply deep_tuple; eauto|intros; eapply deep_enum; eauto].
  - rewrite Forall_forall in Kr. apply (regular_meets (fun path t => fits_deep path t _) fits_deep (fun _ => text) (deep_through _) n s gs r attrs parts typing); auto; [intros e k I _ Te; apply IH; auto|]. intros. eapply deep_struct; eauto.
  - rewrite Forall_forall in Kr. apply (restricted_meets (fun path t => fits_deep path t _) fits_deep (fun _ => text) (deep_through _) n d b s gs r attrs parts typing); auto; [intros e k I _ Te; apply IH; auto|]. intros. eapply deep_struct; eauto.
  - rewrite Forall_forall in Kr. apply (choice_meets (fun path t => fits_deep path t _) fits_deep (fun _ => text) t c r attrs l typing); auto; [intros k; apply deep_through|intros e k I _; apply IH; auto|]. intros path t0 k p d a m fs f p' d' a' m' vs v c' ->. intros. eapply deep_flat; eauto.
Qed.
End Nest.

(** Types of the kinds of [C68_instances_fit], [C84_restrictions_fit] and [C83_choices_fit], inside
    each other at any depth, hold the instances of the schema.  Conditions: those of these
    theorems; an element in a sequence whose type is a choice has the type by name (an anonymous
    one: [C83_anonymous_refuted]). *)
Theorem C86_nested_fit : forall u roots schema f its, document roots schema -> ok_schema schema -> tidy schema -> parse u roots = Ok f ->
  (forall x, part x schema -> orderly u schema (ns_prefix (rf_target_ns f)) (ns_prefix (rf_xsd_ns f)) x) ->
  separate_types schema (type_name_of u f) (format_name u) -> file_items u f (rf_types f) its ->
  let own := ns_prefix (rf_target_ns f) in let xsd := ns_prefix (rf_xsd_ns f) in
  let fits := fits_deep u (concat (map (placed []) its)) any_texts in
  forall T i path, nested schema own xsd any_attribute any_text T i ->
    (forall q, type_named schema own xsd q T -> regular_type xsd q -> fits path (type_name_of u f q) i) /\
    (forall l d, SpecFit.declared schema "element" l d -> absent d "ref" -> absent d "type" -> type_of schema own xsd d T ->
       (forall t c, T = Complex t -> ~ choice_type schema own xsd t c) -> fits path (type_name_of u f l) i).
Proof.
  intros u roots schema f its Do O T H Or Sep A own xsd ft Ty i path N. pose proof (distinct_unshadowed _ (document_distinct u roots schema f its Do O T H Or Sep A)) as Un.
  destruct Do as (a & b & -> & E & L). destruct (parse_document u (a ++ schema :: b)) as [PD _]. destruct (proj1 (proj1 (PD a schema b eq_refl E L) f) H) as (f0 & Hp & Hl). clear PD.
  destruct (nested_deep u schema f0 f its O Hp Hl (proj1 T) Or A Un (fun _ _ _ => True) (fun _ _ _ => Logic.I) (fun _ _ _ _ _ _ _ _ _ _ _ _ _ _ _ _ => Logic.I) any_text any_texts (fun _ _ _ _ _ _ => Logic.I) any_attribute (fun _ _ _ _ _ => Logic.I) Ty i N) as [D1 D2]. split; [intros q Tn Rt; apply D2; auto|].
  intros l d De Ar At To Nc. destruct (nested_cases schema f _ _ Ty i N) as [Pt|(t & c & -> & Cy)]; [|destruct (Nc t c eq_refl Cy)]. apply D1; auto. eapply start_goal; eauto; [apply T|]. right. exists l, d. auto.
Qed.
Print Assumptions C86_nested_fit.

(** ** A document, and an instance *)
(** One enters as a member, or with a ticket. *)
Definition entry : node := cty "Entry" [choice [bare "member" "tt:Member"; bare "ticket" "xs:int"]; att "seat" "xs:string"].
Definition party : node := cty "Party" [seq [typed "place" "xs:string"; many_typed "entry" "tt:Entry"]].
Definition parties : node := qsch [human; member_; entry; party].
Example C86_ex1 : document [parties] parties /\ ok_schema parties /\ tidy parties /\ not_self_derived parties /\
  (forall x, part x parties -> orderly u2 parties (Some (lit "tt")) (Some (lit "xs")) x).
Proof.
  apply with_conditions; [|apply orderly_check; vm_compute; reflexivity].
  conditions. split; [reflexivity|]. cbn [parties qsch children]. unfold human, member_, entry, party, choice, bare, res, some_typed, required_att, att, opt_typed, many_typed.
  constructor; [solve_ok'|]. constructor; [solve_ok'|]. constructor; [solve_ok|]. constructor; [solve_ok'|constructor].
Qed.
Example C86_ex2 : exists f its, parse u2 [parties] = Ok f /\ ns_prefix (rf_target_ns f) = Some (lit "tt") /\ ns_prefix (rf_xsd_ns f) = Some (lit "xs") /\
  separate_types parties (type_name_of u2 f) (format_name u2) /\ file_items u2 f (rf_types f) its.
Proof.
  eexists. eexists. split; [vm_compute; reflexivity|]. split; [reflexivity|]. split; [reflexivity|]. split.
  - apply (separate_types_check _ _ _ 3). vm_compute. reflexivity.
  - cbn [rf_types]. repeat econstructor.
Qed.
(** A party with a member, in the second row, and a guest with a ticket. *)
Definition a_party : inst :=
  Inst (q "party") [] [leaf "place" "Park"; Inst (q "entry") [av "seat" "2"] [Inst (at_ "member") [av "id" "1"] [leaf "name" "Ada"; leaf "email" "a@b"] []] [];
    Inst (q "entry") [] [Inst (at_ "ticket") [] [] (lit "17")] []] [].
Section Content.
Context (schema : node) (own xsd : option str) (B : node -> Prop) (V : sref -> str -> Prop) (typing : node -> typ).
Notation nested := (nested schema own xsd B V).
Definition nested_filled (e : node) (ks : list inst) : Prop :=
  counted e ks /\ (type_of schema own xsd e (typing e) /\ choice_by_name schema own xsd e (typing e)) /\ Forall (fun k => element_named schema own xsd e (inst_name k) /\ nested (typing e) k) ks.
Lemma nested_counted es kss : Forall2 nested_filled es kss -> Forall2 counted es kss.
Proof. induction 1 as [|e ks es kss [H _] F IH]; constructor; auto. Qed.
Lemma nested_kids es kss : Forall2 nested_filled es kss -> map snd (assigned es kss) = concat kss.
Proof.
  unfold assigned. induction 1 as [|e ks es kss H F IH]; auto. cbn [combine map fst snd List.concat]. rewrite map_app, IH. f_equal.
  rewrite map_map. cbn [snd]. apply map_id.
Qed.
Lemma nested_assigned es kss e k : Forall2 nested_filled es kss -> In (e, k) (assigned es kss) ->
  (type_of schema own xsd e (typing e) /\ choice_by_name schema own xsd e (typing e)) /\ element_named schema own xsd e (inst_name k) /\ nested (typing e) k.
Proof.
  unfold assigned. induction 1 as [|e' ks es kss (_ & T & H) F IH]; [intros []|]. cbn [combine map fst snd List.concat]. intros I. apply in_app_or in I as [I|I]; auto.
  apply in_map_iff in I as (k' & [= -> ->] & I). rewrite Forall_forall in H. destruct (H k I). auto.
Qed.
Lemma nested_sequence t g es r n attrs kss : regular schema own xsd t -> tagged_children ["complexContent"; "simpleContent"] t = [] -> groups_of t = [g] -> simple_attributes t = Some r ->
  Forall B r -> attributes_fit schema own xsd V r attrs -> tag "sequence" g -> occurs g 1 -> particles g = es -> Forall2 nested_filled es kss -> nested (Complex t) (Inst n attrs (concat kss) []).
Proof.
  intros Rt E Eg Er Br A Tg O <- F. rewrite <- (nested_kids _ _ F). replace (assigned (particles g) kss) with (concat [assigned (particles g) kss]) by apply app_nil_r.
  eapply (nested_regular schema own xsd B V t false [g] r n attrs [assigned (particles g) kss] typing); auto.
  - rewrite <- Eg. apply composed_plain; auto. apply simple_attributed. auto.
  - constructor; [|constructor]. apply arranged_sequence; auto. apply nested_counted. auto.
  - intros e k I _. cbn [List.concat] in I. rewrite app_nil_r in I. apply (nested_assigned _ _ _ _ F I).
  - intros e k I _. cbn [List.concat] in I. rewrite app_nil_r in I. apply (nested_assigned _ _ _ _ F I).
  - intros e k I _. cbn [List.concat] in I. rewrite app_nil_r in I. apply (nested_assigned _ _ _ _ F I).
Qed.
Lemma nested_restriction t d b g es r n attrs kss : restricts schema own xsd t d b -> tagged_children ["complexContent"; "simpleContent"] b = [] -> simple_attributes b = Some r ->
  Forall B (tagged_children ["attribute"] d ++ kept (restated d) r) -> attributes_fit schema own xsd V (tagged_children ["attribute"] d ++ kept (restated d) r) attrs -> groups_of d = [g] -> tag "sequence" g -> occurs g 1 -> particles g = es ->
  Forall2 nested_filled es kss -> nested (Complex t) (Inst n attrs (concat kss) []).
Proof.
  intros Rt E Er Br A Eg Tg O <- F. rewrite <- (nested_kids _ _ F). replace (assigned (particles g) kss) with (concat [assigned (particles g) kss]) by apply app_nil_r.
  eapply (nested_restricted schema own xsd B V t d b false (groups_of b) r n attrs [assigned (particles g) kss] typing); auto.
  - apply composed_plain; auto; [apply Rt|apply simple_attributed; auto].
  - rewrite Eg. constructor; [|constructor]. apply arranged_sequence; auto. apply nested_counted. auto.
  - intros e k I _. cbn [List.concat] in I. rewrite app_nil_r in I. apply (nested_assigned _ _ _ _ F I).
  - intros e k I _. cbn [List.concat] in I. rewrite app_nil_r in I. apply (nested_assigned _ _ _ _ F I).
  - intros e k I _. cbn [List.concat] in I. rewrite app_nil_r in I. apply (nested_assigned _ _ _ _ F I).
Qed.
Lemma nested_alternative t c r n attrs e k T : choice_type schema own xsd t c -> attributed schema (children t) r -> Forall B r -> attributes_fit schema own xsd V r attrs ->
  In e (particles c) -> element_named schema own xsd e (inst_name k) -> type_of schema own xsd e T -> nested T k ->
  nested (Complex t) (Inst n attrs [k] []).
Proof.
  intros Cy At Br Af I En Ty Ch. pose proof Cy as (_ & _ & Tc & A1 & A2 & _ & Fa & _). rewrite Forall_forall in Fa. destruct (Fa e I) as (Te & Mi & Ma & _).
  apply (nested_choice _ _ _ _ _ t c r n attrs [(e, k)] (fun _ => T)); auto.
  - apply arranged_once; [exists 1, (Some 1); split; [left; auto|split; [left; auto|split; cbn; lia]]|]. apply (once_choice _ e); auto. apply (arranged_elements _ [k]); auto. exists 1, (Some 1). split; [auto|split; [auto|split; cbn; lia]].
  - intros e' k' [[= <- <-]|[]]. auto.
  - intros e' k' [[= <- <-]|[]]. auto.
  - intros e' k' [[= <- <-]|[]]. auto.
Qed.
End Content.
Lemma human_base : base_before parties (Some (lit "tt")) (Some (lit "xs")) member_ (lit "tt:Human").
Proof.
  intros l b To (I & T & Hn). apply own_local_iff in To. vm_compute in To. injection To as <-.
  destruct I as [<-|I]; [|exfalso; repeat (destruct I as [<-|I]; [discriminate|]); destruct I]. split.
  - intros [|x pre] D post E P; injection E as <- E; [|left; reflexivity]. apply parts_all in P. exfalso. vm_compute in P; repeat (destruct P as [P|P]; [discriminate P|]); destruct P.
  - intros pre post x E I Hx. destruct pre as [|y pre]; [injection E as E2|injection E as <- E2].
    + exfalso. subst post. cbn [app] in I. repeat (destruct I as [<-|I]; [discriminate|]). destruct I.
    + exfalso. repeat (destruct pre as [|? pre]; [discriminate E2|injection E2 as _ E2]). destruct pre; discriminate E2.
Qed.
Lemma member_restricted : restricts parties (Some (lit "tt")) (Some (lit "xs")) member_ (restriction_of member_) human.
Proof.
  split; [discriminate|]. split; [|split; [|split; [|split; [apply regular_plain; vm_compute; reflexivity|]]]].
  - eexists; exists (lit "tt:Human"), (lit "Human"). split; [reflexivity|split; [reflexivity|split; [reflexivity|split; [solve_ok|split; [reflexivity|split; [reflexivity|split; [apply human_base|]]]]]]].
    split; [apply own_local_iff; reflexivity|split; [left; reflexivity|split; reflexivity]].
  - apply regular_bodyb_ok. vm_compute; reflexivity.
  - eapply nodupb_ok; [intros x; apply opt_str_eqb_iff; reflexivity|]. vm_compute; reflexivity.
  - intros s gs r C.
    assert (E : gs = [seq [typed "name" "xs:string"; opt_typed "email" "xs:string"; some_typed "nick" "xs:string"]] /\ r = [att "id" "xs:int"; att "lang" "xs:string"]) by (eapply compose_ok with (k := 1%nat); [exact C|]; vm_compute; reflexivity).
    destruct E as [-> ->]. split.
    + apply same_kind. vm_compute; reflexivity.
    + intros e I. assert (K : In e [some_typed "nick" "xs:string"]) by (vm_compute in I |- *; tauto). destruct K as [<-|[]]; occurrence.
Qed.
Lemma bare_alternative n t : regular_type (Some (lit "xs")) (lit t) -> simple_alternative parties (Some (lit "tt")) (Some (lit "xs")) (bare n t).
Proof. intros R. once_each. left. exists (lit n), (lit t). split; [reflexivity|]. split; [reflexivity|]. split; [reflexivity|]. split; auto. unformed. Qed.
Lemma entry_choice : choice_type parties (Some (lit "tt")) (Some (lit "xs")) entry (choice [bare "member" "tt:Member"; bare "ticket" "xs:int"]).
Proof.
  split; [discriminate|]. split; [reflexivity|]. split; [reflexivity|]. split; [reflexivity|]. split; [reflexivity|]. split; [discriminate|]. split; [|split; [|split; [|split; [reflexivity|split]]]].
  - constructor; [apply bare_alternative, regular_typeb_ok; reflexivity|]. constructor; [apply bare_alternative, regular_typeb_ok; reflexivity|constructor].
  - apply (nodupb_ok opt_str_eqb); [intros x; apply opt_str_eqb_iff; auto|vm_compute; reflexivity].
  - vm_compute. intros [X|[X|[]]]; discriminate X.
  - constructor; [apply regular_attributeb_ok; reflexivity|constructor].
  - repeat constructor; auto.
Qed.
Ltac nested_known := lazymatch goal with
  | |- type_of ?s ?o ?x ?e ?T => let T' := eval hnf in T in change (type_of s o x e T')
  | |- nested ?s ?o ?x ?B ?V ?T ?i => let T' := eval hnf in T in change (nested s o x B V T' i) end.
Ltac nested_fill ty va := repeat (constructor; [split; [split; [reflexivity|occurrence]|split; [split; [nested_known; ty|intros ? ? _ _; eexists; reflexivity]|repeat (constructor; [split; [element_name_check|nested_known; va]|]); constructor]]|]); try constructor.
Section Party.
Context (B : node -> Prop) (V : sref -> str -> Prop) (HB : forall a, present a "type" -> B a).
Context (Vs : forall x, V (Named (lit "xs:string")) (lit x)) (Vi : forall x, In x ["1"; "17"] -> V (Named (lit "xs:int")) (lit x)).
Notation nested_here := (nested parties (Some (lit "tt")) (Some (lit "xs")) B V).
Ltac values_check := apply attributes_fitb_ok; [vm_compute; reflexivity|]; let I := fresh in let Ia := fresh in let En := fresh in let At := fresh in let Hq := fresh in intros ? ? ? ? I Ia En At;
  repeat (destruct I as [I|I]; [injection I as <- <-; repeat (destruct Ia as [<-|Ia]; [vm_compute in En; try discriminate En; inversion At as [? ? Hq|? ? Hq|? ? ? ? ? Hq]; subst; try discriminate Hq; injection Hq as <-; first [apply Vs|apply Vi; cbn; auto]|]); destruct Ia|]); destruct I.
Ltac typed_check := vm_compute; repeat (constructor; [apply HB; eexists; reflexivity|]); constructor.
Lemma member_nested : nested_here (Complex member_) (Inst (at_ "member") [av "id" "1"] [leaf "name" "Ada"; leaf "email" "a@b"] []).
Proof.
  eapply (nested_restriction _ _ _ _ _ plain member_ (restriction_of member_) human _ _ _ _ _ [[_]; [_]]);
    [apply member_restricted|reflexivity|reflexivity|typed_check|values_check|reflexivity|reflexivity|occurrence|reflexivity|].
  nested_fill builtin_type ltac:(apply nested_simple, Vs).
Qed.
Lemma entry_nested k : In k [Inst (q "entry") [av "seat" "2"] [Inst (at_ "member") [av "id" "1"] [leaf "name" "Ada"; leaf "email" "a@b"] []] []; Inst (q "entry") [] [Inst (at_ "ticket") [] [] (lit "17")] []] ->
  nested_here (Complex entry) k.
Proof.
  intros [<-|[<-|[]]].
  - eapply (nested_alternative _ _ _ _ _ plain _ _ [att "seat" "xs:string"] _ _ (bare "member" "tt:Member")); [apply entry_choice|apply simple_attributed; reflexivity|typed_check|values_check|left; reflexivity| | |apply member_nested].
    + eapply en_unqualified; [reflexivity|intros [X|[X _]]; discriminate X].
    + eapply to_named; [reflexivity|]. eapply tn_complex; [apply own_local_iff; reflexivity|]. split; [right; left; reflexivity|split; reflexivity].
  - eapply (nested_alternative _ _ _ _ _ plain _ _ [att "seat" "xs:string"] _ _ (bare "ticket" "xs:int")); [apply entry_choice|apply simple_attributed; reflexivity|typed_check|values_check|right; left; reflexivity| |builtin_type|apply nested_simple, Vi; cbn; auto].
    eapply en_unqualified; [reflexivity|intros [X|[X _]]; discriminate X].
Qed.
Lemma party_nested : nested_here (Complex party) a_party.
Proof.
  eapply (nested_sequence _ _ _ _ _ (fun e => if opt_str_eqb (attribute e (lit "name")) (Some (lit "entry")) then Complex entry else plain e) _ _ _ _ _ _ [[_]; [_; _]]);
    [apply regular_plain; vm_compute; reflexivity|reflexivity|reflexivity|reflexivity|typed_check|values_check|reflexivity|occurrence|reflexivity|].
  nested_fill ltac:(first [builtin_type|eapply to_named; [reflexivity|eapply tn_complex; [apply own_local_iff; reflexivity|split; [do 2 right; left; reflexivity|split; reflexivity]]]])
    ltac:(first [apply nested_simple, Vs|apply entry_nested; cbn; auto]).
Qed.
End Party.
Example C86_ex3 : nested parties (Some (lit "tt")) (Some (lit "xs")) any_attribute any_text (Complex party) a_party.
Proof. apply party_nested; intros; exact Logic.I. Qed.
(** The generated types hold it. *)
Example C86_ex4 : forall f its path, parse u2 [parties] = Ok f -> file_items u2 f (rf_types f) its ->
  fits_deep u2 (concat (map (placed []) its)) any_texts path (rust u2 "Party") a_party.
Proof.
  intros f its path Hf Hi. destruct C86_ex1 as (D & O & T & _ & Or). assert (Ef : ns_prefix (rf_target_ns f) = Some (lit "tt") /\ ns_prefix (rf_xsd_ns f) = Some (lit "xs") /\ type_name_of u2 f (lit "tt:Party") = rust u2 "Party" /\
    separate_types parties (type_name_of u2 f) (format_name u2)).
  { vm_compute in Hf. injection Hf as <-. split; [reflexivity|]. split; [reflexivity|]. split; [vm_compute; reflexivity|]. apply (separate_types_check _ _ _ 3). vm_compute. reflexivity. }
  destruct Ef as (E1 & E2 & E3 & Se). rewrite <- E3. refine (proj1 (C86_nested_fit u2 [parties] parties f its D O T Hf _ Se Hi (Complex party) a_party path _) _ _ _); rewrite ?E1, ?E2; auto.
  - apply C86_ex3.
  - eapply tn_complex; [apply own_local_iff; reflexivity|]. split; [do 3 right; left; reflexivity|split; reflexivity].
  - apply regular_typeb_ok. reflexivity.
Qed.
