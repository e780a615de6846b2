(** Property theorems C83: types whose content is a choice. *)
From Coq Require Import Arith NArith ZArith Bool Ascii String List Permutation Lia.
From Verif Require Import Str StrFacts SpecLex SpecNames SpecBuiltin Xml Names NamesProofs Entity Parser ParserFacts SpecSchema ParserProofs PropsParser Link SpecLink LinkProofs PropsLink
  Gen SpecRust SpecGen RustFacts GenProofs GenProofs2 PropsGen SpecDoc DocProofs PropsDoc SpecScope ScopeProofs PropsScope SpecTraits TraitProofs PropsTraits SpecSize SizeProofs PropsSize
  SpecDistinct DistinctProofs DistinctProofs2 PropsDistinct MemberProofs PropsMembers SpecFit ShapeProofs FitProofs FitProofs2 PropsFit SpecChoice.
Import ListNotations.
Local Open Scope string_scope.
Local Open Scope list_scope.
Local Open Scope N_scope.
Notation concat := List.concat.
Arguments lit : simpl never.

(** ** Instances *)
Ltac two_tags := exfalso; match goal with X : tag ?a ?e, Y : tag ?b ?e |- _ => apply (tag_neq a b e); [discriminate|exact X|exact Y] end.
Lemma xsd_max_unique n a b : xsd_max n a -> xsd_max n b -> a = b.
Proof.
  assert (U : forall k, ~ count_text (lit "unbounded") k) by (intros k C; apply count_text_iff in C; vm_compute in C; discriminate C).
  intros [[A ->]|[[A ->]|(s & k & A & Ck & ->)]] [[B ->]|[[B ->]|(s' & k' & B & Ck' & ->)]]; auto; unfold has, absent in *; try congruence.
  - rewrite A in B. injection B as <-. destruct (U _ Ck').
  - rewrite A in B. injection B as ->. destruct (U _ Ck).
  - rewrite A in B. injection B as <-. f_equal. eapply count_unique; eauto.
Qed.
Lemma arranged_one e l : tag "element" e -> xsd_min e 1 -> xsd_max e (Some 1) -> arranged e l -> exists k, l = [(e, k)].
Proof.
  intros T Mi Ma X. inversion X as [p runs (a & b & A & B & L1 & L2) F]; subst. assert (a = 1) by (eapply min_unique; apply xsd_min_is; eauto). assert (b = Some 1) by (eapply xsd_max_unique; eauto). subst a b. cbn in L2.
  assert (E : List.length runs = 1%nat) by lia. destruct runs as [|run [|]]; try discriminate E. inversion F as [|? ? O _]; subst. inversion O; subst; try two_tags. eexists; reflexivity.
Qed.
Lemma arranged_choice c l : tag "choice" c -> absent c "minOccurs" -> absent c "maxOccurs" -> arranged c l -> exists p, In p (particles c) /\ arranged p l.
Proof.
  intros T A1 A2 X. inversion X as [p runs (a & b & A & B & L1 & L2) F]; subst.
  assert (a = 1) by (destruct A as [[_ A]|(s & A & _)]; auto; unfold has, absent in *; congruence).
  assert (b = Some 1) by (destruct B as [[_ B]|[[B _]|(s & k & B & _)]]; auto; unfold has, absent in *; congruence). subst a b. cbn in L2.
  assert (E : List.length runs = 1%nat) by lia. destruct runs as [|run [|]]; try discriminate E. cbn [List.concat]. rewrite app_nil_r. inversion F as [|? ? O _]; subst. inversion O; subst; try two_tags. eauto.
Qed.

Section Choice.
Context (u : uni) (schema : node) (f0 f1 : rs_file) (its : list item).
Notation tns := (rf_target_ns f1).
Notation xsn := (rf_xsd_ns f1).
Notation own := (ns_prefix tns).
Notation xsd := (ns_prefix xsn).
Notation tid := (fun q => format_type_name u q xsn tns).
Notation ty := (SpecGen.ty u tid).
Notation ident := (format_name u).
Notation items := (items u tns tid ident (variant_name u tns)).
Notation all_items := (all_items u tns tid ident (variant_name u tns)).
Notation P := (concat (map (placed []) its)).
Notation member := (SpecGen.member u tns tid ident).
Notation members := (SpecGen.members u tns tid ident).
Notation clear := (clear_name u own xsd).
Notation case_variant := (case_variant u tid (variant_name u tns)).
Context (O : ok_schema schema) (H : parse_schema u schema [] = Ok f0) (L : link f0 = Ok f1).
Context (Td : forall x, part x schema -> tidy_element x).
Context (Or : forall x, part x schema -> orderly u schema own xsd x).
Context (A : all_items (rf_types f1) its).
Context (Un : unshadowed P).
Notation fits_all := (fits_all u P).

(** ** Variants *)
Definition cname (k : enum_case) : qname := colon_split (ec_name k).
Lemma variant_member_iff k x : ec_source k = OfChoice -> variant_member (case_variant k) x <-> x = cname k.
Proof.
  intros S. unfold variant_member, variant_argued, cname, SpecGen.case_variant. rewrite S. destruct (colon_split (ec_name k)) as [p n] eqn:E. destruct x as [q l]. cbn [va_attrs va_name fst snd].
  destruct p as [p|]; [|destruct (str_eqb n (variant_name u tns (ec_name k))) eqn:En].
  - split.
    + intros [[(a & [[= <-]|[]] & I)|[X _]] Y]; [|exfalso; eapply X; eexists; split; [left; reflexivity|right; left; reflexivity]].
      assert (l = n) by (cbn in I; destruct I as [I|[I|[]]]; congruence). subst l. f_equal. destruct q as [q|].
      * destruct Y as (a & [[= <-]|[]] & J). cbn in J. destruct J as [J|[J|[]]]; congruence.
      * exfalso. eapply Y. eexists. split; [left; reflexivity|left; reflexivity].
    + intros [= -> ->]. split; [left|]; eexists; (split; [left; reflexivity|]); cbn; auto.
  - apply str_eqb_eq in En. split.
    + intros [[(a & [] & _)|[_ X]] Y]. f_equal; [|congruence]. destruct q as [q|]; auto. destruct Y as (a & [] & _).
    + intros [= -> ->]. split; [right; split; [intros x (a & [] & _)|auto]|intros x (a & [] & _)].
  - split.
    + intros [[(a & [[= <-]|[]] & I)|[X _]] Y]; [|exfalso; eapply X; eexists; split; [left; reflexivity|left; reflexivity]].
      assert (l = n) by (cbn in I; destruct I as [I|[]]; congruence). subst l. f_equal. destruct q as [q|]; auto.
      destruct Y as (a & [[= <-]|[]] & J). cbn in J. destruct J as [J|[]]; congruence.
    + intros [= -> ->]. split; [left; eexists; (split; [left; reflexivity|]); cbn; auto|]. intros x (a & [[= <-]|[]] & J). cbn in J. destruct J as [J|[]]; congruence.
Qed.
Lemma unknown_member c x : variant_member {| va_doc := []; va_attrs := []; va_name := lit "__Unknown__"; va_type := c |} x -> x = (None, lit "__Unknown__").
Proof.
  intros [[(a & [] & _)|[_ X]] Y]. cbn [va_name] in X. destruct x as [q l]. cbn [fst snd] in *. subst l. f_equal. destruct q; auto. destruct Y as (a & [] & _).
Qed.
(** The case of an alternative has the name of its elements. *)
Lemma alternative_name e k x : part e schema -> simple_alternative schema own xsd e -> choice_case e k -> element_named schema own xsd e x -> x = cname k /\ local_name e = Some (snd x).
Proof.
  intros Pe (Te & _ & _ & R) (_ & _ & _ & _ & N) En. unfold cname, local_name. destruct R as [(nm & q & Hn & Ar & _ & _ & Fo)|(q & l & An & _ & Hr & Q & To & _)].
  - unfold has, absent in *. rewrite Ar, Hn in *. cbn [pick] in N. destruct N as [-> _]. assert (NCn := NC u schema f1 Or _ _ Pe Hn). rewrite (colon_qualified nm None nm) by (split; auto).
    inversion En as [nm' Hn' Fm|nm' Hn' Fm|q' l' An']; subst; unfold has, absent in *; try congruence; assert (nm' = nm) by congruence; subst nm'; split; auto. destruct Fo as [->|Fo]; [auto|contradiction].
  - unfold has, absent in *. rewrite Hr, An in *. destruct N as [-> _]. rewrite (colon_qualified q own l Q). inversion En as [nm' Hn' Fm|nm' Hn' Fm|q' l' An' Hr' To']; subst; unfold has, absent in *; try congruence.
    assert (q' = q) by congruence. subst q'. assert (l' = l).
    { destruct To as (p & Q1 & _). destruct To' as (p' & Q2 & _). apply (qualified_unique _ _ _ _ _ Q2 Q1). } subst l'. split; auto. cbn [snd]. f_equal.
    assert (Cl := ref_clear u schema f1 Or e q l Pe Te Hr To). apply local_part_ok. split; [apply Cl|]. destruct To as (p & Q1 & _). destruct p as [p|]; destruct Q1 as [Q1 _]; [right; exists p|left]; auto.
Qed.
(** ** Lists in step *)
Lemma pairs_left {X Y} (R : X -> Y -> Prop) l1 l2 a : Forall2 R l1 l2 -> In a l1 -> exists b, In (a, b) (combine l1 l2) /\ R a b.
Proof. intros F. induction F as [|x y l1 l2 Rx F IH]; [intros []|]. intros [->|I]; [exists y; cbn; auto|]. destruct (IH I) as (b & J & Z). exists b. cbn. auto. Qed.
Lemma pairs_right {X Y} (R : X -> Y -> Prop) l1 l2 b : Forall2 R l1 l2 -> In b l2 -> exists a, In (a, b) (combine l1 l2) /\ R a b.
Proof. intros F. induction F as [|x y l1 l2 Rx F IH]; [intros []|]. intros [->|I]; [exists x; cbn; auto|]. destruct (IH I) as (a & J & Z). exists a. cbn. auto. Qed.
Lemma pairs_once {X Y} (l1 : list X) (l2 : list Y) a b b' : NoDup l1 -> In (a, b) (combine l1 l2) -> In (a, b') (combine l1 l2) -> b = b'.
Proof.
  revert l2. induction l1 as [|x l1 IH]; intros [|y l2] N I J; try destruct I. 
  - injection H0 as -> ->. destruct J as [J|J]; [congruence|]. inversion N as [|? ? Z _]; subst. destruct Z. eapply in_combine_l; eauto.
  - inversion N as [|? ? Z N']; subst. destruct J as [J|J]; [|eapply IH; eauto]. injection J as -> ->. destruct Z. eapply in_combine_l; eauto.
Qed.
Lemma all_elements c : Forall (fun e => tag "element" e) (particles c) -> tagged_children ["element"] c = particles c.
Proof.
  intros F. rewrite Forall_forall in F. unfold tagged_children, particles in *. apply filter_ext_in. intros x I. cbn [existsb]. rewrite orb_false_r.
  destruct (is_element x && negb (tagged "annotation" x)) eqn:E.
  - apply tagged_iff, F, filter_In. auto.
  - apply not_true_iff_false. intros T. apply tagged_iff in T. apply andb_false_iff in E as [E|E].
    + destruct x; [discriminate E|vm_compute in T; discriminate T|vm_compute in T; discriminate T].
    + apply negb_false_iff, tagged_iff in E. two_tags.
Qed.

(** ** The types of a choice *)
Context (Fit : forall T i path, valid schema own xsd (regular schema own xsd) any_text T i ->
  (forall q, type_named schema own xsd q T -> regular_type xsd q -> fits u P any_texts path (ty q) i) /\
  (forall l d, SpecFit.declared schema "element" l d -> absent d "ref" -> absent d "type" -> type_of schema own xsd d T -> fits u P any_texts path (ty l) i)).
Lemma choice_irregular t c : choice_type schema own xsd t c -> ~ regular schema own xsd t.
Proof.
  intros (_ & E & Tc & _) (_ & [[[B|(c' & B & (s & Is & Ts) & _)] _]|(c' & d & q & B & _ & Tc' & _)] & _); rewrite E in B; try discriminate B; injection B as <-; [destruct Is as [<-|[<-|[]]]; two_tags|two_tags].
Qed.
(** The type of an alternative holds its instances. *)
Lemma alternative_fits e k T p : part e schema -> simple_alternative schema own xsd e -> type_of schema own xsd e T -> chosen schema own xsd T k ->
  (forall q path, type_named schema own xsd q T -> regular_type xsd q -> fits_all path (ty q) k) ->
  exists q, match attribute e (lit "ref") with Some r => q = r | None => attribute e (lit "type") = Some q end /\ fits_all p (ty q) k.
Proof.
  intros Pe (Te & _ & _ & R) To Ch IH. destruct R as [(nm & q & Hn & Ar & Hq & Rt & _)|(q & l & An & At & Hr & Q & Tw & Doc)]; unfold has, absent in *.
  - exists q. rewrite Ar. split; auto. inversion To as [? q' ? Hq' Tn|? q' k' d ? At Hr|? t At|? t At]; subst; unfold has, absent in *; try congruence. assert (q' = q) by congruence. subst q'. auto.
  - exists q. rewrite Hr. split; auto. inversion To as [? q' ? Hq' Tn|? q' l' d ? At' Hr' Tw' De Ard Ty|? t At' Ar'|? t At' Ar']; subst; unfold has, absent in *; try congruence. assert (q' = q) by congruence. subst q'.
    assert (l' = l). { destruct Tw as (p1 & Q1 & _). destruct Tw' as (p2 & Q2 & _). apply (qualified_unique _ _ _ _ _ Q2 Q1). } subst l'. destruct (Doc d De) as [Dt Da].
    assert (Cl := ref_clear u schema f1 Or e q l Pe Te Hr Tw). rewrite (own_ty u f1 q l Tw Cl).
    destruct (attribute d (lit "type")) as [t|] eqn:Et.
    + destruct (Dt t eq_refl) as (Rt & c & Dk & Sk). inversion Ty as [? t' ? Ht Tn|? ? ? ? ? At2|? ? At2|? ? At2]; subst; unfold has, absent in *; try congruence. assert (t' = t) by congruence. subst t'.
      destruct De as (Id & Tg & Nm). assert (Ids := declaration_in schema _ d Id Tg ltac:(right; right; left; auto)). apply In_nth_error in Ids as (i & Hi). destruct (declaration_parsed u schema f0 H i d Hi) as (e1 & He & Pe1).
      destruct (global_element_shape u schema [] d e1 (proj1 O) Tg Pe1) as (nm & Hn & Sh). rewrite Et in Sh. subst e1. assert (nm = l) by (unfold has in *; congruence). subst nm.
      apply documented_iff in Dk. assert (In1 := nth_error_In _ _ (types_at f0 f1 L i _ He ltac:(discriminate))). destruct (top_placed u f1 its A _ In1) as (a & It & Ic). inversion It as [| | |? Nd|? Dd|]; subst; cbn [new_alias al_comment] in *; [destruct Nd; rewrite Dk; auto|].
      destruct (own_token u tns xsn l (clear_own u tns xsn l Cl)) as (w & W). eapply fits_renamed; [|apply IH; eauto]. cbn [new_alias al_name al_original] in *. rewrite W in *. apply (names_top u its Un); [apply (head_placed its _ _ _ Ic)|reflexivity].
    + assert (Hd := Da). inversion Ch as [? ? V|t c r n attrs ls typing Cy]; subst.
      * apply fits_plain. apply (proj2 (Fit T k p V) l d); auto.
      * exfalso. eapply choice_irregular; eauto.
Qed.
(** The variant of an alternative has the type of its elements. *)
Lemma alternative_type e k : simple_alternative schema own xsd e -> choice_case e k ->
  exists q, match attribute e (lit "ref") with Some r => q = r | None => attribute e (lit "type") = Some q end /\ va_type (case_variant k) = Some (ty q).
Proof.
  intros (Te & Mi & Ma & R) (_ & _ & _ & (m & Cm & Em) & N).
  assert (m = MNone). { apply container_iff in Cm. destruct (natural_iff e 1 (Some 1) Mi Ma ltac:(cbn; lia)) as [[_ X] _]. rewrite Cm in X. assert (Y := X ltac:(intros [Z _]; discriminate Z)). destruct Y as (_ & _ & Y). apply Y; lia. }
  subst m. unfold SpecGen.case_variant. destruct (colon_split (ec_name k)) as [p n]. cbn [va_type]. rewrite Em.
  destruct R as [(nm & q & Hn & Ar & Hq & _)|(q & l & An & At & Hr & _)]; unfold has, absent in *.
  - rewrite Ar in *. destruct N as [_ ->]. exists q. rewrite Hq. split; reflexivity.
  - rewrite Hr in *. destruct N as [_ ->]. exists q. split; reflexivity.
Qed.
Lemma flat_member m f x : fl_source f = FromChoice -> ~ attribute_member (member m f) x.
Proof.
  intros S (X & _). unfold argued in X. destruct X as (l & I & J). cbn [member rf_attrs] in I. unfold field_attrs in I. rewrite S in I. destruct (colon_split (fl_name f)). destruct I as [[= <-]|[]]. destruct J as [J|[]]. discriminate J.
Qed.
Lemma alternative_local e k : part e schema -> simple_alternative schema own xsd e -> choice_case e k -> local_name e = Some (snd (cname k)).
Proof.
  intros Pe (Te & _ & _ & R) (_ & _ & _ & _ & N). unfold cname, local_name. destruct R as [(nm & q & Hn & Ar & _)|(q & l & An & _ & Hr & Q & To & _)]; unfold has, absent in *.
  - rewrite Ar, Hn in *. cbn [pick] in N. destruct N as [-> _]. assert (NCn := NC u schema f1 Or _ _ Pe Hn). rewrite (colon_qualified nm None nm) by (split; auto). auto.
  - rewrite Hr, An in *. destruct N as [-> _]. rewrite (colon_qualified q own l Q). cbn [snd]. f_equal.
    assert (Cl := ref_clear u schema f1 Or e q l Pe Te Hr To). apply local_part_ok. split; [apply Cl|]. destruct To as (p & Q1 & _). destruct p as [p|]; destruct Q1 as [Q1 _]; [right; exists p|left]; auto.
Qed.
(** A choice type holds an instance, if the type of the chosen alternative holds the child in the
    sense of [Q]. *)
Lemma choice_shape (Q : list str -> list token -> inst -> Prop) (V : sref -> str -> Prop) (atext : qname -> list str -> list token -> str -> Prop)
  t c r attrs l q path : choice_type schema own xsd t c ->
  attributed schema (children t) r -> (forall a x p v, In a r -> attribute_named schema own a x -> (forall s, attribute_typed schema own xsd a s -> V s v) -> atext x p (ty (pick (attribute a (lit "type")) (attribute a (lit "ref")) (lit "String"))) v) -> attributes_fit schema own xsd V r attrs -> arranged c l ->
  (forall e k, In (e, k) l -> element_named schema own xsd e (inst_name k)) ->
  (forall e k, In (e, k) l -> part e schema -> simple_alternative schema own xsd e ->
     exists q, match attribute e (lit "ref") with Some r => q = r | None => attribute e (lit "type") = Some q end /\ Q [] (ty q) k) ->
  type_named schema own xsd q (Complex t) ->
  exists k p d a m fs f p' d' a' m' vs v c, map snd l = [k] /\ names u P path (ty q) p (IStruct d a m fs) /\
    (forall x y, In (x, y) attrs -> exists g, In g fs /\ attribute_member g x) /\
    (forall g x, In g fs -> attribute_member g x -> exists c, holds u (rf_type g) c 1 /\ forall v, In (x, v) attrs -> atext x p c v) /\
    (forall g x, In g fs -> attribute_member g x -> ~ In x (map fst attrs) -> exists c, rf_type g = rust u "Option<" ++ c ++ rust u ">") /\
    In f fs /\ argued f "flatten" None /\ (forall g, In g fs -> g = f \/ exists x, attribute_member g x) /\
    names u P p (rf_type f) p' (IEnum d' a' m' vs) /\ In choice_derive a' /\
    In v vs /\ variant_member v (inst_name k) /\ (forall w, In w vs -> variant_member w (inst_name k) -> w = v) /\
    va_type v = Some c /\ Q p' c k.
Proof.
  clear Fit. intros Cy At Ka Af Ar En Alt Tn.
  inversion Tn as [| |? nm ? To De]; subst. assert (Cy' := Cy). destruct Cy' as (_ & Ec & Tc & A1 & A2 & Ne & Fa & NDe & Nu & Gr & Ra & NDa).
  assert (De' := De). destruct De' as (Id & Tg & Nm). assert (Ids := declaration_in schema _ t Id Tg ltac:(left; auto)). assert (Pt := declaration_part _ _ Ids). apply In_nth_error in Ids as (i & Hi).
  destruct (declaration_parsed u schema f0 H i t Hi) as (e & He & Pe).
  assert (Elems : tagged_children ["element"] c = particles c) by (apply all_elements; rewrite Forall_forall in *; intros x I; apply (Fa x I)).
  assert (HE : has_elements c). { destruct (particles c) as [|x ps] eqn:E; [contradiction|]. assert (I : In x (particles c)) by (rewrite E; left; auto). apply in_particles in I as (I & Ie & _). exists x. auto. }
  destruct (complex_choice u t _ e c Tg Pe ltac:(rewrite Ec; exists []; reflexivity) Tc HE) as (nm' & en & s & AA & f & -> & TN & EN & ES & Fc & Esub & Ns & Fs & CF & FA & _).
  destruct TN as [TN _]. specialize (TN (proj1 O)). assert (nm' = nm) by (unfold has in *; congruence). subst nm'.
  assert (In1 := nth_error_In _ _ (types_at f0 f1 L i _ He ltac:(discriminate))). destruct (top_placed u f1 its A _ In1) as (li & It & Ic).
  inversion It as [| |? inner B| | |]; subst. rewrite Esub in B. inversion B as [|? ? a b B1 B2]; subst. inversion B2; subst. inversion B1 as [s' inner' B3| | | | |]; subst. clear B B2 B1 It.
  rewrite ES in Ic. set (vs := map case_variant (en_cases en) ++ _) in Ic. set (ms := members _ _) in Ic.
  assert (P1 : In ([], IStruct (doc_words (st_comment s)) [struct_derive; AYaserde (ns_args tns)] (ty (st_name s)) ms) P) by (apply Ic; cbn; auto).
  assert (P2 : In ([], IEnum (doc_words (en_comment en)) [choice_derive; AYaserde (ns_args tns)] (ty (en_name en)) vs) P) by (apply Ic; left; auto). clear Ic B3.
  assert (Cl : clear (st_name s)) by (eapply part_clear; eauto).
  destruct (own_token u tns xsn _ (clear_own u tns xsn _ Cl)) as (w1 & W1).
  destruct (own_token u tns xsn _ (proj1 (choice_name u tns xsn _ (clear_simple u tns xsn _ Cl)))) as (w2 & W2). rewrite <- EN in W2.
  assert (Pc : part c t). { assert (X : In c (tagged_children content_tags t)) by (rewrite Ec; left; auto). apply in_tagged in X as [X Y]. eapply part_kid; eauto. }
  assert (Fq := Fa). rewrite Forall_forall in Fq. assert (Pp : forall p, In p (particles c) -> part p schema). { intros p I. eapply part_trans; [|exact Pt]. eapply part_trans; [|exact Pc]. assert (Tq := proj1 (Fq p I)). apply in_particles in I as (I & _). eapply (part_kid ["element"]); eauto. eexists. split; [left; reflexivity|auto]. }
  rewrite Forall_forall in Fa. destruct (arranged_choice c l Tc A1 A2 Ar) as (p & Ip & Ap). destruct (Fa p Ip) as (Tp & Mi & Ma & _). destruct (arranged_one p l Tp Mi Ma Ap) as (k & ->). cbn [map snd].
  assert (Ek := En p k ltac:(left; auto)).
  rewrite Elems in Fc. destruct (pairs_left _ _ _ p Fc Ip) as (kc & Jc & Cc). destruct (alternative_name p kc _ (Pp p Ip) (Fa p Ip) Cc Ek) as [Nk Lk].
  destruct (alternative_type p kc (Fa p Ip) Cc) as (qt & Eq & Vt).
  destruct (Alt p k ltac:(left; auto) (Pp p Ip) (Fa p Ip)) as (qt' & Eq' & Fk).
  assert (qt' = qt) by (destruct (attribute p (lit "ref")); congruence). subst qt'.
  assert (Sa := attribute_aslots t AA Gr FA). assert (Er : r = body_attributes t) by (eapply simple_attributes_ok; [exact At|unfold simple_attributes; rewrite Gr; reflexivity]). subst r.
  assert (Pa : forall a, In a (body_attributes t) -> part a schema). { intros a I. eapply part_trans; [|exact Pt]. apply in_tagged in I as [X Y]. eapply part_kid; eauto. }
  rewrite Forall_forall in Ra. destruct CF as (_ & CFt & CFs & CFm & CFn & _).
  rewrite (own_ty u f1 q _ To Cl). exists k. do 5 eexists. exists (member (ident (st_name s)) f). do 5 eexists. exists (case_variant kc). eexists. split; [reflexivity|]. repeat match goal with |- _ /\ _ => split end.
  - rewrite W1 in *. apply (names_top u its Un); [exact P1|reflexivity].
  - intros x v Ix. destruct (proj1 Af x v Ix) as (a & Ia & Na' & Np & _). destruct (Forall2_in_l _ _ _ _ Sa Ia) as (g & Ig & Eg). exists (member (ident (st_name s)) g).
    assert (X := proj1 (attribute_fname u schema f1 Or a g Eg (Pa a Ia) (Ra a Ia) x) Na'). destruct Eg as (Ta & Sg & _ & _ & E & _). destruct (E Ta) as (_ & _ & m & Um & Em). split; [|apply attribute_member_iff; auto].
    apply in_members; [rewrite Fs; apply in_or_app; auto|]. rewrite Em. intros [->|[]]. inversion Um. contradiction.
  - intros g x Ig Ag. apply members_in in Ig as (g' & Ig & -> & Nem). rewrite Fs in Ig. apply in_app_or in Ig as [Ig|[<-|[]]]; [|destruct (flat_member _ _ _ CFs Ag)].
    destruct (Forall2_in_r _ _ _ _ Sa Ig) as (a & Ia & Eg). apply attribute_member_iff in Ag; [|apply Eg].
    destruct (use_type u f1 (ident (st_name s)) g' a Eg Nem) as (mo & Mo & ->). exists (ty (pick (attribute a (lit "type")) (attribute a (lit "ref")) (lit "String"))). split; [destruct Mo as [->| ->]; [left; split; reflexivity|right; left; split; [reflexivity|lia]]|].
    intros v Ix. destruct (proj1 Af x v Ix) as (a' & Ia' & Na' & _ & Vx).
    assert (a' = a). { apply (nodup_same local_name (body_attributes t)); auto. apply (same_named schema f1 a' a x); auto. apply (attribute_fname u schema f1 Or a g'); auto. } subst a'. apply (Ka a); auto.
  - intros g x Ig Ag Nx. apply members_in in Ig as (g' & Ig & -> & Nem). rewrite Fs in Ig. apply in_app_or in Ig as [Ig|[<-|[]]]; [|destruct (flat_member _ _ _ CFs Ag)].
    destruct (Forall2_in_r _ _ _ _ Sa Ig) as (a & Ia & Eg). assert (X := attribute_fname u schema f1 Or a g' Eg (Pa a Ia) (Ra a Ia)). destruct Eg as (Ta & Sg & _ & _ & E & _). destruct (E Ta) as (_ & _ & m & Um & Em). apply attribute_member_iff in Ag; auto. subst x.
    cbn [SpecGen.member rf_type]. rewrite Em. inversion Um as [U|U|U|U]; subst m.
    + eexists. reflexivity.
    + eexists. reflexivity.
    + exfalso. apply Nem. rewrite Em. left. auto.
    + exfalso. apply Nx. apply (proj2 Af a); auto. apply X. auto.
  - apply in_members; [rewrite Fs; apply in_or_app; cbn; auto|]. rewrite CFm. intros [].
  - unfold argued. cbn [SpecGen.member rf_attrs]. unfold field_attrs. rewrite CFs. destruct (colon_split (fl_name f)). eexists. split; [left; reflexivity|left; reflexivity].
  - intros g Ig. apply members_in in Ig as (g' & Ig & -> & Nem). rewrite Fs in Ig. apply in_app_or in Ig as [Ig|[<-|[]]]; [right|left; auto].
    destruct (Forall2_in_r _ _ _ _ Sa Ig) as (a & Ia & Eg). exists (fname f1 g'). apply attribute_member_iff; auto. apply Eg.
  - cbn [SpecGen.member rf_type]. rewrite CFm, CFn, CFt. cbn. rewrite <- EN, W2 in *. apply (names_top u its Un); [exact P2|reflexivity].
  - left. auto.
  - apply in_or_app. left. apply in_map. eapply in_combine_r; eauto.
  - apply variant_member_iff; [apply Cc|auto].
  - intros v Iv Mv. apply in_app_or in Iv as [Iv|[<-|[]]].
    + apply in_map_iff in Iv as (k2 & <- & Ik). destruct (pairs_right _ _ _ k2 Fc Ik) as (e2 & J2 & C2). assert (I2 := in_combine_l _ _ _ _ J2). apply variant_member_iff in Mv; [|apply C2].
      assert (E2 := alternative_local e2 k2 (Pp e2 I2) (Fa e2 I2) C2). rewrite <- Mv, <- Lk in E2. assert (e2 = p) by (apply (nodup_same local_name (particles c)); auto). subst e2. f_equal. eapply pairs_once; [eapply NoDup_map_inv; exact NDe| |]; eauto.
    + apply unknown_member in Mv. exfalso. apply Nu. rewrite Mv in Lk. cbn [snd] in Lk. rewrite <- Lk. apply in_map. auto.
  - exact Vt.
  - exact Fk.
Qed.
Lemma chosen_fits T i : chosen schema own xsd T i -> forall q path, type_named schema own xsd q T -> regular_type xsd q -> fits_all path (ty q) i.
Proof.
  intros Ch. induction Ch as [T i V|t c r n attrs l typing Cy At Af Ar En Ty Ch IH]; intros q path Tn Rt.
  { apply fits_plain. apply (proj1 (Fit T i path V)); auto. }
  destruct (choice_shape fits_all any_text (fun _ => any_texts) t c r attrs l q path Cy At (fun _ _ _ _ _ _ _ => Logic.I) Af Ar En) as (k & p & d & a & m & fs & f & p' & d' & a' & m' & vs & v & c' & -> & X1 & X2 & _ & X3 & X4 & X5 & X6 & X7 & X8 & X9 & X10 & X11 & X12 & X13); auto.
  - intros e k I Pe Sa. eapply alternative_fits; eauto.
  - eapply fits_flat; eauto.
Qed.
End Choice.

(** Types whose content is a choice hold the instances of the schema.  Conditions: those of
    [C68_instances_fit]; the alternatives of a choice occur once and have a type by name or are
    references to an element with a Rust type ([choice_type]); no prefix in instances for
    alternatives with a name of their own.  Without these: the refutations below. *)
Theorem C83_choices_fit : forall u roots schema f its, document roots schema -> ok_schema schema -> tidy schema -> parse u roots = Ok f ->
  (forall x, part x schema -> orderly u schema (ns_prefix (rf_target_ns f)) (ns_prefix (rf_xsd_ns f)) x) ->
  separate_types schema (type_name_of u f) (format_name u) -> file_items u f (rf_types f) its ->
  let own := ns_prefix (rf_target_ns f) in let xsd := ns_prefix (rf_xsd_ns f) in
  forall T i q path, chosen schema own xsd T i -> type_named schema own xsd q T -> regular_type xsd q ->
    fits_all u (concat (map (placed []) its)) path (type_name_of u f q) i.
Proof.
  intros u roots schema f its Do O T H Or Sep A own xsd Ty i q path Ch Tn Rt.
  assert (Fi := fun T' i' path' => document_fits u roots schema f its Do O T H Or Sep A T' i' path'). pose proof (distinct_unshadowed _ (document_distinct u roots schema f its Do O T H Or Sep A)) as Un.
  destruct Do as (a & b & -> & E & L). destruct (parse_document u (a ++ schema :: b)) as [PD _]. destruct (proj1 (proj1 (PD a schema b eq_refl E L) f) H) as (f0 & Hp & Hl). clear PD.
  eapply (chosen_fits u schema f0 f its); eauto. apply T.
Qed.
Print Assumptions C83_choices_fit.

(** ** A document, and an instance *)
Definition told (d : string) : node := el "annotation" [] [el "documentation" [] [Text (lit d)]].
Definition bare (n t : string) : node := el "element" [("name", n); ("type", t); ("form", "unqualified")] [].
Definition ref_to (n : string) : node := el "element" [("ref", n)] [].
Definition choice (cs : list node) : node := el "choice" [] cs.
Definition card : node := cty "Card" [seq [typed "number" "xs:string"]].
Definition voucher : node := el "complexType" [] [seq [typed "code" "xs:string"]].
Definition ways : node := choice [ref_to "tt:bankCard"; ref_to "tt:voucher"; bare "cash" "xs:decimal"].
Definition payment : node := cty "Payment" [ways; att "currency" "xs:string"].
Definition bill : node := cty "Bill" [choice [bare "pay" "tt:Payment"; bare "waive" "xs:boolean"]].
Definition payments : node := qsch
  [ card; within_element "voucher" voucher; el "element" [("name", "bankCard"); ("type", "tt:Card")] [told "A card."]; payment; bill ].
Example C83_ex1 : document [payments] payments /\ ok_schema payments /\ tidy payments /\ not_self_derived payments /\
  (forall x, part x payments -> orderly u2 payments (Some (lit "tt")) (Some (lit "xs")) x).
Proof.
  apply with_conditions; [|apply orderly_check; vm_compute; reflexivity].
  conditions. split; [reflexivity|]. cbn [payments qsch children]. unfold card, voucher, payment, bill, ways, choice, ref_to, bare, told, within_element, att.
  solve_ok.
Qed.
Example C83_ex2 : exists f its, parse u2 [payments] = Ok f /\ ns_prefix (rf_target_ns f) = Some (lit "tt") /\ ns_prefix (rf_xsd_ns f) = Some (lit "xs") /\
  separate_types payments (type_name_of u2 f) (format_name u2) /\ file_items u2 f (rf_types f) its.
Proof.
  eexists. eexists. split; [vm_compute; reflexivity|]. split; [reflexivity|]. split; [reflexivity|]. split.
  - apply (separate_types_check _ _ _ 3). vm_compute. reflexivity.
  - cbn [rf_types]. do 2 (apply all_cons; [repeat econstructor|]). apply all_cons; [apply items_documented_alias, documented_words; vm_compute; discriminate|]. repeat econstructor.
Qed.
(** A bill paid by card: a choice in a choice. *)
Definition a_bill : inst :=
  Inst (q "bill") [] [Inst (at_ "pay") [av "currency" "EUR"] [Inst (q "bankCard") [] [leaf "number" "12"] []] []] [].
Notation chosen_here := (chosen payments (Some (lit "tt")) (Some (lit "xs"))).
Notation choice_here := (choice_type payments (Some (lit "tt")) (Some (lit "xs"))).
Ltac unformed := right; intros [X|[X _]]; discriminate X.
Ltac once_each := split; [reflexivity|]; split; [left; split; reflexivity|]; split; [left; split; reflexivity|].
Lemma simple_bare n t : regular_type (Some (lit "xs")) (lit t) -> simple_alternative payments (Some (lit "tt")) (Some (lit "xs")) (bare n t).
Proof. intros R. once_each. left. exists (lit n), (lit t). split; [reflexivity|]. split; [reflexivity|]. split; [reflexivity|]. split; auto. unformed. Qed.
Lemma only_declared l d : SpecFit.declared payments "element" l d -> d = within_element "voucher" voucher \/ d = el "element" [("name", "bankCard"); ("type", "tt:Card")] [told "A card."].
Proof. intros (I & T & N). cbn [payments qsch children In] in I. destruct I as [<-|[<-|[<-|[<-|[<-|[]]]]]]; try discriminate T; auto. Qed.
Lemma ref_ok n l : n = String.append "tt:" l -> In l ["bankCard"; "voucher"] -> simple_alternative payments (Some (lit "tt")) (Some (lit "xs")) (ref_to n).
Proof.
  intros -> I. once_each. right. exists (lit (String.append "tt:" l)), (lit l).
  assert (X : split_name (lit (String.append "tt:" l)) = (Some (lit "tt"), lit l) /\ own_local (Some (lit "tt")) (Some (lit "xs")) (lit (String.append "tt:" l)) = Some (lit l)) by (destruct I as [<-|[<-|[]]]; split; vm_compute; reflexivity).
  destruct X as [X Y]. split; [reflexivity|]. split; [reflexivity|]. split; [reflexivity|]. split; [apply split_name_iff; auto|]. split; [apply own_local_iff; auto|].
  intros d D. apply only_declared in D as [->| ->]; split.
  - intros t X'. discriminate X'.
  - intros t _ To. inversion To as [? ? ? Hq|? ? ? ? ? _ Hr|? t' A B E T|? t' A B E T]; subst; try discriminate. injection E as <-. apply regular_plain; vm_compute; reflexivity.
  - intros t X'. injection X' as <-. split; [apply regular_typeb_ok; reflexivity|]. exists (lit "A card."). split; [apply documented_iff; reflexivity|]. apply documented_words. vm_compute. discriminate.
  - intros t X'. discriminate X'.
Qed.
Lemma names_payment c : In c [(lit "tt:Payment", payment); (lit "tt:Bill", bill); (lit "tt:Card", card)] -> type_named payments (Some (lit "tt")) (Some (lit "xs")) (fst c) (Complex (snd c)).
Proof.
  intros [<-|[<-|[<-|[]]]]; cbn [fst snd].
  - eapply tn_complex; [apply own_local_iff; reflexivity|]. split; [do 3 right; left; reflexivity|split; reflexivity].
  - eapply tn_complex; [apply own_local_iff; reflexivity|]. split; [do 4 right; left; reflexivity|split; reflexivity].
  - eapply tn_complex; [apply own_local_iff; reflexivity|]. split; [left; reflexivity|split; reflexivity].
Qed.
Lemma payment_choice : choice_here payment ways.
Proof.
  split; [discriminate|]. split; [reflexivity|]. split; [reflexivity|]. split; [reflexivity|]. split; [reflexivity|]. split; [discriminate|]. split; [|split; [|split; [|split; [reflexivity|split]]]].
  - constructor; [apply (ref_ok _ "bankCard"); cbn; auto|]. constructor; [apply (ref_ok _ "voucher"); cbn; auto|]. constructor; [apply simple_bare, regular_typeb_ok; reflexivity|constructor].
  - apply (nodupb_ok opt_str_eqb); [intros x; apply opt_str_eqb_iff; auto|vm_compute; reflexivity].
  - vm_compute. intros [X|[X|[X|[]]]]; discriminate X.
  - constructor; [apply regular_attributeb_ok; reflexivity|constructor].
  - repeat constructor; auto.
Qed.
Lemma bill_choice : choice_here bill (choice [bare "pay" "tt:Payment"; bare "waive" "xs:boolean"]).
Proof.
  split; [discriminate|]. split; [reflexivity|]. split; [reflexivity|]. split; [reflexivity|]. split; [reflexivity|]. split; [discriminate|]. split; [|split; [|split; [|split; [reflexivity|split]]]].
  - constructor; [apply simple_bare, regular_typeb_ok; reflexivity|]. constructor; [apply simple_bare, regular_typeb_ok; reflexivity|constructor].
  - apply (nodupb_ok opt_str_eqb); [intros x; apply opt_str_eqb_iff; auto|vm_compute; reflexivity].
  - vm_compute. intros [X|[X|[]]]; discriminate X.
  - constructor.
  - constructor.
Qed.
Lemma chosen_alternative t c r n attrs e k T : choice_here t c -> attributed payments (children t) r -> attributes_fit payments (Some (lit "tt")) (Some (lit "xs")) any_text r attrs ->
  In e (particles c) -> element_named payments (Some (lit "tt")) (Some (lit "xs")) e (inst_name k) -> type_of payments (Some (lit "tt")) (Some (lit "xs")) e T -> chosen_here T k ->
  chosen_here (Complex t) (Inst n attrs [k] []).
Proof.
  intros Cy At Af I En Ty Ch. pose proof Cy as (_ & _ & Tc & A1 & A2 & _ & Fa & _). rewrite Forall_forall in Fa. destruct (Fa e I) as (Te & Mi & Ma & _).
  apply (chosen_one _ _ _ t c r n attrs [(e, k)] (fun _ => T)); auto.
  - apply arranged_once; [exists 1, (Some 1); split; [left; auto|split; [left; auto|split; cbn; lia]]|]. apply (once_choice _ e); auto. apply (arranged_elements _ [k]); auto. exists 1, (Some 1). split; [auto|split; [auto|split; cbn; lia]].
  - intros e' k' [[= <- <-]|[]]. auto.
  - intros e' k' [[= <- <-]|[]]. auto.
  - intros e' k' [[= <- <-]|[]]. auto.
Qed.
Example C83_ex3 : chosen_here (Complex bill) a_bill.
Proof.
  eapply (chosen_alternative _ _ [] _ _ (bare "pay" "tt:Payment")); [apply bill_choice|apply simple_attributed; reflexivity|attribute_check|left; reflexivity| | |].
  - eapply en_unqualified; [reflexivity|intros [X|[X _]]; discriminate X].
  - eapply to_named; [reflexivity|exact (names_payment (_, _) (or_introl eq_refl))].
  - eapply (chosen_alternative _ _ [att "currency" "xs:string"] _ _ (ref_to "tt:bankCard")); [apply payment_choice|apply simple_attributed; reflexivity|attribute_check|left; reflexivity| | |].
    + eapply en_ref; [reflexivity|reflexivity|apply own_local_iff; reflexivity].
    + eapply to_ref; [reflexivity|reflexivity|apply own_local_iff; reflexivity|split; [do 2 right; left; reflexivity|split; reflexivity]|reflexivity|].
      eapply to_named; [reflexivity|exact (names_payment (_, _) (or_intror (or_intror (or_introl eq_refl))))].
    + apply chosen_regular. eapply (valid_sequence _ _ _ _ _ plain _ _ _ _ _ _ [[_]]); [apply regular_plain; vm_compute; reflexivity|reflexivity|reflexivity|reflexivity|attribute_check|reflexivity|occurrence|reflexivity| |left; reflexivity].
      fill builtin_type ltac:(apply valid_simple; exact Logic.I).
Qed.
(** The generated types hold it. *)
Example C83_ex4 : forall f its path, parse u2 [payments] = Ok f -> file_items u2 f (rf_types f) its ->
  fits_all u2 (concat (map (placed []) its)) path (rust u2 "Bill") a_bill.
Proof.
  intros f its path Hf Hi. destruct C83_ex1 as (D & O & T & _ & Or). assert (Ef : ns_prefix (rf_target_ns f) = Some (lit "tt") /\ ns_prefix (rf_xsd_ns f) = Some (lit "xs") /\ type_name_of u2 f (lit "tt:Bill") = rust u2 "Bill" /\
    separate_types payments (type_name_of u2 f) (format_name u2)).
  { vm_compute in Hf. injection Hf as <-. split; [reflexivity|]. split; [reflexivity|]. split; [vm_compute; reflexivity|]. apply (separate_types_check _ _ _ 3). vm_compute. reflexivity. }
  destruct Ef as (E1 & E2 & E3 & Se). rewrite <- E3. eapply (C83_choices_fit u2 [payments] payments f its D O T Hf); rewrite ?E1, ?E2; auto.
  - apply C83_ex3.
  - exact (names_payment (_, _) (or_intror (or_introl eq_refl))).
  - apply regular_typeb_ok. reflexivity.
Qed.

(** ** Choices the generated types do not hold *)
Section Inversion.
Context (u : uni) (P : list (list str * item)).
Definition variant_args (v : variant) : list (string * option str) := concat (map (fun a => match a with AYaserde l => l | _ => [] end) (va_attrs v)).
Lemma variant_args_iff v k x : variant_argued v k x <-> In (k, x) (variant_args v).
Proof.
  unfold variant_argued, variant_args. rewrite in_concat. split.
  - intros (l & I & J). exists l. split; auto. apply in_map_iff. exists (AYaserde l). auto.
  - intros (l & I & J). apply in_map_iff in I as (a & E & I). destruct a as [|l']; subst; [destruct J|exists l; auto].
Qed.
Definition variant_memberb (v : variant) (n : qname) : bool :=
  (existsb (fun x => String.eqb (fst x) "rename" && opt_str_eqb (snd x) (Some (snd n))) (variant_args v) ||
   negb (existsb (fun x => String.eqb (fst x) "rename") (variant_args v)) && str_eqb (va_name v) (snd n)) &&
  match fst n with
  | Some p => existsb (fun x => String.eqb (fst x) "prefix" && opt_str_eqb (snd x) (Some p)) (variant_args v)
  | None => negb (existsb (fun x => String.eqb (fst x) "prefix") (variant_args v)) end.
Lemma variant_memberb_ok v n : variant_member v n -> variant_memberb v n = true.
Proof.
  intros [N F]. unfold variant_memberb. apply andb_true_iff. split; [apply orb_true_iff; destruct N as [N|[N1 N2]]; [left|right]|].
  - apply existsb_exists. eexists. split; [apply variant_args_iff; exact N|]. apply opt_str_eqb_iff. auto.
  - apply andb_true_iff. split; [|apply str_eqb_eq; auto]. apply negb_true_iff, not_true_iff_false. intros X. apply existsb_exists in X as ([k x] & I & E). apply String.eqb_eq in E. cbn [fst] in E. subst k. apply variant_args_iff in I. eapply N1; eauto.
  - destruct (fst n) as [p|].
    + apply existsb_exists. eexists. split; [apply variant_args_iff; exact F|]. apply opt_str_eqb_iff. auto.
    + apply negb_true_iff, not_true_iff_false. intros X. apply existsb_exists in X as ([k x] & I & E). apply String.eqb_eq in E. cbn [fst] in E. subst k. apply variant_args_iff in I. eapply F; eauto.
Qed.
(** No value of a struct without a member, or a variant with a type, for a child. *)
Lemma lost_kids path t p d a m fs n attrs kids : seen u P path t p (IStruct d a m fs) -> (forall s, In s library_types -> t <> rust u s) ->
  (forall k, In k kids -> existsb (fun f => negb (arguedb f "attribute" None) && in_instanceb f (inst_name k)) fs = false) -> kids <> [] ->
  (forall k, kids = [k] -> forall f, In f fs -> argued f "flatten" None -> exists p' d' a' m' vs, seen u P p (rf_type f) p' (IEnum d' a' m' vs) /\
     forallb (fun v => negb (variant_memberb v (inst_name k)) || match va_type v with Some _ => false | None => true end) vs = true) ->
  ~ fits_all u P path t (Inst n attrs kids []).
Proof.
  intros S N K Ne Fl X. inversion X as [? ? ? Y|? ? p' d' m' t' ? Na|? ? p1 d1 a1 m1 fs1 ? ? k f p2 d2 a2 m2 vs v c Na _ _ If Af _ Ne' _ Iv Mv _ Vt _]; subst.
  - destruct kids as [|k kids]; [contradiction|]. eapply (lost_child u P any_texts _ _ _ _ _ _ _ _ _ _ _ k S N); eauto; [left; auto|apply K; left; auto].
  - destruct Na as [_ U]. destruct (U _ _ S) as [_ E]. discriminate E.
  - destruct Na as [_ U]. destruct (U _ _ S) as [-> E]. injection E as -> -> -> ->. destruct (Fl k eq_refl f If Af) as (p3 & d3 & a3 & m3 & vs3 & S3 & B). destruct Ne' as [_ U2]. destruct (U2 _ _ S3) as [-> E]. injection E as -> -> -> ->.
    rewrite forallb_forall in B. specialize (B v Iv). rewrite (variant_memberb_ok _ _ Mv), Vt in B. discriminate B.
Qed.
End Inversion.

(** Conditions as in C83, except that the choices are not all of the simple kind. *)
Definition misfit_all (u : uni) (n : node) (t : string) (i : inst) : Prop :=
  document [n] n /\ ok_schema n /\ tidy n /\ not_self_derived n /\
  (forall x, part x n -> orderly u n (Some (lit "tt")) (Some (lit "xs")) x) /\
  exists f its T, parse u [n] = Ok f /\ ns_prefix (rf_target_ns f) = Some (lit "tt") /\ ns_prefix (rf_xsd_ns f) = Some (lit "xs") /\
    separate_types n (type_name_of u f) (format_name u) /\ file_items u f (rf_types f) its /\
    type_named n (Some (lit "tt")) (Some (lit "xs")) (lit t) T /\ valid n (Some (lit "tt")) (Some (lit "xs")) (fun _ => True) any_text T i /\
    ~ fits_all u (concat (map (placed []) its)) [] (type_name_of u f (lit t)) i.
Ltac seen_struct := eapply (seen_above _ _ [] _ [] []); [reflexivity|do 3 right; left; reflexivity|vm_compute; reflexivity].
Ltac no_variant := let k := fresh in let E := fresh in let f := fresh in let If := fresh in intros k E f If _; first [discriminate E|injection E as <-];
  repeat (destruct If as [<-|If]; [do 5 eexists; split; [seen_type|vm_compute; reflexivity]|]); destruct If.

(** Alternatives of a qualified schema with a name of their own: the variant has no prefix. *)
Definition local_choice : node := qsch [cty "Way" [choice [typed "road" "xs:string"; typed "rail" "xs:string"]]].
Theorem C83_local_refuted : forall u, misfit_all u local_choice "tt:Way" (Inst (q "way") [] [leaf "road" "A1"] []).
Proof.
  intros u. unfold local_choice, choice. apply with_conditions; [conditions; split; [reflexivity|]; cbn [qsch children]; solve_ok|]. misfits; [names_type|split].
  - set (y := typed "road" "xs:string").
    eapply (valid_content _ _ _ _ _ plain _ false _ [] _ _ [[(y, leaf "road" "A1")]] [[leaf "road" "A1"]]).
    + apply composed_plain; [exact Logic.I|reflexivity|apply simple_attributed; reflexivity].
    + attribute_check.
    + constructor; [|constructor]. apply arranged_once; [occurrence|]. apply (once_choice _ y); [reflexivity|left; reflexivity|]. apply (arranged_elements _ [_]); try reflexivity; occurrence.
    + exists [y]. split; [|apply Permutation_refl]. fill builtin_type ltac:(apply valid_simple; exact Logic.I).
    + reflexivity.
    + auto.
  - eapply lost_kids; [seen_struct|not_library|intros k [<-|[]]; vm_compute; reflexivity|discriminate|no_variant].
Qed.
Print Assumptions C83_local_refuted.
(** Alternatives with a type of their own: the variant has no value. *)
Definition own_choice : node := qsch [cty "Way" [choice [el "element" [("name", "road"); ("form", "unqualified")] [el "complexType" [] [seq [typed "lane" "xs:string"]]]; bare "rail" "xs:string"]]].
Theorem C83_anonymous_refuted : forall u, misfit_all u own_choice "tt:Way" (Inst (q "way") [] [Inst (at_ "road") [] [leaf "lane" "A1"] []] []).
Proof.
  intros u. unfold own_choice, choice, bare. apply with_conditions; [conditions; split; [reflexivity|]; cbn [qsch children]; solve_ok|]. misfits; [names_type|split].
  - set (t := el "complexType" [] [seq [typed "lane" "xs:string"]]). set (y := el "element" [("name", "road"); ("form", "unqualified")] [t]). set (k := Inst (at_ "road") [] [leaf "lane" "A1"] []).
    eapply (valid_content _ _ _ _ _ (fun _ => Complex t) _ false _ [] _ _ [[(y, k)]] [[k]]).
    + apply composed_plain; [exact Logic.I|reflexivity|apply simple_attributed; reflexivity].
    + attribute_check.
    + constructor; [|constructor]. apply arranged_once; [occurrence|]. apply (once_choice _ y); [reflexivity|left; reflexivity|]. apply (arranged_elements _ [_]); try reflexivity; occurrence.
    + exists [y]. split; [|apply Permutation_refl]. constructor; [|constructor]. split; [split; [reflexivity|occurrence]|]. split; [eapply to_complex; reflexivity|]. constructor; [|constructor]. split; [eapply en_unqualified; [reflexivity|intros [X|[X _]]; discriminate X]|].
      eapply (valid_sequence _ _ _ _ _ plain _ _ _ _ _ _ [[_]]); [exact Logic.I|reflexivity|reflexivity|reflexivity|attribute_check|reflexivity|occurrence|reflexivity| |left; reflexivity]. fill builtin_type ltac:(apply valid_simple; exact Logic.I).
    + reflexivity.
    + auto.
  - eapply lost_kids; [seen_struct|not_library|intros k [<-|[]]; vm_compute; reflexivity|discriminate|no_variant].
Qed.
Print Assumptions C83_anonymous_refuted.
(** A choice that may be taken twice: one value. *)
Definition again_choice : node := qsch [cty "Way" [el "choice" [("maxOccurs", "unbounded")] [bare "road" "xs:string"; bare "rail" "xs:string"]]].
Definition bare_leaf (n s : string) : inst := Inst (at_ n) [] [] (lit s).
Theorem C83_repeated_refuted : forall u, misfit_all u again_choice "tt:Way" (Inst (q "way") [] [bare_leaf "road" "A1"; bare_leaf "rail" "R2"] []).
Proof.
  intros u. unfold again_choice, bare. apply with_conditions; [conditions; split; [reflexivity|]; cbn [qsch children]; solve_ok|]. misfits; [names_type|split].
  - set (x := el "element" [("name", "road"); _; _] []). set (y := el "element" [("name", "rail"); _; _] []).
    eapply (valid_content _ _ _ _ _ plain _ false _ [] _ _ [[(x, bare_leaf "road" "A1"); (y, bare_leaf "rail" "R2")]] [[bare_leaf "road" "A1"]; [bare_leaf "rail" "R2"]]).
    + apply composed_plain; [exact Logic.I|reflexivity|apply simple_attributed; reflexivity].
    + attribute_check.
    + constructor; [|constructor]. apply (arranged_runs _ [[(x, bare_leaf "road" "A1")]; [(y, bare_leaf "rail" "R2")]]); [occurrence|]. constructor; [|constructor; [|constructor]].
      * apply (once_choice _ x); [reflexivity|left; reflexivity|]. apply (arranged_elements _ [_]); try reflexivity; occurrence.
      * apply (once_choice _ y); [reflexivity|right; left; reflexivity|]. apply (arranged_elements _ [_]); try reflexivity; occurrence.
    + exists [x; y]. split; [|apply Permutation_refl].
      assert (F : forall n v, filled again_choice (Some (lit "tt")) (Some (lit "xs")) (fun _ => True) any_text plain (bare n "xs:string") [bare_leaf n v]).
      { intros n v. split; [split; [reflexivity|occurrence]|]. split; [typing_known; builtin_type|]. constructor; [|constructor]. split; [eapply en_unqualified; [reflexivity|intros [X|[X _]]; discriminate X]|apply valid_simple; exact Logic.I]. }
      constructor; [apply F; auto|constructor; [apply F; auto|constructor]].
    + reflexivity.
    + auto.
  - eapply lost_kids; [seen_struct|not_library|intros k [<-|[<-|[]]]; vm_compute; reflexivity|discriminate|no_variant].
Qed.
Print Assumptions C83_repeated_refuted.
(** A choice in the anonymous type of an element (what [orderly] leaves out): a struct and an
    enum of the same name. *)
Definition element_choice : node := qsch [within_element "pay" (el "complexType" [] [choice [bare "cash" "xs:string"; bare "card" "xs:string"]; att "currency" "xs:string"])].
Theorem C83_element_refuted : forall u, document [element_choice] element_choice /\ ok_schema element_choice /\ tidy element_choice /\ not_self_derived element_choice /\
  exists f its d a fs d' a' vs, parse u [element_choice] = Ok f /\ file_items u f (rf_types f) its /\
    In (IStruct d a (rust u "Pay") fs) its /\ In (IEnum d' a' (rust u "Pay") vs) its /\ ~ distinct_types its.
Proof.
  intros u. assert (C : document [element_choice] element_choice /\ ok_schema element_choice /\ tidy element_choice /\ not_self_derived element_choice).
  { unfold element_choice, choice, bare, within_element, att. conditions; split; [reflexivity|]; cbn [qsch children]; solve_ok. }
  destruct C as (C1 & C2 & C3 & C4). split; auto. split; auto. split; auto. split; auto. do 8 eexists. split; [vm_compute; reflexivity|]. split; [cbn [rf_types]; repeat econstructor|].
  split; [right; right; right; left; vm_compute; reflexivity|]. split; [left; vm_compute; reflexivity|]. eapply (twice_defined _ [] (rust u "Pay") [] [] []). vm_compute. reflexivity.
Qed.
Print Assumptions C83_element_refuted.
