(** What the parser makes of simple and complex types, one level at a time: the facts of
    ParserProofs.v put together for the types of a supported schema. *)
From Coq Require Import Arith NArith ZArith Bool Ascii String List Lia.
From Verif Require Import Str StrFacts SpecLex SpecNames Xml Names Entity Parser ParserFacts SpecSchema ParserProofs SpecDoc.
Import ListNotations.
Local Open Scope string_scope.
Local Open Scope list_scope.
Local Open Scope N_scope.
Arguments lit : simpl never.

Section Shape.
Context (u : uni).

(** The fields of the sequence of a complex type or of a derivation. *)
Definition content_fields (n : node) (anc : list node) (F : list (field entity)) : Prop :=
  F = [] \/ exists c P, In c (children n) /\ ok Sequence c /\ one ["sequence"; "all"] c /\ enclosing (n :: anc) P /\
    Forall2 (fun x f => particle_field (fun t e => parse_node u t (x :: c :: n :: anc) = Ok e) P x f) (particles c) F.
Definition type_groups (n : node) (gs : list (alias entity)) : Prop := gs = [] \/ Forall2 group_ref (group_children n) gs.
Definition choice_type (n : node) (anc : list node) (e : entity) : Prop :=
  exists c nm en s A f, final (tagged_children content_tags n) c /\ tag "choice" c /\ has_elements c /\
    e = EEnum en /\ type_name n anc nm /\ en_name en = nm ++ lit "Choice" /\ en_source en = OfChoice /\
    Forall2 choice_case (tagged_children ["element"] c) (en_cases en) /\ en_subtypes en = [EStruct s] /\
    st_name s = nm /\ st_fields s = A ++ [f] /\ choice_field nm f /\ st_subtypes s = [] /\
    Forall2 attribute_field (attribute_children n) A /\ Forall2 group_ref (group_children n) (st_groups s).
Definition struct_type (n : node) (anc : list node) (e : entity) : Prop :=
  exists nm s F A, e = EStruct s /\ type_name n anc nm /\ st_name s = nm /\ st_subtypes s = [] /\ st_fields s = F ++ A /\
    content_fields n anc F /\ Forall2 attribute_field (attribute_children n) A /\ type_groups n (st_groups s).
Definition derived_type (n : node) (anc : list node) (e : entity) : Prop :=
  exists c d nm s F A b B, In c (children n) /\ one ["complexContent"; "simpleContent"] c /\ only c d /\ one ["extension"; "restriction"] d /\
    e = EStruct s /\ type_name n anc nm /\ st_name s = nm /\ st_subtypes s = [] /\ st_fields s = F ++ A ++ [b] ++ B /\
    base_placeholder d b /\ content_fields d (c :: n :: anc) F /\
    Forall2 attribute_field (attribute_children d) A /\ Forall2 attribute_field (attribute_children n) B /\ type_groups d (st_groups s).

Lemma final_tagged ts n c : final (tagged_children ts n) c -> In c (children n) /\ one ts c.
Proof. intros F. apply final_in, in_tagged in F. exact F. Qed.
Lemma final_dec (ts : list string) n : (exists c, final (tagged_children ts n) c) \/ tagged_children ts n = [].
Proof.
  destruct (tagged_children ts n) as [|x l] using rev_ind; [right; auto|left]. exists x, l. auto.
Qed.
Lemma has_elements_dec c : has_elements c \/ ~ has_elements c.
Proof. destruct (existsb is_element (children c)) eqn:E; [left|right]; rewrite <- has_elements_iff; congruence. Qed.
Lemma one_dec' ts c : one ts c \/ ~ one ts c.
Proof. destruct (existsb (fun t => tagged t c) ts) eqn:E; [left|right]; rewrite <- one_dec; congruence. Qed.

Lemma complex_kids n : ok GlobalComplex n \/ ok LocalComplex n -> tag "complexType" n /\
  Forall (fun c => ignorable c \/ ok Attribute c \/ ok AnyAttribute c \/ ok GroupReference c \/
      ok Sequence c \/ ok Choice c \/ ok ComplexContent c \/ ok SimpleContent c) (children n).
Proof. intros [O|O]; inversion O; auto. Qed.
Lemma complex_shape n anc e : ok GlobalComplex n \/ ok LocalComplex n -> parse_node u n anc = Ok e ->
  choice_type n anc e \/ struct_type n anc e \/ derived_type n anc e.
Proof.
  intros O H. apply complex_kids in O as [T K].
  assert (X : (forall c, final (tagged_children content_tags n) c -> ~ has_elements c) -> struct_type n anc e).
  { intros E. destruct (complex_ok _ _ _ _ T H) as (nm & A & HN & HA & H1 & _). destruct (H1 E) as (s & -> & R1 & R2 & R3 & R4 & R5).
    exists nm, s, [], A. repeat (split; [solve [auto]|]). split; [left; auto|]. split; auto. right. auto. }
  destruct (final_dec content_tags n) as [(c & Fc)|Nil].
  2:{ right. left. apply X. intros c (a & E). rewrite Nil in E. destruct a; discriminate. }
  destruct (has_elements_dec c) as [E|E].
  2:{ right. left. apply X. intros c' Fc'. rewrite (final_unique _ _ _ Fc' Fc). auto. }
  destruct (complex_ok _ _ _ _ T H) as (nm & A & HN & HA & _ & H2). destruct (H2 c Fc E) as (ec & Hec & R).
  destruct (final_tagged _ _ _ Fc) as [Ic Oc]. unfold content_tags in Oc. rewrite Forall_forall in K. specialize (K c Ic).
  destruct (one_dec' ["sequence"; "all"] c) as [Sc|Sc].
  { right. left. assert (Ks : ok Sequence c) by (clear - K Sc; destruct K as [K|[K|[K|[K|[K|[K|[K|K]]]]]]]; auto; clash).
    destruct (sequence_ok _ _ _ _ Sc Hec) as (P & s0 & -> & HP & _ & Hg & Hs & _ & HF). cbn in R.
    destruct R as (s & -> & R1 & R2 & R3 & R4 & R5). exists nm, s, (st_fields s0), A.
    repeat (split; [solve [auto|congruence]|]). split; [right; exists c, P; auto|]. split; auto. left. congruence. }
  destruct (one_dec' ["choice"] c) as [Cc|Cc].
  { left. destruct Cc as (t & [<-|[]] & Tc). destruct (choice_ok _ _ _ _ Tc Hec) as (en0 & -> & _ & _ & (K1 & _ & _ & K2)). cbn in R.
    destruct R as (en & s & f & -> & R1 & R2 & R3 & _ & _ & R4 & R5 & R6 & R7 & R8 & R9 & R10). exists c, nm, en, s, A, f.
    rewrite R2, R3. repeat (split; [solve [auto]|]). auto. }
  assert (Dc : exists d, only c d /\ (tag "complexContent" c /\ ok ComplexDerivation d \/ tag "simpleContent" c /\ ok SimpleExtension d)).
  { clear - K Sc Cc Oc. destruct K as [K|[K|[K|[K|[K|[K|[K|K]]]]]]]; try (clash; fail).
    - exfalso. apply Sc. apply inv_sequence in K. apply K.
    - exfalso. apply Cc. apply inv_choice in K as [K _]. exists "choice"%string. split; [left; auto|auto].
    - inversion K; subst. eauto.
    - inversion K; subst. eauto. }
  destruct Dc as (d & Od & Dc). right. right.
  assert (Fd : final (particles c) d) by (exists []; rewrite (only_final _ _ Od); auto).
  assert (Oc' : one ["complexContent"; "simpleContent"] c).
  { destruct Dc as [[Y _]|[Y _]]; eexists; (split; [|exact Y]); [left|right; left]; auto. }
  destruct (content_ok u c (n :: anc) ec Oc' Hec) as (d' & Fd' & Hd). rewrite (final_unique _ _ _ Fd' Fd) in *.
  destruct Dc as [[Tc Kd]|[Tc Kd]].
  - assert (X1 : one ["extension"; "restriction"] d /\ Forall (fun c => ignorable c \/ ok Attribute c \/ ok AnyAttribute c \/ ok GroupReference c \/
      ok Sequence c \/ ok Choice c) (children d)) by (inversion Kd; auto). destruct X1 as [(t & It & Td) Kk].
    destruct (derivation_ok _ _ _ _ _ t It Td Tc Hd) as (s0 & A0 & b & -> & HA0 & Hb & Hs & _ & D1 & D2).
    cbn in R. destruct R as (s & -> & R1 & R2 & R3 & R4 & R5).
    assert (Y : exists F, st_fields s0 = F ++ A0 ++ [b] /\ content_fields d (c :: n :: anc) F /\ type_groups d (st_groups s0)).
    { destruct (final_dec (derivation_tags t) d) as [(q & Fq)|Nil].
      - destruct (one_dec' ["sequence"; "all"] q) as [Sq|Sq].
        + destruct (D1 q Fq Sq) as (P & F & HP & HF & Hg & HFF). exists F. split; auto. split; [|left; auto]. right. exists q, P.
          destruct (final_tagged _ _ _ Fq) as [Iq _]. rewrite Forall_forall in Kk. specialize (Kk q Iq).
          split; auto. split; [|auto]. clear - Kk Sq. destruct Kk as [Kk|[Kk|[Kk|[Kk|[Kk|Kk]]]]]; auto; clash.
        + destruct D2 as (HF & Hg). { intros q' Fq'. rewrite (final_unique _ _ _ Fq' Fq). auto. } exists []. split; auto. split; [left; auto|right; auto].
      - destruct D2 as (HF & Hg). { intros q' (a & Y). rewrite Nil in Y. destruct a; discriminate. } exists []. split; auto. split; [left; auto|right; auto]. }
    destruct Y as (F & Y1 & Y2 & Y3). exists c, d, nm, s, F, A0, b, A. split; auto. split; auto. split; auto. split; [exists t; auto|].
    split; auto. split; auto. split; auto. split; [congruence|]. split; [rewrite R2, Y1, <- !app_assoc; auto|]. rewrite R3. auto 8.
  - assert (Td : tag "extension" d) by (inversion Kd; auto).
    destruct (simple_extension_ok _ _ _ _ _ Td Tc Hd) as (s0 & A0 & b & -> & HA0 & Hb & Hs & _ & D1 & D2).
    cbn in R. destruct R as (s & -> & R1 & R2 & R3 & R4 & R5). exists c, d, nm, s, [], A0, b, A. split; auto. split; auto. split; auto.
    split; [exists "extension"%string; split; [left; auto|auto]|]. split; auto. split; auto. split; auto. split; [congruence|].
    split; [rewrite R2, D1, <- !app_assoc; auto|]. rewrite R3. split; auto. split; [left; auto|]. split; auto. split; auto. right. auto.
Qed.

(** Simple types. *)
Definition tuple_type (e : entity) : Prop := exists t, e = ETuple t /\ tu_subtypes t = [].
Definition enum_type (n : node) (anc : list node) (e : entity) : Prop :=
  exists r en, only n r /\ tag "restriction" r /\ plain_enumeration u r /\ e = EEnum en /\ en_subtypes en = [] /\ en_source en = OfRestriction /\
    Forall2 enum_of_value (tagged_children ["enumeration"] r) (en_cases en) /\
    (absent n "name" -> exists P, enclosing anc P /\ en_name en = P ++ lit "Enum").
Definition list_type (n : node) (anc : list node) (e : entity) : Prop :=
  exists l c ec t, only n l /\ tag "list" l /\ absent l "itemType" /\ In c (children l) /\ ok LocalSimple c /\ parse_node u c (l :: n :: anc) = Ok ec /\
    e = ETuple t /\ ((exists en, ec = EEnum en /\ tu_subtypes t = [EEnum en]) \/ (exists t0, ec = ETuple t0 /\ tu_subtypes t = tu_subtypes t0)).
Definition union_type (n : node) (anc : list node) (e : entity) : Prop :=
  exists r en, only n r /\ ok SimpleUnion r /\ tag "union" r /\ e = EEnum en /\ en_source en = OfUnion /\
    exists ts K1 K2, member_tokens r ts /\ Forall2 (fun t k => member_case t t k) ts K1 /\ en_cases en = K1 ++ K2 /\
      nested (fun c e => parse_node u c (r :: n :: anc) = Ok e) 0 (tagged_children ["simpleType"] r) K2 (en_subtypes en).

Lemma simple_kids n : ok GlobalSimple n \/ ok LocalSimple n -> tag "simpleType" n /\
  exists c, only n c /\ (ok SimpleRestriction c \/ ok SimpleList c \/ ok SimpleUnion c).
Proof. intros [O|O]; inversion O; eauto. Qed.
Lemma simple_shape n p anc e : ok GlobalSimple n \/ ok LocalSimple n -> parse_node u n (p :: anc) = Ok e ->
  tuple_type e \/ enum_type n (p :: anc) e \/ list_type n (p :: anc) e \/ union_type n (p :: anc) e.
Proof.
  intros O H. apply simple_kids in O as (T & c & Oc & K).
  destruct (simple_type_ok _ _ _ _ _ T H) as (c' & e0 & Fc & Hc & R).
  assert (E : c' = c). { rewrite (only_final _ _ Oc) in Fc. destruct Fc as ([|? [|]] & [= ->]); auto. } subst c'.
  assert (RE : (present n "name" /\ exists cm nm, e = set_comment cm (set_name nm e0)) \/ absent n "name" /\ exists cm, e = set_comment cm e0).
  { destruct R as [(_ & nm & Hn & ->)|(_ & A & ->)]; [left|right]; (split; [first [exact A|exists nm; exact Hn]|eauto]). }
  destruct K as [K|[K|K]].
  - assert (Tr : tag "restriction" c) by (inversion K; auto).
    destruct (restriction_ok _ _ _ _ _ Tr T Hc) as (b & Hb & D1 & D2).
    assert (PD : plain_enumeration u c \/ ~ plain_enumeration u c).
    { unfold plain_enumeration. destruct (tagged_children ["enumeration"] c) as [|x l] eqn:El; [right; intros ((? & []) & _)|].
      assert (Z : (forall y, In y (x :: l) -> exists v, has y "value" v /\ plain_value u v) \/ ~ (forall y, In y (x :: l) -> exists v, has y "value" v /\ plain_value u v)).
      { generalize (x :: l). clear. induction l as [|y l IH]; [left; intros y []|].
        assert (Y : (exists v, has y "value" v /\ plain_value u v) \/ ~ (exists v, has y "value" v /\ plain_value u v)).
        { unfold has. destruct (attribute y (lit "value")) as [v|]; [|right; intros (v & X & _); discriminate].
          destruct (is_simple_enumeration u v) eqn:S; [left; exists v; split; auto; apply plain_value_iff; auto|right].
          intros (v' & [= <-] & V). apply plain_value_iff in V. congruence. }
        destruct Y as [Y|Y]; [|right; intros Z; apply Y; apply Z; left; auto]. destruct IH as [IH|IH]; [left|right; intros Z; apply IH; intros; apply Z; right; auto].
        intros z [<-|Z]; auto. }
      destruct Z as [Z|Z]; [left|right]; [split; [exists x; left; auto|auto]|]. intros [_ Y]. auto. }
    destruct PD as [PE|PE].
    + destruct (D1 PE) as (P & en & -> & HP & En & _ & Es & Esub & Ec). right. left. exists c.
      destruct RE as [[(v & Hv) (cm & nm & ->)]|[A (cm & ->)]]; cbn; eexists; (split; [exact Oc|]); (split; [exact Tr|]); (split; [exact PE|]); (split; [reflexivity|]); cbn; (split; [auto|]); (split; [auto|]); (split; [auto|]).
      * intros A. unfold absent, has in *. congruence.
      * intros _. exists P. split; [|exact En]. inversion HP as [|? ? Ts|? ? ? Ns Hn|? ? ? Ns An HP']; subst; auto; [exfalso; unfold tag in *; rewrite T in Ts; discriminate|unfold has, absent in *; congruence].
    + destruct (D2 PE) as (t & -> & _ & _ & Es & _). left. destruct RE as [[(v & Hv) (cm & nm & ->)]|[A (cm & ->)]]; cbn; eexists; (split; [reflexivity|]); auto.
  - assert (Tl : tag "list" c) by (inversion K; auto).
    destruct (list_ok _ _ _ _ Tl Hc) as (t & -> & D1 & D2).
    destruct (attribute c (lit "itemType")) as [it|] eqn:It.
    + left. destruct (D1 it It) as (_ & _ & Es & _). destruct RE as [[(v & Hv) (cm & nm & ->)]|[A (cm & ->)]]; cbn; eexists; (split; [reflexivity|]); auto.
    + right. right. left. destruct (D2 It) as (c1 & ec & Fc1 & Hc1 & Cs).
      assert (O1 : ok LocalSimple c1 /\ In c1 (children c)).
      { destruct Fc1 as (a & b & Ech & Tc1 & _). assert (I1 : In c1 (children c)) by (rewrite Ech; apply in_or_app; right; left; auto). split; auto.
        assert (X1 : exists x, only c x /\ ok LocalSimple x).
        { inversion K as [| | |? Tx Pi|? x Tx Ax Ox Kx| | | | | | | | | | | | | | | | | | |]; subst; [destruct Pi as (v & V); unfold has in V; congruence|eauto]. }
        destruct X1 as (x & Ox & Kx). destruct Ox as (a' & b' & Ech' & Ex & Nx & Fa & Fb). rewrite Ech' in I1. apply in_app_or in I1 as [I1|[<-|I1]]; auto; exfalso.
        - rewrite Forall_forall in Fa. specialize (Fa _ I1). clear - Fa Tc1. clash.
        - rewrite Forall_forall in Fb. specialize (Fb _ I1). clear - Fb Tc1. clash. }
      destruct O1 as [O1 I1].
      destruct RE as [[(v & Hv) (cm & nm & ->)]|[A (cm & ->)]]; cbn; exists c, c1, ec; eexists; (split; [exact Oc|]); (split; [exact Tl|]); (split; [exact It|]); (split; [exact I1|]); (split; [exact O1|]); (split; [exact Hc1|]); (split; [reflexivity|]); cbn;
        (destruct Cs as [(en & -> & _ & _ & Es & _)|(t0 & -> & _ & _ & Es & _)]; [left|right]; eauto).
  - assert (Tu : tag "union" c) by (inversion K; auto). right. right. right.
    destruct (union_ok _ _ _ _ Tu Hc) as (A & HA & D1 & _).
    destruct D1 as (en & -> & _ & UE).
    { unfold attribute_children. destruct (tagged_children _ c) as [|x l] eqn:E; auto. exfalso.
      assert (I : In x (tagged_children ["attribute"; "anyAttribute"] c)) by (rewrite E; left; auto). apply in_tagged in I as [I Ox].
      assert (F : Forall (fun c => ignorable c \/ ok LocalSimple c) (children c)) by (inversion K; auto). rewrite Forall_forall in F. specialize (F x I). clear - F Ox. clash. }
    destruct UE as (Es & _ & _ & ts & K1 & K2 & U1 & U2 & U3 & U4).
    destruct RE as [[(v & Hv) (cm & nm & ->)]|[Ab (cm & ->)]]; cbn; exists c; eexists; (split; [exact Oc|]); (split; [exact K|]); (split; [exact Tu|]); (split; [reflexivity|]); cbn; (split; [auto|]); exists ts, K1, K2; auto.
Qed.
End Shape.

(** ** Declarations of elements and attributes *)
Lemma global_element_shape u n anc d e : tag "schema" n -> tag "element" d -> parse_node u d (n :: anc) = Ok e ->
  exists nm, has d "name" nm /\
    match attribute d (lit "type") with
    | Some q => e = EAlias (new_alias nm q (get_documentation d))
    | None => (tagged_children ["simpleType"; "complexType"] d = [] /\ e = EStruct (st_set_comment (get_documentation d) (empty_struct nm))) \/
        exists t e0, final (tagged_children ["simpleType"; "complexType"] d) t /\ parse_node u t (d :: n :: anc) = Ok e0 /\ e = set_name nm e0
    end.
Proof.
  intros S T H. rewrite (step_kind u d _ KElement) in H by exact T. unfold parse_element in H. rewrite (parent_kind _ n anc KSchema eq_refl S) in H. cbn [bind] in H.
  unfold parse_global_element in H. bk H nm Hn. apply expect_ok in Hn. exists nm. split; [exact Hn|]. unfold attr_type in H.
  destruct (attribute d (lit "type")) as [q|]; [congruence|]. bk H l Hl. eapply nodes_inv in Hl; [|apply by_tag_one_of]; destruct Hl as [HC ->].
  rewrite (filter_tags _ ["simpleType"; "complexType"]) in H by reflexivity. rewrite last_opt_map in H.
  destruct (last_opt (tagged_children _ d)) as [t|] eqn:Lt; cbn in H.
  - right. apply rmap_iff in H as (e0 & He & <-). exists t, e0. split; [apply last_opt_final; auto|auto].
  - left. apply last_opt_none in Lt. split; [auto|congruence].
Qed.
Lemma global_attribute_shape u n anc d e : tag "schema" n -> tag "attribute" d -> parse_node u d (n :: anc) = Ok e ->
  match attribute d (lit "ref") with
  | Some r => e = EAlias (new_alias r r (get_documentation d))
  | None => exists nm, has d "name" nm /\
    match attribute d (lit "type") with
    | Some q => e = EAlias (new_alias nm q (get_documentation d))
    | None => (tagged_children ["simpleType"] d = [] /\ e = EStruct (empty_struct nm)) \/
        exists t e0, final (tagged_children ["simpleType"] d) t /\ parse_node u t (d :: n :: anc) = Ok e0 /\ e = set_name nm e0
    end
  end.
Proof.
  intros S T H. rewrite (step_kind u d _ KAttribute) in H by exact T. unfold parse_attribute in H. rewrite (parent_kind _ n anc KSchema eq_refl S) in H. cbn [bind is_kind kind_beq] in H.
  unfold parse_global_attribute, attr_ref in H. destruct (attribute d (lit "ref")) as [r|]; [congruence|].
  bk H nm Hn. apply expect_ok in Hn. exists nm. split; [exact Hn|]. unfold attr_type in H.
  destruct (attribute d (lit "type")) as [q|]; [congruence|]. bk H l Hl. eapply elements_inv in Hl; [|apply by_tag_kind]; destruct Hl as [HC ->].
  rewrite (filter_tagb_e _ "simpleType") in H by reflexivity. rewrite last_opt_map in H.
  destruct (last_opt (tagged_children _ d)) as [t|] eqn:Lt; cbn in H.
  - right. apply rmap_iff in H as (e0 & He & <-). exists t, e0. split; [apply last_opt_final; auto|auto].
  - left. apply last_opt_none in Lt. split; [auto|congruence].
Qed.
