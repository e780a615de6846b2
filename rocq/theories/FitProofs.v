(** Proofs about instances: valid instances fit the generated types. *)
From Coq Require Import Arith NArith ZArith Bool Ascii String List Lia Permutation.
From Verif Require Import Str StrFacts SpecLex SpecNames SpecBuiltin Xml Comment CommentProofs Names NamesProofs Entity Parser ParserFacts SpecSchema ParserProofs Link SpecLink LinkProofs Gen SpecRust SpecGen RustFacts GenProofs GenProofs2 SpecDoc DocProofs SpecScope ScopeProofs SpecTraits TraitProofs SpecSize SizeProofs ShapeProofs SpecDistinct DistinctProofs DistinctProofs2 MemberProofs SpecFit SpecRestrict.
Import ListNotations.
Local Open Scope string_scope.
Local Open Scope list_scope.
Local Open Scope N_scope.
Notation concat := List.concat.
Arguments lit : simpl never.

(** ** Parsed types *)
(** The field of an element; [A nm t x]: the entity [x], called [nm], is of the anonymous type [t]. *)
Definition eslot (A : str -> node -> entity -> Prop) (e : node) (f : field entity) : Prop :=
  tag "element" e /\ fl_name f = element_name e /\ fl_source f = FromElement /\
  (exists m r, container e m /\ fl_mods f = m :: r /\ (r = [] \/ r = [MRecursive])) /\
  match attribute e (lit "type"), attribute e (lit "ref") with
  | Some t, _ | None, Some t => fl_type f = t /\ fl_subtypes f = []
  | None, None => exists t x, final (tagged_children ["simpleType"; "complexType"] e) t /\ fl_type f = element_name e ++ lit "Type" /\
      fl_subtypes f = [x] /\ A (element_name e ++ lit "Type") t x
  end.
Definition aslot (a : node) (f : field entity) : Prop := tag "attribute" a /\ attribute_field a f.
Definition body_elements (n : node) : list node := concat (map particles (groups_of n)).
Definition body_attributes (n : node) : list node := tagged_children ["attribute"] n.

Lemma eslot_imp (A B : str -> node -> entity -> Prop) e f : (forall nm t x, In t (children e) -> A nm t x -> B nm t x) -> eslot A e f -> eslot B e f.
Proof.
  intros H (T & E1 & E2 & E3 & E4). repeat (split; auto). destruct (attribute e (lit "type")), (attribute e (lit "ref")); auto.
  destruct E4 as (t & x & F & E & S & X). exists t, x. repeat (split; auto). apply H; auto. apply final_tagged in F. apply F.
Qed.

Lemma tagged_split (l : list node) (ts rs : list string) : (forall t, In t rs -> In t ts) ->
  filter (fun c => existsb (fun t => tagged t c) rs) l = filter (fun c => existsb (fun t => tagged t c) rs) (filter (fun c => existsb (fun t => tagged t c) ts) l).
Proof.
  intros H. induction l as [|c l IH]; cbn; auto. destruct (existsb (fun t => tagged t c) ts) eqn:E; cbn; rewrite IH; auto.
  destruct (existsb (fun t => tagged t c) rs) eqn:E'; auto. apply existsb_exists in E' as (t & I & T). rewrite <- not_true_iff_false in E. exfalso. apply E. apply existsb_exists. eauto.
Qed.
Lemma groups_of_content n : groups_of n = filter (fun c => existsb (fun t => tagged t c) ["sequence"; "all"; "choice"]) (tagged_children content_tags n).
Proof. unfold groups_of, tagged_children. apply tagged_split. unfold content_tags. cbn. intuition subst; tauto. Qed.
Lemma attribute_children_plain n : tagged_children ["attributeGroup"; "anyAttribute"] n = [] -> attribute_children n = body_attributes n /\ group_children n = [].
Proof.
  unfold attribute_children, group_children, body_attributes, tagged_children. induction (children n) as [|c l IH]; cbn [filter existsb]; [auto|].
  destruct (tagged "attributeGroup" c) eqn:G, (tagged "anyAttribute" c) eqn:Y; cbn [orb]; try discriminate. intros H. destruct (IH H) as [I1 I2]. split; [|exact I2].
  destruct (tagged "attribute" c); cbn [orb]; [f_equal|]; exact I1.
Qed.

Section Parsed.
Context (u : uni).
(** The anonymous type [t] parsed and named. *)
Definition parsed_as (nm : str) (t : node) (x : entity) : Prop := exists e anc x0, parse_node u t (e :: anc) = Ok x0 /\ x = set_name nm x0.

Lemma particle_eslot c P e f anc : tag "element" e -> particle_field (fun t x => parse_node u t (e :: c :: anc) = Ok x) P e f -> eslot parsed_as e f.
Proof.
  intros T (H & _). destruct (H T) as (E1 & E2 & _ & (m & r & C & Em & R1 & R2) & E4). split; auto. split; auto. split; auto.
  assert (S : suffix P (fl_type f) \/ ~ suffix P (fl_type f)).
  { destruct (ends_with P (fl_type f)) eqn:X; [left|right]; [apply ends_with_iff; auto|]. intros Y. apply ends_with_iff in Y. congruence. }
  split; [exists m, r; split; auto; split; auto; destruct S; auto|].
  destruct (attribute e (lit "type")), (attribute e (lit "ref")); auto. destruct E4 as (t & x & F & X & Et & Es). exists t. eexists. repeat (split; eauto). exists e, (c :: anc), x. auto.
Qed.

Definition simple_body (n : node) : Prop :=
  (tagged_children content_tags n = [] \/
   exists c, tagged_children content_tags n = [c] /\ one ["sequence"; "all"] c /\ Forall (tag "element") (particles c)) /\
  tagged_children ["attributeGroup"; "anyAttribute"] n = [].
Lemma filter_nil {A} (p : A -> bool) l : (forall x, In x l -> p x = false) -> filter p l = [].
Proof. induction l as [|x l IH]; intros H; cbn; auto. rewrite (H x) by (left; auto). apply IH. intros; apply H; right; auto. Qed.
Lemma no_particles c : ~ has_elements c -> particles c = [].
Proof.
  intros H. apply filter_nil. intros x I. destruct (is_element x) eqn:E; auto. exfalso. apply H. exists x. auto.
Qed.
Lemma group_tagged c : one ["sequence"; "all"] c -> existsb (fun t => tagged t c) ["sequence"; "all"; "choice"] = true.
Proof. intros (t & I & T). apply existsb_exists. exists t. split; [cbn in *; tauto|apply tagged_iff; auto]. Qed.
Lemma body_group n c : tagged_children content_tags n = [c] -> one ["sequence"; "all"] c -> body_elements n = particles c.
Proof. intros E O. unfold body_elements. rewrite groups_of_content, E. cbn [filter]. rewrite (group_tagged c O). cbn. apply app_nil_r. Qed.
Lemma body_none n : tagged_children content_tags n = [] -> body_elements n = [].
Proof. intros E. unfold body_elements. rewrite groups_of_content, E. reflexivity. Qed.
Lemma attribute_aslots n A : tagged_children ["attributeGroup"; "anyAttribute"] n = [] -> Forall2 attribute_field (attribute_children n) A -> Forall2 aslot (body_attributes n) A.
Proof.
  intros G F. rewrite (proj1 (attribute_children_plain n G)) in F. eapply Forall2_imp; [|exact F]. intros a f I H. split; auto. apply in_tagged in I as [_ (t & [<-|[]] & T)]. auto.
Qed.
Lemma particles_eslots c P anc F : Forall (tag "element") (particles c) ->
  Forall2 (fun x f => particle_field (fun t e => parse_node u t (x :: c :: anc) = Ok e) P x f) (particles c) F -> Forall2 (eslot parsed_as) (particles c) F.
Proof. intros T H. eapply Forall2_imp; [|exact H]. intros x f I X. rewrite Forall_forall in T. eapply particle_eslot; [apply T; auto|exact X]. Qed.

Lemma final_one {A} (l : list A) c : l = [c] -> exists a, l = a ++ [c].
Proof. intros ->. exists []. auto. Qed.
Lemma plain_parse t anc e : tag "complexType" t -> simple_body t -> parse_node u t anc = Ok e ->
  exists s F A, e = EStruct s /\ type_name t anc (st_name s) /\ st_subtypes s = [] /\ st_groups s = [] /\ st_fields s = F ++ A /\
    Forall2 (eslot parsed_as) (body_elements t) F /\ Forall2 aslot (body_attributes t) A.
Proof.
  intros T (B & G) H. destruct (complex_ok _ _ _ _ T H) as (nm & A & HN & HA & H1 & H2). pose proof (attribute_aslots t A G HA) as HA'.
  destruct (attribute_children_plain t G) as [_ Gc].
  assert (X : (forall c, final (tagged_children content_tags t) c -> ~ has_elements c) -> body_elements t = [] ->
    exists s F A, e = EStruct s /\ type_name t anc (st_name s) /\ st_subtypes s = [] /\ st_groups s = [] /\ st_fields s = F ++ A /\
    Forall2 (eslot parsed_as) (body_elements t) F /\ Forall2 aslot (body_attributes t) A).
  { intros E B0. destruct (H1 E) as (s & -> & <- & R2 & R3 & R4 & _). exists s, [], A. rewrite Gc in R4. inversion R4. rewrite B0. repeat (split; auto). }
  destruct B as [B|(c & B & Oc & Te)].
  { apply X; [|apply body_none; auto]. intros c (a & E). rewrite B in E. destruct a; discriminate. }
  assert (Fc : final (tagged_children content_tags t) c) by (exists []; auto).
  destruct (has_elements_dec c) as [E|E].
  - destruct (H2 c Fc E) as (ec & Hec & R). destruct (sequence_ok _ _ _ _ Oc Hec) as (P & s0 & -> & HP & _ & Hg & Hs & _ & HF). cbn in R.
    destruct R as (s & -> & <- & R2 & R3 & R4 & _). exists s, (st_fields s0), A. rewrite (body_group t c B Oc). repeat (split; [solve [auto|congruence]|]). split; auto. eapply particles_eslots; eauto.
  - apply X. { intros c' Fc'. rewrite (final_unique _ _ _ Fc' Fc). auto. } rewrite (body_group t c B Oc). apply no_particles. auto.
Qed.

Lemma plain_tags k d : In k ["extension"; "restriction"] -> tagged_children content_tags d = [] \/ (exists c, tagged_children content_tags d = [c] /\ one ["sequence"; "all"] c) ->
  tagged_children ["attributeGroup"; "anyAttribute"] d = [] -> tagged_children (derivation_tags k) d = tagged_children content_tags d.
Proof.
  intros Hk H G. assert (X : forall c, In c (children d) -> existsb (fun t => tagged t c) (derivation_tags k) = existsb (fun t => tagged t c) content_tags).
  { intros c I. assert (N : forall t, In t ["attributeGroup"; "anyAttribute"] -> ~ tag t c).
    { intros t It T. assert (Y : In c (tagged_children ["attributeGroup"; "anyAttribute"] d)) by (apply in_tagged; split; auto; exists t; auto). rewrite G in Y. destruct Y. }
    apply eq_true_iff_eq. split; intros Y; apply existsb_exists in Y as (t & It & Tt); apply tagged_iff in Tt.
    - apply existsb_exists. exists t. split; [|apply tagged_iff; auto]. assert (N1 : t <> "attributeGroup"%string) by (intros ->; apply (N "attributeGroup"%string); cbn; auto). assert (N2 : t <> "anyAttribute"%string) by (intros ->; apply (N "anyAttribute"%string); cbn; auto).
      destruct Hk as [<-|[<-|[]]]; cbn in It |- *; intuition congruence.
    - assert (Y : In c (tagged_children content_tags d)) by (apply in_tagged; split; auto; exists t; auto).
      destruct H as [H|(c' & H & O)]; rewrite H in Y; [destruct Y|]. destruct Y as [->|[]]. destruct O as (s & Is & Ts). apply existsb_exists. exists s. split; [destruct Hk as [<-|[<-|[]]]; cbn in *; tauto|apply tagged_iff; auto]. }
  unfold tagged_children. apply filter_ext_in. exact X.
Qed.
Lemma derived_parse k t anc c d e : In k ["extension"; "restriction"] -> tag "complexType" t -> tagged_children content_tags t = [c] -> tagged_children ["attribute"; "attributeGroup"; "anyAttribute"] t = [] ->
  tag "complexContent" c -> only c d -> tag k d -> simple_body d -> parse_node u t anc = Ok e ->
  exists s F A b, e = EStruct s /\ type_name t anc (st_name s) /\ st_subtypes s = [] /\ st_groups s = [] /\ st_fields s = F ++ A ++ [b] /\ base_placeholder d b /\
    Forall2 (eslot parsed_as) (body_elements d) F /\ Forall2 aslot (body_attributes d) A.
Proof.
  intros Hk T Ec Ga Tc Od Td (B & G) H. destruct (complex_ok _ _ _ _ T H) as (nm & A & HN & HA & _ & H2).
  assert (Fc : final (tagged_children content_tags t) c) by (exists []; auto).
  assert (EA : A = []).
  { assert (Y : attribute_children t = []).
    { unfold attribute_children, tagged_children. rewrite (tagged_split _ ["attribute"; "attributeGroup"; "anyAttribute"]) by (cbn; intuition). unfold tagged_children in Ga. rewrite Ga. reflexivity. }
    rewrite Y in HA. inversion HA. auto. }
  subst A. assert (E : has_elements c). { destruct Od as (a & b & E & I & _). exists d. split; auto. rewrite E. apply in_or_app. right. left. auto. }
  destruct (H2 c Fc E) as (ec & Hec & R).
  assert (Oc : one ["complexContent"; "simpleContent"] c) by (eexists; split; [left; reflexivity|auto]).
  destruct (content_ok u c (t :: anc) ec Oc Hec) as (d' & Fd' & Hd). rewrite (only_final _ _ Od) in Fd'. destruct Fd' as ([|? [|]] & [= <-]).
  destruct (derivation_ok u d c (t :: anc) ec k Hk Td Tc Hd) as (s0 & A0 & b & -> & HA0 & Hb & Hs & _ & D1 & D2). cbn in R.
  destruct R as (s & -> & <- & R2 & R3 & R4 & _). rewrite app_nil_r in R2. rewrite Hs in R4. destruct (attribute_children_plain d G) as [_ Gc].
  assert (Et : tagged_children (derivation_tags k) d = tagged_children content_tags d).
  { apply plain_tags; auto. destruct B as [B|(q & B & O & _)]; eauto. }
  rewrite Et in D1, D2. destruct B as [B|(q & B & Oq & Te)].
  - destruct D2 as (E1 & E2). { intros q (a & Y). rewrite B in Y. destruct a; discriminate. } rewrite Gc in E2. inversion E2 as [Y|]. exists s, [], A0, b. rewrite (body_none d B). cbn [app].
    repeat (split; [solve [auto|congruence]|]). apply attribute_aslots; auto.
  - destruct (D1 q) as (P & F & HP & E1 & E2 & HF); [exists []; auto|auto|]. exists s, F, A0, b. rewrite (body_group d q B Oq). repeat (split; [solve [auto|congruence]|]).
    split; [eapply particles_eslots; eauto|apply attribute_aslots; auto].
Qed.
Lemma extension_parse t anc c d e : tag "complexType" t -> tagged_children content_tags t = [c] -> tagged_children ["attribute"; "attributeGroup"; "anyAttribute"] t = [] ->
  tag "complexContent" c -> only c d -> tag "extension" d -> simple_body d -> parse_node u t anc = Ok e ->
  exists s F A b, e = EStruct s /\ type_name t anc (st_name s) /\ st_subtypes s = [] /\ st_groups s = [] /\ st_fields s = F ++ A ++ [b] /\ base_placeholder d b /\
    Forall2 (eslot parsed_as) (body_elements d) F /\ Forall2 aslot (body_attributes d) A.
Proof. apply derived_parse. left. auto. Qed.
End Parsed.

(** ** Composition *)
Lemma attributed_plain schema l r : filter (fun c => existsb (fun t => tagged t c) ["attributeGroup"; "anyAttribute"]) l = [] -> attributed schema l r ->
  r = filter (fun c => existsb (fun t => tagged t c) ["attribute"]) l.
Proof.
  intros H A. induction A as [|a l r T A IH|g q k d l r r' T Hq Lq Dq A1 IH1 A2 IH2|c l r N A IH]; auto.
  - cbn [filter existsb] in *. rewrite (tagged_is _ _ T). cbn [orb]. f_equal. apply IH. rewrite (tagged_not _ "attributeGroup" _ T), (tagged_not _ "anyAttribute" _ T) in H by reflexivity. exact H.
  - exfalso. cbn [filter existsb] in H. rewrite (tagged_is _ _ T) in H. discriminate.
  - cbn [filter existsb] in *. destruct (tagged "attribute" c) eqn:Ta; [exfalso; apply N; eexists; split; [left; reflexivity|apply tagged_iff; auto]|]. cbn [orb]. apply IH.
    destruct (tagged "attributeGroup" c); [discriminate|]. destruct (tagged "anyAttribute" c); [discriminate|]. exact H.
Qed.
Lemma regular_simple schema own xsd n : regular_body schema own xsd n -> simple_body n.
Proof.
  intros (B & G & _). split; auto. destruct B as [B|(c & B & O & _ & _ & F)]; [left; auto|right]. exists c. split; auto. split; auto. eapply Forall_impl; [|exact F]. intros e (T & _). auto.
Qed.

Section Composed.
Context (schema : node) (own xsd : option str).
Notation regular := (regular schema own xsd).
Notation regular_body := (regular_body schema own xsd).
Notation composed := (composed schema own xsd regular).
Lemma body_no_content n : regular_body n -> tagged_children ["complexContent"; "simpleContent"] n = [].
Proof.
  intros (B & _). unfold tagged_children. rewrite (tagged_split _ content_tags) by (unfold content_tags; cbn; intuition subst; tauto). fold (tagged_children content_tags n).
  destruct B as [->|(c & -> & O & _)]; [reflexivity|]. cbn [filter]. destruct O as (t & It & T). cbn in It.
  destruct It as [<-|[<-|[]]]; cbn [existsb]; rewrite (tagged_not _ "complexContent" _ T), (tagged_not _ "simpleContent" _ T) by reflexivity; reflexivity.
Qed.
Lemma composed_inv t s gs r : composed t s gs r ->
  (regular_body t /\ s = false /\ gs = groups_of t /\ r = body_attributes t) \/
  exists c d q l b gs0 r0, tagged_children content_tags t = [c] /\ tagged_children ["attribute"; "attributeGroup"; "anyAttribute"] t = [] /\
    tag "complexContent" c /\ only c d /\ tag "extension" d /\ has d "base" q /\ base_before schema own xsd t q /\ regular_body d /\
    to_own own xsd q l /\ declared schema "complexType" l b /\ composed b s gs0 r0 /\ gs = gs0 ++ groups_of d /\ r = r0 ++ body_attributes d.
Proof.
  assert (X : forall t c, regular t -> tagged_children ["complexContent"; "simpleContent"] t = [c] -> exists d q, tagged_children content_tags t = [c] /\
    tagged_children ["attribute"; "attributeGroup"; "anyAttribute"] t = [] /\ tag "complexContent" c /\ only c d /\ tag "extension" d /\ has d "base" q /\ base_before schema own xsd t q /\ regular_body d).
  { intros x c (_ & [B|(c' & d & q & E & E2 & Tc & Od & Td & Hq & Bb & Bd)] & _) Ec; [rewrite (body_no_content _ B) in Ec; discriminate|].
    unfold tagged_children in Ec. rewrite (tagged_split _ content_tags) in Ec by (unfold content_tags; cbn; intuition subst; tauto). fold (tagged_children content_tags x) in Ec. rewrite E in Ec.
    cbn [filter] in Ec. destruct (existsb _ _); [injection Ec as ->|discriminate]. exists d, q. auto 10. }
  intros C. inversion C as [t' r' Rt E A|t' c d q l b s' gs0 r0 r' Rt E Tc Od Td Hq To De Cb A|t' c d q r' Rt E Tc]; subst.
  - left. destruct Rt as (_ & [B|(c & d & q & E' & _ & Tc & _)] & _).
    + repeat (split; auto). eapply attributed_plain; eauto. apply B.
    + exfalso. assert (Y : In c (tagged_children ["complexContent"; "simpleContent"] t)).
      { apply in_tagged. split; [|eexists; split; [left; reflexivity|auto]]. assert (Z : In c (tagged_children content_tags t)) by (rewrite E'; left; auto). apply in_tagged in Z. apply Z. }
      rewrite E in Y. destruct Y.
  - right. destruct (X t c Rt E) as (d' & q' & E1 & E2 & _ & Od' & _ & Hq' & Bb & Bd).
    assert (d' = d). { apply only_final in Od. apply only_final in Od'. congruence. } subst d'. assert (q' = q) by (unfold has in *; congruence). subst q'.
    exists c, d, q, l, b, gs0, r0. repeat (split; auto). f_equal. eapply attributed_plain; eauto. apply Bd.
  - exfalso. destruct (X t c Rt E) as (d' & q' & _ & _ & Tc' & _). unfold tag in *. rewrite Tc in Tc'. discriminate.
Qed.
Lemma composed_not_text t s gs r : composed t s gs r -> s = false.
Proof.
  intros C. induction C as [| |t c d q r' Rt E Tc Od Td Hq Tn A]; auto. exfalso.
  destruct (composed_inv _ _ _ _ (composed_text schema own xsd regular t c d q r' Rt E Tc Od Td Hq Tn A)) as [(_ & X & _)|(c' & d' & _ & _ & _ & _ & _ & E1 & _ & Tc' & _)]; [discriminate|].
  unfold tagged_children in E. rewrite (tagged_split _ content_tags) in E by (unfold content_tags; cbn; intuition subst; tauto). fold (tagged_children content_tags t) in E. rewrite E1 in E.
  cbn [filter] in E. destruct (existsb _ _); [injection E as ->|discriminate]. unfold tag in *. rewrite Tc in Tc'. discriminate.
Qed.
Lemma composed_any R t s gs r : SpecFit.composed schema own xsd R t s gs r -> SpecFit.composed schema own xsd (fun _ => True) t s gs r.
Proof. intros C. induction C; [apply composed_plain|eapply composed_extension|eapply composed_text]; eauto. Qed.
Lemma composed_regular t s gs r : composed t s gs r -> regular t.
Proof. intros C. inversion C; auto. Qed.
End Composed.

(** ** Linked types *)
Lemma part_trans a b c : part a b -> part b c -> part a c.
Proof. intros P Q. induction Q; auto. eapply part_child; eauto. Qed.
Lemma part_kid ts t c : In c (children t) -> one ts c -> forallb (fun t => negb (String.eqb t "annotation")) ts = true -> part c t.
Proof. intros I O A. eapply part_child; [exact I|eapply not_note; eauto|constructor]. Qed.
Lemma body_elements_part n e : In e (body_elements n) -> tag "element" e -> part e n.
Proof.
  unfold body_elements. intros I T. apply in_concat in I as (l & Il & I). apply in_map_iff in Il as (c & <- & Ic). apply in_tagged in Ic as [Ic Oc].
  apply part_trans with (b := c); [|eapply part_kid; eauto]. unfold particles in I. apply filter_In in I as [I _]. eapply (part_kid ["element"]); eauto. exists "element"%string. split; [left|]; auto.
Qed.
Lemma body_attributes_part n a : In a (body_attributes n) -> part a n.
Proof. intros I. apply in_tagged in I as [I O]. eapply part_kid; eauto. Qed.
Lemma local_self v : ~ In 58 v -> local_part v = v.
Proof. intros N. apply local_part_ok. split; auto. Qed.

Lemma filter_split {A} (p : A -> bool) l i x : nth_error (filter p l) i = Some x -> exists a b, l = a ++ x :: b /\ filter p a = firstn i (filter p l) /\ filter p (a ++ b) = firstn i (filter p l) ++ skipn (S i) (filter p l).
Proof.
  revert i. induction l as [|y l IH]; intros i H; [destruct i; discriminate|]. cbn [filter] in *. destruct (p y) eqn:Py.
  - destruct i as [|i]; cbn [nth_error] in H.
    + injection H as <-. exists [], l. cbn. auto.
    + destruct (IH i H) as (a & b & -> & E1 & E2). exists (y :: a), b. cbn [app filter firstn skipn]. rewrite Py. cbn [app]. split; auto. split; [f_equal; auto|f_equal; auto].
  - destruct (IH i H) as (a & b & -> & E1 & E2). exists (y :: a), b. cbn [app filter]. rewrite Py. auto.
Qed.
Lemma nth_other {A} (l : list A) i j x : nth_error l j = Some x -> j <> i -> In x (firstn i l ++ skipn (S i) l).
Proof.
  revert i j. induction l as [|y l IH]; intros i j H N; [destruct j; discriminate|]. destruct i as [|i], j as [|j]; cbn in *; try congruence.
  - eapply nth_error_In; eauto.
  - left. congruence.
  - right. apply (IH i j); auto.
Qed.

Section Linked.
Context (u : uni) (schema : node) (own xsd : option str) (f0 f1 : rs_file).
Context (O : ok_schema schema) (AF : all_fine schema) (H : parse_schema u schema [] = Ok f0) (L : link f0 = Ok f1).
Context (NC : forall x nm, part x schema -> has x "name" nm -> ~ In 58 nm).
Notation ds := (declarations schema).
Notation l0 := (top_level f0).
Notation l1 := (top_level f1).
Notation regular := (regular schema own xsd).
Notation composed := (composed schema own xsd regular).
Notation elements gs := (concat (map particles gs)).

(** The entity of an anonymous type in the linked file. *)
Definition made (nm : str) (t : node) (x : entity) : Prop :=
  exists i D x0, nth_error ds i = Some D /\ part t D /\ parsed_as u nm t x0 /\ completed (snapshot l0 l1 i) x0 x.
Definition from_element (f : field entity) : bool := match fl_source f with FromElement => true | _ => false end.
Definition slots_are (gs r : list node) (fs : list (field entity)) : Prop :=
  (forall e, In e (concat (map particles gs)) -> exists f, In f fs /\ eslot made e f) /\ (forall a, In a r -> exists f, In f fs /\ aslot a f) /\
  (forall f, In f fs -> (exists e, In e (concat (map particles gs)) /\ eslot made e f) \/ (exists a, In a r /\ aslot a f)) /\
  (* the members for elements come group by group *)
  exists gs', Permutation gs' gs /\ Forall2 (eslot made) (concat (map particles gs')) (filter from_element fs).

Lemma declaration_part D : In D ds -> part D schema.
Proof. intros I. apply in_declarations in I as (I & _ & N & _). eapply part_child; eauto. constructor. Qed.
Lemma element_not_base A e f : part e schema -> eslot A e f -> ~ placeholder f.
Proof.
  intros P (T & E & _). unfold placeholder. rewrite E. unfold element_name. destruct (AF e P) as (X & _). specialize (X ltac:(eexists; split; [left; reflexivity|auto])).
  unfold has in X. destruct (attribute e (lit "name")); [apply X; auto|]. destruct (attribute e (lit "ref")); [apply X; auto|discriminate].
Qed.
Lemma attribute_not_base a f : part a schema -> aslot a f -> ~ placeholder f.
Proof.
  intros P (T & E). destruct E as (_ & _ & _ & E & _). destruct (E T) as (N & _). unfold placeholder. destruct (AF a P) as (X & _). specialize (X ltac:(eexists; split; [right; left; reflexivity|auto])).
  apply X. destruct N as [N|[_ N]]; auto.
Qed.
Lemma slot_local A e f : part e schema -> eslot A e f -> present e "name" \/ present e "ref" -> local_name e = Some (local_part (fl_name f)).
Proof.
  intros P (T & E & _) Pr. rewrite E. unfold local_name, element_name, present, has in *. destruct (attribute e (lit "name")) as [v|] eqn:Ev; cbn.
  - rewrite local_self; auto. eapply NC; eauto.
  - destruct (attribute e (lit "ref")) as [v|]; auto. destruct Pr as [(v & X)|(v & X)]; discriminate.
Qed.
Lemma attribute_local a f : part a schema -> aslot a f -> local_name a = Some (local_part (fl_name f)).
Proof.
  intros P (T & E). destruct E as (_ & _ & _ & E & _). destruct (E T) as (N & _). unfold local_name. unfold has, absent in N. destruct N as [N|[N1 N2]].
  - rewrite N. rewrite local_self; auto. eapply NC; eauto.
  - rewrite N1, N2. auto.
Qed.

Lemma same_eslot i D n e f g : nth_error ds i = Some D -> part n D -> In e (body_elements n) -> eslot (parsed_as u) e f -> same_field (completed (snapshot l0 l1 i)) f g -> eslot made e g.
Proof.
  intros Hi Pn Ie (T & E1 & E2 & E3 & E4) (S1 & S2 & _ & S4 & S5 & S6). assert (Pe := body_elements_part n e Ie T).
  split; auto. rewrite S1, S4, S5, S2. split; auto. split; auto. split; auto. destruct (attribute e (lit "type")), (attribute e (lit "ref")); try (destruct E4 as [-> E4]; rewrite E4 in S6; inversion S6; auto; fail).
  destruct E4 as (t & x & Fi & Et & Es & Pa). rewrite Es in S6. inversion S6 as [|? x' ? l' Cx Nl]; subst. inversion Nl; subst. exists t, x'. repeat (split; auto). exists i, D, x. split; auto. split; auto.
  apply final_tagged in Fi as [It Ot]. eapply part_trans; [eapply part_kid; eauto|]. eapply part_trans; eauto.
Qed.
Lemma same_aslot R a f g : aslot a f -> same_field R f g -> aslot a g.
Proof.
  intros (T & E1 & E2 & E3 & E4 & E5) (S1 & S2 & S3 & S4 & S5 & S6). split; auto. unfold attribute_field. rewrite S1, S2, S3, S4, S5. repeat (split; auto). rewrite E2 in S6. inversion S6. auto.
Qed.
Lemma Forall2_compose {A B C} (P : A -> B -> Prop) (Q : B -> C -> Prop) l m r : Forall2 P l m -> Forall2 Q m r -> Forall2 (fun a c => exists b, P a b /\ Q b c) l r.
Proof. intros F. revert r. induction F; intros r G; inversion G; subst; constructor; eauto. Qed.
Lemma slots_body i D n F A F' A' : nth_error ds i = Some D -> part n D -> Forall2 (eslot (parsed_as u)) (body_elements n) F -> Forall2 aslot (body_attributes n) A ->
  Forall2 (same_field (completed (snapshot l0 l1 i))) F F' -> Forall2 (same_field (completed (snapshot l0 l1 i))) A A' ->
  Forall2 (eslot made) (body_elements n) F' /\ Forall2 aslot (body_attributes n) A'.
Proof.
  intros Hi Pn HF HA SF SA. split.
  - eapply Forall2_imp; [|eapply Forall2_compose; [exact HF|exact SF]]. intros e g Ie (f & E & S). eapply same_eslot; eauto.
  - eapply Forall2_imp; [|eapply Forall2_compose; [exact HA|exact SA]]. intros a g Ia (f & E & S). eapply same_aslot; eauto.
Qed.
Lemma from_elements es F : Forall2 (eslot made) es F -> filter from_element F = F.
Proof. intros HF. apply filter_id. intros f I. destruct (Forall2_in_r _ _ _ _ HF I) as (e & _ & _ & _ & S & _). unfold from_element. rewrite S. auto. Qed.
Lemma from_attributes r A : Forall2 aslot r A -> filter from_element A = [].
Proof. intros HF. apply filter_nil. intros f I. destruct (Forall2_in_r _ _ _ _ HF I) as (e & _ & _ & S & _). unfold from_element. rewrite S. auto. Qed.
Lemma slots_of gs r F A : Forall2 (eslot made) (concat (map particles gs)) F -> Forall2 aslot r A -> slots_are gs r (F ++ A).
Proof.
  intros HF HA. split; [|split; [|split; [|exists gs; split; auto; rewrite filter_app, (from_elements _ _ HF), (from_attributes _ _ HA), app_nil_r; auto]]].
  - intros e I. destruct (ParserFacts.Forall2_in_l _ _ _ _ HF I) as (f & If & E). exists f. split; auto. apply in_or_app; auto.
  - intros e I. destruct (ParserFacts.Forall2_in_l _ _ _ _ HA I) as (f & If & E). exists f. split; auto. apply in_or_app; auto.
  - intros f I. apply in_app_or in I as [I|I]; [left; destruct (Forall2_in_r _ _ _ _ HF I) as (e & Ie & E)|right; destruct (Forall2_in_r _ _ _ _ HA I) as (e & Ie & E)]; eauto.
Qed.
Lemma slots_app gs r fs gs' r' fs' : slots_are gs r fs -> slots_are gs' r' fs' -> slots_are (gs ++ gs') (r ++ r') (fs' ++ fs).
Proof.
  intros (A1 & A2 & A3 & gA & PA & A4) (B1 & B2 & B3 & gB & PB & B4). unfold slots_are. rewrite (map_app particles gs gs'), concat_app. split; [|split; [|split]].
  4: { exists (gB ++ gA). split; [rewrite (Permutation_app_comm gs gs'); apply Permutation_app; auto|]. rewrite map_app, concat_app, filter_app. apply Forall2_app; auto. }
  - intros e I. apply in_app_or in I as [I|I]; [destruct (A1 e I) as (f & If & E)|destruct (B1 e I) as (f & If & E)]; exists f; (split; [apply in_or_app; auto|auto]).
  - intros e I. apply in_app_or in I as [I|I]; [destruct (A2 e I) as (f & If & E)|destruct (B2 e I) as (f & If & E)]; exists f; (split; [apply in_or_app; auto|auto]).
  - intros f I. apply in_app_or in I as [I|I]; [destruct (B3 f I) as [(e & Ie & E)|(e & Ie & E)]|destruct (A3 f I) as [(e & Ie & E)|(e & Ie & E)]]; [left|right|left|right]; exists e; (split; [apply in_or_app; auto|auto]).
Qed.

(** Bases *)
Lemma declaration_in t d : In d (children schema) -> tag t d -> In t ["complexType"; "simpleType"; "element"; "attribute"] -> In d ds.
Proof.
  intros I T It. unfold declarations. apply filter_In. split; auto. assert (T' := T). unfold tag in T'.
  rewrite (tagged_not t "annotation" d T), (tagged_not t "attributeGroup" d T) by (cbn in It; clear - It; repeat (destruct It as [<-|It]; [reflexivity|]); destruct It).
  rewrite (nonempty_element t d); auto. cbn in It. clear - It. repeat (destruct It as [<-|It]; [discriminate|]). destruct It.
Qed.
Lemma declaration_parsed i D : nth_error ds i = Some D -> exists e, nth_error (rf_types f0) i = Some e /\ parse_node u D [schema] = Ok e.
Proof.
  destruct (schema_inv _ _ _ _ H) as (_ & H1 & _). intros Hi. revert i Hi. induction H1; intros [|i] Hi; try discriminate; cbn in *; [injection Hi as <-; eauto|eauto].
Qed.
Lemma parsed_declaration i e : nth_error (rf_types f0) i = Some e -> exists D, nth_error ds i = Some D /\ parse_node u D [schema] = Ok e.
Proof.
  destruct (schema_inv _ _ _ _ H) as (_ & H1 & _). intros Hi. revert i Hi. induction H1; intros [|i] Hi; try discriminate; cbn in *; [injection Hi as <-; eauto|eauto].
Qed.
Lemma regular_struct b anc e : tag "complexType" b -> regular b -> parse_node u b anc = Ok e -> exists s, e = EStruct s /\ type_name b anc (st_name s) /\ st_subtypes s = [] /\ st_groups s = [].
Proof.
  intros T (_ & [B|(c & d & q & E & E2 & Tc & Od & Td & Hq & Bb & Bd)] & _) Hp.
  - destruct (plain_parse u b anc e T (regular_simple _ _ _ _ B) Hp) as (s & F & A & -> & X1 & X2 & X3 & _). eauto.
  - destruct (extension_parse u b anc c d e T E E2 Tc Od Td (regular_simple _ _ _ _ Bd) Hp) as (s & F & A & b' & -> & X1 & X2 & X3 & _). eauto.
Qed.
Lemma untyped_alias D e : one ["element"; "attribute"] D -> present D "type" -> parse_node u D [schema] = Ok e -> forall s, e <> EStruct s.
Proof.
  intros (t & [<-|[<-|[]]] & T) (q & Hq) Hp s ->; unfold has in Hq.
  - destruct (global_element_shape u schema [] D _ (proj1 O) T Hp) as (nm & _ & X). rewrite Hq in X. discriminate.
  - pose proof (global_attribute_shape u schema [] D _ (proj1 O) T Hp) as X. destruct (attribute D (lit "ref")); [discriminate|]. destruct X as (nm & _ & X). rewrite Hq in X. discriminate.
Qed.
Lemma base_refers i D n q l b : nth_error ds i = Some D -> part n D -> base_before schema own xsd n q -> to_own own xsd q l -> declared schema "complexType" l b -> regular b ->
  local q l /\ exists j, (j < i)%nat /\ nth_error ds j = Some b /\ (exists s, struct_at (rf_types f0) j s /\ st_name s = l) /\ forall j', refers l0 q j' -> j' = j.
Proof.
  intros Hi Pn Bb To De Rb. destruct (Bb l b To De) as (B1 & B2). destruct De as (Ib & Tb & Nb).
  assert (Pb : part b schema) by (eapply (part_kid ["complexType"]); eauto; eexists; split; [left|]; auto).
  assert (Lq : local q l).
  { split; [eapply NC; eauto|]. destruct To as ([p|] & Q & _); [right; exists p|left]; apply Q. }
  split; auto. destruct (filter_split _ _ _ _ Hi) as (pre & post & Ec & Ep & _). assert (Ibp := B1 pre D post Ec Pn).
  assert (Ibf : In b (firstn i ds)). { unfold declarations at 1. rewrite <- Ep. assert (X := declaration_in "complexType" b Ib Tb ltac:(left; auto)). unfold declarations in X. apply filter_In in X as [_ X]. apply filter_In. auto. }
  apply In_nth_error in Ibf as (j & Hj). assert (Lj : (j < i)%nat). { assert (Y : (j < List.length (firstn i ds))%nat) by (apply nth_error_Some; congruence). rewrite firstn_length in Y. lia. }
  assert (Hjb : nth_error ds j = Some b). { rewrite <- (firstn_skipn i ds). rewrite nth_error_app1; auto. apply nth_error_Some. congruence. }
  exists j. split; auto. split; auto. destruct (declaration_parsed j b Hjb) as (e & He & Pe). destruct (regular_struct b _ _ Tb Rb Pe) as (s & -> & Ns & _).
  assert (Es : st_name s = l). { destruct Ns as [Ns _]. specialize (Ns (proj1 O)). unfold has in *. congruence. }
  split; [exists s; auto|]. intros j' (k & s' & Lk & Aj & Nj & _).
  assert (Ek : k = l) by (rewrite <- (local_part_ok _ _ Lk); apply local_part_ok; auto). rewrite Ek in Nj. clear k Lk Ek.
  destruct (filter_split _ _ _ _ Hjb) as (pre' & post' & Ec' & _ & Ef').
  destruct (Nat.lt_ge_cases j' (List.length (rf_types f0))) as [Lt|Ge].
  - apply struct_at_types in Aj; auto. destruct (Nat.eq_dec j' j) as [->|Ne]; auto. exfalso.
    destruct (parsed_declaration j' _ Aj) as (D' & HD' & PD'). assert (I' := nth_other _ _ _ _ HD' Ne). unfold declarations in I' at 1 2. rewrite <- Ef' in I'. apply filter_In in I' as [I' _].
    assert (N' : has D' "name" l).
    { destruct (declaration_like u schema D' (EStruct s') O AF) as [(s2 & [= <-] & _ & X & _)|[Sh _]]; auto; [eapply nth_error_In; eauto|congruence|inversion Sh; contradiction]. }
    destruct (B2 pre' post' D' Ec' I' N') as [X1 X2]. eapply untyped_alias; eauto.
  - exfalso. unfold struct_at, top_level in Aj. rewrite nth_error_app2 in Aj by lia. apply nth_error_In in Aj.
    destruct (schema_ok _ _ _ _ (proj1 O) H) as [_ G]. destruct (Forall2_in_r _ _ _ _ G Aj) as (g & Ig & (s2 & [= <-] & Hg & _)). apply in_tagged in Ig as [Ig (t & [<-|[]] & Tg)].
    rewrite Nj in Hg. rewrite Ec' in Ig. assert (Ig' : In g (pre' ++ post')).
    { apply in_app_or in Ig as [Ig|[->|Ig]]; [apply in_or_app; auto| |apply in_or_app; auto]. unfold tag in *. rewrite Tg in Tb. discriminate. }
    destruct (B2 pre' post' g Ec' Ig' Hg) as [(t & [<-|[<-|[]]] & X) _]; unfold tag in *; rewrite X in Tg; discriminate.
Qed.

(** What a base contributes. *)
Definition feeding (i : nat) (src : str -> list (field entity) -> Prop) : Prop :=
  forall q c, src q c -> snapshot l0 l1 i q c \/ refers l0 q i /\ c = [].
Lemma base_fields i D n q l b src c : feeding i src -> nth_error ds i = Some D -> part n D -> base_before schema own xsd n q -> to_own own xsd q l -> declared schema "complexType" l b -> regular b ->
  src q c -> exists j t, (j < i)%nat /\ nth_error ds j = Some b /\ struct_at (rf_types f1) j t /\ c = st_fields t.
Proof.
  intros Fe Hi Pn Bb To De Rb Sc. destruct (base_refers i D n q l b Hi Pn Bb To De Rb) as (Lq & j & Lj & Hj & (s & As & Ns) & Un).
  assert (Ap : struct_at l0 j s). { unfold struct_at, top_level in *. rewrite nth_error_app1; auto. apply nth_error_Some. congruence. }
  destruct (Fe q c Sc) as [[[Da _]|(j' & Rj & Y)]|[Rj _]].
  - exfalso. eapply Da; eauto.
  - rewrite (Un j' Rj) in *. destruct Y as [(_ & t & At & ->)|(Lt & _)]; [|lia]. exists j, t. split; auto. split; auto. split; auto. apply struct_at_types; auto.
    destruct (link_ok _ _ L) as (_ & _ & _ & El & _). rewrite El. eapply struct_at_bound; eauto.
  - rewrite (Un i Rj) in Lj. lia.
Qed.

Definition complete (i : nat) : Prop := forall b s gs r t, nth_error ds i = Some b -> tag "complexType" b -> composed b s gs r -> struct_at (rf_types f1) i t -> slots_are gs r (st_fields t).
Lemma proper_all fs : (forall f, In f fs -> ~ placeholder f) -> proper fs = fs /\ placeholders fs = [].
Proof.
  unfold placeholder. induction fs as [|f fs IH]; intros X; [auto|]. destruct IH as [I1 I2]; [intros; apply X; right; auto|]. unfold proper, placeholders in *. cbn [filter].
  destruct (str_eqb (fl_name f) (lit "__base__")) eqn:E; [apply str_eqb_eq in E; exfalso; eapply X; [left; reflexivity|auto]|]. cbn [negb]. rewrite I1. auto.
Qed.
Lemma attributed_parts l r : attributed schema l r -> (forall a, In a l -> tag "attribute" a -> part a schema) -> forall a, In a r -> tag "attribute" a /\ part a schema.
Proof.
  intros A. induction A as [|a l r T A IH|g q k d l r r' T Hq Lq Dq A1 IH1 A2 IH2|c l r N A IH]; intros X x I; [destruct I| | |].
  - destruct I as [<-|I]; [split; auto; apply X; auto; left; auto|]. apply IH; auto. intros; apply X; auto; right; auto.
  - apply in_app_or in I as [I|I]; [apply IH1; auto|apply IH2; auto]; [|intros; apply X; auto; right; auto].
    intros y Iy Ty. destruct Dq as (Id & Td & _). apply part_trans with (b := d); [eapply (part_kid ["attribute"])|eapply (part_kid ["attributeGroup"])]; eauto; eexists; (split; [left; reflexivity|auto]).
  - apply IH; auto. intros; apply X; auto; right; auto.
Qed.
Lemma derivation_part t c d : In c (children t) -> one ["complexContent"; "simpleContent"] c -> only c d -> tag "extension" d -> part d t.
Proof.
  intros I Oc (a & b & E & _) T. apply part_trans with (b := c); [|eapply part_kid; eauto]. eapply (part_kid ["extension"]); eauto; [rewrite E; apply in_or_app; right; left; auto|]. eexists. split; [left; reflexivity|auto].
Qed.
Lemma one_content t c : tagged_children ["complexContent"; "simpleContent"] t = [c] -> In c (children t) /\ one ["complexContent"; "simpleContent"] c.
Proof. intros E. apply in_tagged. rewrite E. left. auto. Qed.
Lemma composed_parts R t s gs r : SpecFit.composed schema own xsd R t s gs r -> part t schema -> (forall e, In e (elements gs) -> tag "element" e -> part e schema) /\ (forall a, In a r -> tag "attribute" a /\ part a schema).
Proof.
  intros C. assert (Y : forall n, part n schema -> forall a, In a (children n) -> tag "attribute" a -> part a schema).
  { intros n Pn a I T. apply part_trans with (b := n); auto. eapply (part_kid ["attribute"]); eauto. eexists. split; [left; reflexivity|auto]. }
  induction C as [t r Rt E A|t c d q l b s gs r r' Rt E Tc Od Td Hq To De Cb IH A|t c d q r' Rt E Tc Od Td Hq Tn A]; intros Pt.
  - split; [|apply (attributed_parts _ _ A); apply Y; auto]. intros e I T. apply part_trans with (b := t); auto. apply body_elements_part; auto.
  - destruct (one_content _ _ E) as [Ic Oc]. assert (Pd : part d schema) by (apply part_trans with (b := t); auto; eapply derivation_part; eauto).
    destruct De as (Ib & Tb & Nb). destruct IH as [I1 I2]; [eapply (part_kid ["complexType"]); eauto; eexists; split; [left; reflexivity|auto]|].
    rewrite map_app, concat_app. split; [intros e I T|intros a I]; apply in_app_or in I as [I|I]; auto.
    + apply part_trans with (b := d); auto. apply body_elements_part; auto.
    + apply (attributed_parts _ _ A); auto. apply Y; auto.
  - split; [intros e []|]. destruct (one_content _ _ E) as [Ic Oc]. assert (Pd : part d schema) by (apply part_trans with (b := t); auto; eapply derivation_part; eauto). apply (attributed_parts _ _ A). apply Y; auto.
Qed.
Lemma NoDup_apart {A B} (h : A -> B) a b c d x y : NoDup (map h ((a ++ b) ++ c ++ d)) -> In x (b ++ d) -> In y (a ++ c) -> h x <> h y.
Proof.
  intros N Ix Iy E. assert (Pm : Permutation ((a ++ b) ++ c ++ d) ((a ++ c) ++ b ++ d)).
  { rewrite <- !app_assoc. apply Permutation_app_head. rewrite !app_assoc. apply Permutation_app_tail. apply Permutation_app_comm. }
  apply (Permutation_map h) in Pm. apply (Permutation_NoDup Pm) in N. rewrite map_app in N. apply in_split in Iy as (l1' & l2' & El). rewrite El, map_app in N. cbn [map] in N. rewrite <- app_assoc in N. apply NoDup_remove_2 in N.
  apply N. rewrite <- E. apply in_or_app. right. apply in_or_app. right. apply in_map. auto.
Qed.
Lemma regular_named n e : regular_body schema own xsd n -> In e (body_elements n) -> tag "element" e /\ (present e "name" \/ present e "ref").
Proof.
  intros ([B|(c & B & Oc & _ & _ & F)] & _) I.
  - rewrite (body_none n B) in I. destruct I.
  - rewrite (body_group n c B Oc) in I. rewrite Forall_forall in F. destruct (F e I) as (T & N & _). auto.
Qed.
Lemma composed_named t s gs r : composed t s gs r -> forall e, In e (elements gs) -> tag "element" e /\ (present e "name" \/ present e "ref").
Proof.
  intros C. induction C as [t r Rt E A|t c d q l b s gs r r' Rt E Tc Od Td Hq To De Cb IH A|t c d q r' Rt E Tc Od Td Hq Tn A]; intros e I.
  - destruct (composed_inv _ _ _ _ _ _ _ (composed_plain schema own xsd regular t r Rt E A)) as [(B & _)|(c & d & q & l & b & gs0 & r0 & Ec & _ & Tc & _)]; [eapply regular_named; eauto|].
    exfalso. assert (Y : In c (tagged_children content_tags t)) by (rewrite Ec; left; auto). apply in_tagged in Y as [Y _].
    assert (Z : In c (tagged_children ["complexContent"; "simpleContent"] t)) by (apply in_tagged; split; auto; eexists; split; [left; reflexivity|auto]). rewrite E in Z. destruct Z.
  - rewrite map_app, concat_app in I. apply in_app_or in I as [I|I]; auto.
    destruct (composed_inv _ _ _ _ _ _ _ (composed_extension schema own xsd regular t c d q l b s gs r r' Rt E Tc Od Td Hq To De Cb A)) as [(B & _)|(c' & d' & _ & _ & _ & _ & _ & Ec & _ & _ & Od' & _ & _ & _ & Bd & _)].
    + rewrite (body_no_content _ _ _ _ B) in E. discriminate.
    + assert (c' = c). { unfold tagged_children in E. rewrite (tagged_split _ content_tags) in E by (unfold content_tags; cbn; intuition subst; tauto). fold (tagged_children content_tags t) in E. rewrite Ec in E. cbn [filter] in E. destruct (existsb _ _); [congruence|discriminate]. }
      subst c'. assert (d' = d). { apply only_final in Od. apply only_final in Od'. congruence. } subst d'. eapply regular_named; eauto.
  - destruct I.
Qed.
Lemma slots_not_base gs r fs : (forall e, In e (concat (map particles gs)) -> tag "element" e -> part e schema) -> (forall a, In a r -> tag "attribute" a /\ part a schema) -> slots_are gs r fs -> forall f, In f fs -> ~ placeholder f.
Proof.
  intros X1 X2 (_ & _ & S & _) f I. destruct (S f I) as [(e & Ie & E)|(a & Ia & E)]; [eapply element_not_base; [|exact E]; apply X1; auto; apply E|eapply attribute_not_base; [|exact E]; apply X2; auto].
Qed.

Lemma fields_slots i src D n s gs r anc s0 own0 out : (forall j, (j < i)%nat -> complete j) -> feeding i src -> nth_error ds i = Some D -> part n D -> tag "complexType" n ->
  composed n s gs r -> parse_node u n anc = Ok (EStruct s0) -> Forall2 (same_field (completed (snapshot l0 l1 i))) (st_fields s0) own0 -> assembled src own0 out -> slots_are gs r out.
Proof.
  intros IH Fe Hi Pn Tn C Hp Sf (cs & Hcs & ->). assert (PD := declaration_part D (nth_error_In _ _ Hi)). assert (Ps : part n schema) by (eapply part_trans; eauto).
  destruct (composed_inv _ _ _ _ _ _ _ C) as [(B & -> & -> & ->)|(c & d & q & l & b & gs0 & r0 & Ec & Ea & Tc & Od & Td & Hq & Bb & Bd & To & De & Cb & -> & ->)].
  - destruct (plain_parse u n anc _ Tn (regular_simple _ _ _ _ B) Hp) as (s1 & F & A & [= <-] & _ & _ & _ & Ef & HF & HA). rewrite Ef in Sf.
    apply Forall2_app_inv_l in Sf as (F' & A' & SF & SA & ->). destruct (slots_body i D n F A F' A' Hi Pn HF HA SF SA) as [HF' HA']. assert (Sl := slots_of (groups_of _) _ _ _ HF' HA').
    destruct (proper_all (F' ++ A')) as [E1 E2].
    { eapply slots_not_base; [| |exact Sl]; [intros e I T; apply part_trans with (b := n); auto; apply body_elements_part; auto|].
      intros a I. split; [apply in_tagged in I as [_ (t & [<-|[]] & T)]; auto|apply part_trans with (b := n); auto; apply body_attributes_part; auto]. }
    rewrite E2 in Hcs. inversion Hcs; subst. rewrite E1. cbn [List.concat not_redeclared filter]. rewrite app_nil_r. exact Sl.
  - destruct (extension_parse u n anc c d _ Tn Ec Ea Tc Od Td (regular_simple _ _ _ _ Bd) Hp) as (s1 & F & A & pb & [= <-] & _ & _ & _ & Ef & Hb & HF & HA). rewrite Ef in Sf.
    assert (Ic : In c (children n)). { assert (Y : In c (tagged_children content_tags n)) by (rewrite Ec; left; auto). apply in_tagged in Y. apply Y. }
    assert (Pd : part d n). { eapply derivation_part; eauto. eexists. split; [left; reflexivity|auto]. }
    assert (Pds : part d schema) by (eapply part_trans; eauto).
    apply Forall2_app_inv_l in Sf as (F' & R' & SF & SR & ->). apply Forall2_app_inv_l in SR as (A' & B' & SA & SB & ->). inversion SB as [|? pb' ? tl Spb Stl]; subst. inversion Stl; subst.
    destruct (slots_body i D d F A F' A' Hi (part_trans _ _ _ Pd Pn) HF HA SF SA) as [HF' HA']. assert (Sl := slots_of (groups_of _) _ _ _ HF' HA').
    assert (Pbe : forall e, In e (body_elements d) -> tag "element" e -> part e schema) by (intros e I T; apply part_trans with (b := d); auto; apply body_elements_part; auto).
    assert (Pba : forall a, In a (body_attributes d) -> tag "attribute" a /\ part a schema) by (intros a I; split; [apply in_tagged in I as [_ (t & [<-|[]] & T)]; auto|apply part_trans with (b := d); auto; apply body_attributes_part; auto]).
    destruct (proper_all (F' ++ A')) as [E1 E2]; [eapply slots_not_base; eauto|].
    destruct Hb as (Hq' & Hn & _). destruct Spb as (Sn & St & _). assert (Eb : str_eqb (fl_name pb') (lit "__base__") = true) by (rewrite Sn, Hn; apply str_eqb_refl).
    rewrite app_assoc in Hcs |- *. unfold placeholders, proper in Hcs, E1, E2 |- *. rewrite filter_app in Hcs |- *. rewrite E1. rewrite E2 in Hcs. cbn [filter] in Hcs |- *. rewrite Eb in Hcs |- *. cbn [app negb] in Hcs |- *. rewrite app_nil_r.
    inversion Hcs as [|? bc ? tl Hbc Htl]; subst. inversion Htl; subst. cbn [List.concat]. rewrite app_nil_r.
    assert (fl_type pb' = q) by (rewrite St; unfold has in *; congruence). subst q.
    destruct (base_fields i D n _ l b src bc Fe Hi Pn Bb To De (composed_regular _ _ _ _ _ _ _ Cb) Hbc) as (j & t & Lj & Hj & At & ->).
    assert (Sb := IH j Lj b _ _ _ t Hj ltac:(apply De) Cb At). assert (Pb : part b schema) by (apply declaration_part; eapply nth_error_In; eauto).
    destruct (composed_parts _ _ _ _ _ Cb Pb) as [Pe Pa].
    assert (E : not_redeclared ((F' ++ A') ++ [pb']) (st_fields t) = st_fields t).
    { apply filter_id. intros g Ig. apply negb_true_iff. apply not_true_iff_false. intros X. apply existsb_exists in X as (f & If & Ef'). apply str_eqb_eq in Ef'.
      apply in_app_or in If as [If|[<-|[]]].
      - destruct (composed_regular _ _ _ _ _ _ _ C) as (_ & _ & ND). specialize (ND _ _ _ (composed_any _ _ _ _ _ _ _ _ C)). rewrite (map_app particles), concat_app in ND.
        assert (X1 : exists x, In x (body_elements d ++ body_attributes d) /\ local_name x = Some (local_part (fl_name f))).
        { destruct (proj1 (proj2 (proj2 Sl)) f If) as [(e & Ie & E)|(a & Ia & E)]; [exists e|exists a]; (split; [apply in_or_app; auto|]).
          - eapply slot_local; [|exact E|]; [apply Pbe; auto; apply E|]. eapply regular_named; eauto.
          - eapply attribute_local; [|exact E]. apply Pba; auto. }
        assert (X2 : exists x, In x (elements gs0 ++ r0) /\ local_name x = Some (local_part (fl_name g))).
        { destruct (proj1 (proj2 (proj2 Sb)) g Ig) as [(e & Ie & E)|(a & Ia & E)]; [exists e|exists a]; (split; [apply in_or_app; auto|]).
          - eapply slot_local; [|exact E|]; [apply Pe; auto; apply E|]. eapply composed_named; eauto.
          - eapply attribute_local; [|exact E]. apply Pa; auto. }
        destruct X1 as (x & Ix & Ex), X2 as (y & Iy & Ey). apply (NoDup_apart local_name _ _ _ _ x y ND Ix Iy). congruence.
      - eapply (slots_not_base _ _ _ Pe Pa Sb g Ig). unfold placeholder. rewrite <- Ef'. congruence. }
    rewrite E. apply slots_app; auto.
Qed.
Lemma top_assembled i s0 t : struct_at (rf_types f0) i s0 -> st_groups s0 = [] -> struct_at (rf_types f1) i t ->
  exists src own0, feeding i src /\ Forall2 (same_field (completed (snapshot l0 l1 i))) (st_fields s0) own0 /\ assembled src own0 (st_fields t).
Proof.
  intros He Eg At. destruct (link_ok _ _ L) as (_ & _ & _ & _ & _ & Str). destruct (Str i s0 He) as (t' & At' & own0 & out & g & _ & Sf & As & Gs & Ef).
  assert (t' = t) by (unfold struct_at in *; congruence). subst t'. rewrite Eg in Gs. inversion Gs; subst. cbn in Ef. rewrite app_nil_r in Ef. rewrite Ef.
  eexists. exists own0. split; [|split; [exact Sf|exact As]]. intros q c [X|[X1 X2]]; auto.
Qed.
Lemma top_slots i D n s gs r anc s1 s0 t : (forall j, (j < i)%nat -> complete j) -> nth_error ds i = Some D -> part n D -> tag "complexType" n -> composed n s gs r ->
  parse_node u n anc = Ok (EStruct s1) -> st_fields s0 = st_fields s1 -> st_groups s0 = [] -> struct_at (rf_types f0) i s0 -> struct_at (rf_types f1) i t -> slots_are gs r (st_fields t).
Proof.
  intros IH Hi Pn Tn C Hp Ef0 Eg He At. destruct (top_assembled i s0 t He Eg At) as (src & own0 & Fe & Sf & As). rewrite Ef0 in Sf. eapply (fields_slots i); eauto.
Qed.
Theorem all_complete i : complete i.
Proof.
  induction i as [i IH] using (well_founded_induction lt_wf). intros b s gs r t Hi Tb C At. destruct (declaration_parsed i b Hi) as (e & He & Pe).
  destruct (regular_struct b _ _ Tb (composed_regular _ _ _ _ _ _ _ C) Pe) as (s0 & -> & _ & _ & Eg). eapply (top_slots i); eauto. constructor.
Qed.
Theorem made_slots nm n x s gs r : made nm n x -> tag "complexType" n -> composed n s gs r -> exists t, x = EStruct t /\ st_name t = nm /\ st_subtypes t = [] /\ slots_are gs r (st_fields t).
Proof.
  intros (i & D & x0 & Hi & Pn & (e & anc & x1 & Hp & ->) & Cx) Tn C. destruct (regular_struct n _ _ Tn (composed_regular _ _ _ _ _ _ _ C) Hp) as (s0 & -> & _ & Es & _).
  cbn [set_name] in Cx. inversion Cx as [? t own0 Ss Sf As|? X]; subst; [|exfalso; eapply X; reflexivity]. destruct Ss as (N & _ & _ & Su). exists t. split; auto. split; auto. split; [rewrite Su; auto|].
  eapply (fields_slots i (snapshot l0 l1 i)); eauto; [intros; apply all_complete|intros q c X; auto].
Qed.

(** Restrictions *)
Notation restricts := (restricts schema own xsd).
Definition members_are (es r : list node) (fs : list (field entity)) : Prop :=
  (forall e, In e es -> exists f, In f fs /\ eslot made e f) /\ (forall a, In a r -> exists f, In f fs /\ aslot a f) /\
  (forall f, In f fs -> (exists e, In e es /\ eslot made e f) \/ (exists a, In a r /\ aslot a f)).
Lemma kept_iff l r x : In x (kept l r) <-> In x r /\ forall y, In y l -> local_name y <> local_name x.
Proof.
  unfold kept. rewrite filter_In, negb_true_iff, <- not_true_iff_false. split; intros [I N]; (split; [auto|]).
  - intros y Iy E. apply N. apply existsb_exists. exists y. split; auto. apply opt_str_eqb_eq. auto.
  - intros X. apply existsb_exists in X as (y & Iy & E). apply opt_str_eqb_eq in E. eapply N; eauto.
Qed.
Lemma restriction_part t c d : In c (children t) -> tag "complexContent" c -> only c d -> tag "restriction" d -> part d t.
Proof.
  intros I Tc (a & b & E & _) T. apply part_trans with (b := c); [|eapply (part_kid ["complexContent"]); eauto; eexists; split; [left; reflexivity|auto]].
  eapply (part_kid ["restriction"]); eauto; [rewrite E; apply in_or_app; right; left; auto|]. eexists. split; [left; reflexivity|auto].
Qed.
Lemma restricts_part t d b : restricts t d b -> part t schema -> part d schema /\ part b schema.
Proof.
  intros (_ & (c & q & l & Ec & _ & Tc & Od & Td & _ & _ & _ & De) & _) Pt. split.
  - apply part_trans with (b := t); auto. eapply restriction_part; eauto. assert (Y : In c (tagged_children content_tags t)) by (rewrite Ec; left; auto). apply in_tagged in Y. apply Y.
  - destruct De as (Ib & Tb & _). eapply (part_kid ["complexType"]); eauto. eexists. split; [left; reflexivity|auto].
Qed.
Lemma restricts_struct t d b anc e : tag "complexType" t -> restricts t d b -> parse_node u t anc = Ok e -> exists s, e = EStruct s /\ type_name t anc (st_name s) /\ st_subtypes s = [] /\ st_groups s = [].
Proof.
  intros T (_ & (c & q & l & Ec & Ea & Tc & Od & Td & _) & Bd & _) Hp. destruct (derived_parse u "restriction" t anc c d e ltac:(cbn; auto) T Ec Ea Tc Od Td (regular_simple _ _ _ _ Bd) Hp) as (s & F & A & b' & -> & X1 & X2 & X3 & _). eauto.
Qed.
Lemma body_parts d : part d schema -> (forall e, In e (body_elements d) -> tag "element" e -> part e schema) /\ (forall a, In a (body_attributes d) -> tag "attribute" a /\ part a schema).
Proof.
  intros Pd. split; [intros e I T; apply part_trans with (b := d); auto; apply body_elements_part; auto|].
  intros a I; split; [apply in_tagged in I as [_ (t & [<-|[]] & T)]; auto|apply part_trans with (b := d); auto; apply body_attributes_part; auto].
Qed.
Lemma slot_name_same A B x y f g : eslot A x f \/ aslot x f -> eslot B y g \/ aslot y g -> (tag "element" x <-> tag "element" y) -> attribute x (lit "name") = attribute y (lit "name") -> attribute x (lit "ref") = attribute y (lit "ref") ->
  fl_name f = fl_name g.
Proof.
  intros X Y T E1 E2. assert (N : forall n, tag "element" n -> ~ tag "attribute" n) by (intros n T1 T2; apply (tag_neq "element" "attribute" n); [discriminate|auto|auto]).
  destruct X as [(Tx & X & _)|(Tx & X)], Y as [(Ty & Y & _)|(Ty & Y)].
  - rewrite X, Y. unfold element_name. rewrite E1, E2. auto.
  - destruct (N y); auto. apply T; auto.
  - destruct (N x); auto. apply T; auto.
  - destruct X as (_ & _ & _ & X & _), Y as (_ & _ & _ & Y & _). destruct (X Tx) as (X' & _), (Y Ty) as (Y' & _). unfold has, absent in *. destruct X' as [X'|[X0 X']], Y' as [Y'|[Y0 Y']]; congruence.
Qed.
Lemma restricted_fields i src D n d b s gs r anc s0 own0 out : feeding i src -> nth_error ds i = Some D -> part n D -> tag "complexType" n ->
  restricts n d b -> composed b s gs r -> parse_node u n anc = Ok (EStruct s0) -> Forall2 (same_field (completed (snapshot l0 l1 i))) (st_fields s0) own0 -> assembled src own0 out ->
  members_are (body_elements d ++ kept (restated d) (elements gs)) (body_attributes d ++ kept (restated d) r) out.
Proof.
  intros Fe Hi Pn Tn Rs Cb Hp Sf (cs & Hcs & ->). assert (PD := declaration_part D (nth_error_In _ _ Hi)). assert (Ps : part n schema) by (eapply part_trans; eauto).
  destruct (restricts_part n d b Rs Ps) as [Pds Pb]. destruct Rs as (_ & (c & q & l & Ec & Ea & Tc & Od & Td & Hq & Bb & To & De) & Bd & ND & Rb & Cond). destruct (Cond s gs r Cb) as [Cn _]. clear Cond.
  destruct (derived_parse u "restriction" n anc c d _ ltac:(cbn; auto) Tn Ec Ea Tc Od Td (regular_simple _ _ _ _ Bd) Hp) as (s1 & F & A & pb & [= <-] & _ & _ & _ & Ef & Hb & HF & HA). rewrite Ef in Sf.
  assert (Pd : part d n). { eapply restriction_part; eauto. assert (Y : In c (tagged_children content_tags n)) by (rewrite Ec; left; auto). apply in_tagged in Y. apply Y. }
  apply Forall2_app_inv_l in Sf as (F' & R' & SF & SR & ->). apply Forall2_app_inv_l in SR as (A' & B' & SA & SB & ->). inversion SB as [|? pb' ? tl Spb Stl]; subst. inversion Stl; subst.
  destruct (slots_body i D d F A F' A' Hi (part_trans _ _ _ Pd Pn) HF HA SF SA) as [HF' HA']. assert (Sl := slots_of (groups_of _) _ _ _ HF' HA'). destruct (body_parts d Pds) as [Pbe Pba].
  destruct (proper_all (F' ++ A')) as [E1 E2]; [eapply slots_not_base; eauto|].
  destruct Hb as (Hq' & Hn & _). destruct Spb as (Sn & St & _). assert (Eb : str_eqb (fl_name pb') (lit "__base__") = true) by (rewrite Sn, Hn; apply str_eqb_refl).
  rewrite app_assoc in Hcs |- *. unfold placeholders, proper in Hcs, E1, E2 |- *. rewrite filter_app in Hcs |- *. rewrite E1. rewrite E2 in Hcs. cbn [filter] in Hcs |- *. rewrite Eb in Hcs |- *. cbn [app negb] in Hcs |- *. rewrite app_nil_r.
  inversion Hcs as [|? bc ? tl Hbc Htl]; subst. inversion Htl; subst. cbn [List.concat]. rewrite app_nil_r.
  assert (fl_type pb' = q) by (rewrite St; unfold has in *; congruence). subst q.
  destruct (base_fields i D n _ l b src bc Fe Hi Pn Bb To De Rb Hbc) as (j & t & Lj & Hj & At & ->).
  assert (Sb := all_complete j b _ _ _ t Hj ltac:(apply De) Cb At). destruct (composed_parts _ _ _ _ _ Cb Pb) as [Pe Pa].
  destruct Sl as (O1 & O2 & O3 & _). pose proof Sb as (B1 & B2 & B3 & _). fold (body_elements d) in O1, O3.
  (* the declarations of the fields *)
  assert (Lo : forall x f, In x (restated d) -> In f (F' ++ A') -> eslot made x f \/ aslot x f -> local_name x = Some (local_part (fl_name f))).
  { intros x f Ix If [E|E]; [|eapply attribute_local; [|exact E]; apply in_app_or in Ix as [Ix|Ix]; [|apply Pba; auto]].
    - apply in_app_or in Ix as [Ix|Ix]; [eapply slot_local; [|exact E|]; [apply Pbe; auto; apply E|eapply regular_named; eauto]|]. exfalso. destruct (Pba x Ix) as [T _]. apply (tag_neq "attribute" "element" x); [discriminate|auto|apply E].
    - exfalso. destruct (regular_named d x Bd Ix) as [T _]. apply (tag_neq "element" "attribute" x); [discriminate|auto|apply E]. }
  assert (Lb : forall y g, In y (elements gs ++ r) -> eslot made y g \/ aslot y g -> local_name y = Some (local_part (fl_name g))).
  { intros y g Iy [E|E]; apply in_app_or in Iy as [Iy|Iy].
    - eapply slot_local; [|exact E|]; [apply Pe; auto; apply E|eapply composed_named; eauto].
    - exfalso. destruct (Pa y Iy) as [T _]. apply (tag_neq "attribute" "element" y); [discriminate|auto|apply E].
    - exfalso. destruct (composed_named _ _ _ _ Cb y Iy) as [T _]. apply (tag_neq "element" "attribute" y); [discriminate|auto|apply E].
    - eapply attribute_local; [|exact E]. apply Pa; auto. }
  assert (Own : forall f, In f (F' ++ A') -> exists x, In x (restated d) /\ (eslot made x f \/ aslot x f)).
  { intros f If. destruct (O3 f If) as [(e & Ie & E)|(a & Ia & E)]; [exists e|exists a]; (split; [apply in_or_app; auto|auto]). }
  assert (Keep : forall y g, In y (elements gs ++ r) -> In g (st_fields t) -> eslot made y g \/ aslot y g ->
    (In g (not_redeclared ((F' ++ A') ++ [pb']) (st_fields t)) <-> forall x, In x (restated d) -> local_name x <> local_name y)).
  { intros y g Iy Ig Ey. unfold not_redeclared. rewrite filter_In, negb_true_iff, <- not_true_iff_false. split.
    - intros [_ N] x Ix E. apply N. apply existsb_exists. assert (Ex : exists f, In f (F' ++ A') /\ (eslot made x f \/ aslot x f)).
      { apply in_app_or in Ix as [Ix|Ix]; [destruct (O1 x Ix) as (f & If & X)|destruct (O2 x Ix) as (f & If & X)]; eauto. }
      destruct Ex as (f & If & X). exists f. split; [apply in_or_app; auto|]. apply str_eqb_eq. destruct (Cn x y Ix Iy E) as (T & N1 & N2). eapply slot_name_same; eauto.
    - intros N. split; auto. intros X. apply existsb_exists in X as (f & If & Ef'). apply str_eqb_eq in Ef'. apply in_app_or in If as [If|[<-|[]]].
      + destruct (Own f If) as (x & Ix & X). apply (N x Ix). rewrite (Lo x f Ix If X), (Lb y g Iy Ey), Ef'. auto.
      + eapply (slots_not_base _ _ _ Pe Pa Sb g Ig). unfold placeholder. rewrite <- Ef'. apply str_eqb_eq. auto. }
  split; [|split].
  - intros e I. apply in_app_or in I as [I|I]; [destruct (O1 e I) as (f & If & E); exists f; split; auto; apply in_or_app; auto|]. apply kept_iff in I as [I N].
    destruct (B1 e I) as (g & Ig & E). exists g. split; auto. apply in_or_app. right. apply (Keep e g); auto. apply in_or_app; auto.
  - intros a I. apply in_app_or in I as [I|I]; [destruct (O2 a I) as (f & If & E); exists f; split; auto; apply in_or_app; auto|]. apply kept_iff in I as [I N].
    destruct (B2 a I) as (g & Ig & E). exists g. split; auto. apply in_or_app. right. apply (Keep a g); auto. apply in_or_app; auto.
  - intros f I. apply in_app_or in I as [I|I].
    + destruct (O3 f I) as [(e & Ie & E)|(a & Ia & E)]; [left; exists e|right; exists a]; (split; [apply in_or_app; auto|auto]).
    + assert (Ig : In f (st_fields t)) by (apply filter_In in I; apply I).
      destruct (B3 f Ig) as [(e & Ie & E)|(a & Ia & E)]; [left; exists e|right; exists a]; (split; [apply in_or_app; right; apply kept_iff; split; auto|auto]).
      * apply (Keep e f); auto. apply in_or_app; auto.
      * apply (Keep a f); auto. apply in_or_app; auto.
Qed.
Lemma top_restricted i D n d b s gs r anc s1 s0 t : nth_error ds i = Some D -> part n D -> tag "complexType" n -> restricts n d b -> composed b s gs r ->
  parse_node u n anc = Ok (EStruct s1) -> st_fields s0 = st_fields s1 -> st_groups s0 = [] -> struct_at (rf_types f0) i s0 -> struct_at (rf_types f1) i t ->
  members_are (body_elements d ++ kept (restated d) (elements gs)) (body_attributes d ++ kept (restated d) r) (st_fields t).
Proof.
  intros Hi Pn Tn Rs C Hp Ef0 Eg He At. destruct (top_assembled i s0 t He Eg At) as (src & own0 & Fe & Sf & As). rewrite Ef0 in Sf. eapply (restricted_fields i); eauto.
Qed.
Lemma made_restricted nm n x d b s gs r t : made nm n x -> tag "complexType" n -> restricts n d b -> composed b s gs r -> x = EStruct t ->
  members_are (body_elements d ++ kept (restated d) (elements gs)) (body_attributes d ++ kept (restated d) r) (st_fields t).
Proof.
  intros (i & D & x0 & Hi & Pn & (e & anc & x1 & Hp & ->) & Cx) Tn Rs C ->. destruct (restricts_struct n d b _ _ Tn Rs Hp) as (s0 & -> & _ & Es & _).
  cbn [set_name] in Cx. inversion Cx as [? ? own0 Ss Sf As|? X]; subst; [|exfalso; eapply X; reflexivity]. eapply (restricted_fields i (snapshot l0 l1 i)); eauto. intros q c X; auto.
Qed.
End Linked.
