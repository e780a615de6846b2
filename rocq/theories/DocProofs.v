(** Proofs about whole documents: from the schema document to the generated text. *)
From Coq Require Import Arith NArith ZArith Bool Ascii String List Lia.
From Verif Require Import Str StrFacts SpecLex SpecNames SpecSerde SerdeProofs Xml Comment CommentProofs Names NamesProofs Entity Parser ParserFacts SpecSchema ParserProofs Link SpecLink LinkProofs Gen SpecRust SpecGen RustFacts GenProofs GenProofs2 SpecDoc.
Import ListNotations.
Local Open Scope string_scope.
Local Open Scope list_scope.
Local Open Scope N_scope.
Arguments lit : simpl never.

(** ** Quiet texts *)
Lemma quiet_app a b : quiet a -> quiet b -> quiet (a ++ b).
Proof. intros A B c H. apply in_app_or in H as [H|H]; auto. Qed.
Lemma quiet_literal s : quiet s -> literal s.
Proof. intros A c H. apply A in H. tauto. Qed.
Lemma quiet_type s : quiet s -> sane_type s.
Proof. intros A p l [-> _] c H. destruct (A c) as (? & ? & ? & ?); [apply in_or_app; auto|]. auto. Qed.
Definition quietb (s : str) : bool := forallb (fun c => negb (c =? 34) && negb (c =? 47) && negb (c =? 92) && negb (c =? 10)) s.
Lemma quietb_ok s : quietb s = true -> quiet s.
Proof. unfold quietb. rewrite forallb_forall. intros H c I. apply H in I. lia. Qed.
Lemma quiet_nil : quiet []. Proof. intros c []. Qed.
Lemma quiet_dec n : quiet (dec n).
Proof. intros c H. pose proof (dec_digits n) as D. rewrite forallb_forall in D. apply D in H. unfold is_ascii_digit in H. lia. Qed.
Lemma split_on_chars k s : forall t c, In t (split_on k s) -> In c t -> In c s.
Proof.
  induction s as [|x s IH]; intros t c; cbn; [intros [<-|[]] []|].
  destruct (k =? x).
  - intros [<-|H] Hc; [destruct Hc|right; eauto].
  - destruct (split_on k s) as [|y ys] eqn:E; [intros [<-|[]] [<-|[]]; auto|]. intros [<-|H] Hc.
    + destruct Hc as [<-|Hc]; [auto|]. right. eapply IH; [left; reflexivity|auto].
    + right. eapply IH; [right; eauto|auto].
Qed.
Lemma quiet_split k s t : quiet s -> In t (split_on k s) -> quiet t.
Proof. intros Q I c H. apply Q. eapply split_on_chars; eauto. Qed.
Lemma plain_literal u v : plain_value u v -> literal v.
Proof.
  intros [_ P] c H. apply P in H as [H| ->]; [|lia]. unfold is_alphanumeric, is_ascii in H. destruct (c <? 128) eqn:E; [|lia].
  unfold is_ascii_digit, is_ascii_alpha, is_ascii_lower, is_ascii_upper in H. lia.
Qed.
Lemma lit_last_neq a s t x y : lit s = t ++ [x] -> forall b r, lit b = r ++ [y] -> x <> y -> a ++ lit s <> lit b.
Proof. intros -> b r -> N H. rewrite app_assoc in H. apply app_inj_tail in H as [_ H]. auto. Qed.
Ltac ql := apply quietb_ok; vm_compute; reflexivity.

(** ** Entities made of quiet names; [B] holds of the bases *)
Section D.
Context (B : str -> Prop).
Inductive decent : entity -> Prop :=
| d_struct s : quiet (st_name s) -> Forall dfield (st_fields s) -> Forall decent (st_subtypes s) -> decent (EStruct s)
| d_tuple t : quiet (tu_name t) -> quiet (tu_type t) -> Forall sane_facet (tu_facets t) ->
    (forall f v, In f (tu_facets t) -> length_value (fa_type f) = Some v -> exists n, u32_text v n) ->
    Forall decent (tu_subtypes t) -> decent (ETuple t)
| d_enum e : quiet (en_name e) -> quiet (en_type e) -> Forall dcase (en_cases e) -> Forall decent (en_subtypes e) -> decent (EEnum e)
| d_alias a : quiet (al_name a) -> quiet (al_original a) -> decent (EAlias a)
| d_import i : one_line (im_location i) -> one_line (im_name i) -> decent (EImport i)
with dfield : field entity -> Prop :=
| df f : quiet (fl_name f) -> quiet (fl_type f) -> (placeholder f -> B (fl_type f)) -> Forall decent (fl_subtypes f) -> dfield f
with dcase : enum_case -> Prop :=
| dc c : literal (ec_name c) -> (forall t, ec_type c = Some t -> quiet t) -> dcase c.
Definition outcome (e : entity) : Prop :=
  match e with EField f => dfield f | ECase c => dcase c | _ => decent e end.

Lemma decent_outcome e : decent e -> outcome e.
Proof. destruct 1; constructor; auto. Qed.
Ltac fe := repeat match goal with X : Forall _ _ |- _ => rewrite Forall_forall in X end.
Lemma decent_sane e : decent e -> sane e.
Proof.
  induction e as [s IHf IHs|t IH|n IH|f|c|a|i] using entity_sub_ind; intros D; inversion D; subst; fe.
  - constructor; [apply quiet_type; auto| |]; apply Forall_forall; [|eauto].
    intros f I. match goal with X : forall x, In x _ -> dfield x |- _ => specialize (X f I); inversion X; subst end. fe.
    split; [apply quiet_type; auto|]. split; [apply quiet_literal; auto|]. apply Forall_forall. eauto.
  - constructor; auto using quiet_type; apply Forall_forall; eauto.
  - constructor; auto using quiet_type; apply Forall_forall; eauto.
    intros c Hc. match goal with X : forall x, In x _ -> dcase x |- _ => specialize (X c Hc); inversion X; subst end. split; auto. intros t Ht. apply quiet_type. auto.
  - constructor; auto using quiet_type.
  - constructor; auto.
Qed.
Lemma decent_lengths e : decent e -> ~ bad_length e.
Proof.
  induction e as [s IHf IHs|t IH|n IH|f|c|a|i] using entity_sub_ind; intros D X; inversion D; subst; inversion X; subst; fe.
  - match goal with Y : forall x, In x _ -> dfield x, I : In _ (st_fields s) |- _ => specialize (Y _ I); inversion Y; subst end. fe. eapply IHf; eauto.
  - eapply IHs; eauto.
  - match goal with N : forall n, ~ u32_text _ n, Y : forall f v, In f _ -> _ |- _ => edestruct Y as (k & Hk); [eassumption|eassumption|]; exact (N _ Hk) end.
  - eapply IH; eauto.
  - eapply IH; eauto.
Qed.

Lemma set_name_decent nm e : quiet nm -> one_line nm -> decent e -> decent (set_name nm e).
Proof. intros Q L. destruct 1; constructor; cbn; auto. Qed.
Lemma set_comment_decent c e : decent e -> decent (set_comment c e).
Proof. destruct 1; constructor; cbn; auto. Qed.

(** ** The parser *)
(** What is used of a part of the document. *)
Definition fine (x : node) : Prop :=
  tidy_element x /\ (forall b, has x "base" b -> B b) /\
  (has x "name" (lit "__base__") \/ has x "ref" (lit "__base__") -> forall q, B q).
Definition quiet_name (p : node) : Prop := forall v, has p "name" v -> quiet v.
Definition type_tags : list string :=
  ["all"; "sequence"; "choice"; "group"; "complexContent"; "simpleContent"; "complexType"; "simpleType"; "extension"; "restriction"; "list"; "union"].
Definition decent_kids (ks : list kid) : Prop :=
  forall k e, In k ks -> snd k = Ok e -> outcome e /\ (one type_tags (fst k) -> decent e).

Lemma fine_quiet x a v : fine x -> In a naming -> has x a v -> quiet v.
Proof. intros [[T _] _]. apply T. Qed.
Lemma one_line_quiet s : quiet s -> one_line s.
Proof. intros Q I. apply Q in I. tauto. Qed.
Lemma fine_name x : fine x -> quiet_name x.
Proof. intros F v H. eapply fine_quiet; eauto. cbn; auto. Qed.
Lemma parent_quiet anc s : Forall quiet_name anc -> get_parent_name anc = Ok s -> quiet s.
Proof.
  intros F H. apply parent_name_ok in H. induction H; try ql.
  - inversion F; subst. auto.
  - inversion F; subst. auto.
Qed.

Lemma attributes_decent anc ks fs : decent_kids ks -> attributes_to_fields anc ks = Ok fs -> Forall dfield fs.
Proof.
  intros K H. unfold attributes_to_fields in H. apply bind_ok in H as (l & Hl & H). apply rmapm_ok in H.
  apply Forall_forall. intros f I. destruct (Forall2_in_r _ _ _ _ H I) as (k & Ik & Hk). apply bind_ok in Hk as (e & He & Hf).
  destruct e; try discriminate. injection Hf as <-. destruct (K k _ (rfilter_in _ _ _ _ Hl Ik) He) as [X _]. exact X.
Qed.
Lemma choice_not_base a : a ++ lit "Choice" <> lit "__base__".
Proof. apply (lit_last_neq a "Choice" (lit "Choic") 101 95) with (r := lit "__base_"); try reflexivity. discriminate. Qed.
Lemma sequence_decent n anc ks e : Forall quiet_name anc -> decent_kids ks -> parse_sequence n anc ks = Ok e -> decent e.
Proof.
  intros A K H. unfold parse_sequence in H. bo H nm Hn. bo H fs Hf. injection H as <-. assert (Q := parent_quiet _ _ A Hn). constructor; cbn; auto.
  unfold elements_to_fields in Hf. bo Hf l Hl. apply rmapm_ok in Hf. apply Forall_forall. intros f I.
  destruct (Forall2_in_r _ _ _ _ Hf I) as (k & Ik & Hk). bo Hk x Hx. destruct (K k _ (rfilter_in _ _ _ _ Hl Ik) Hx) as [F _].
  unfold to_field in Hk. destruct x; try discriminate; injection Hk as <-.
  - cbn in F. inversion F; subst. destruct (ends_with nm (fl_type f0)); constructor; cbn; auto.
  - cbn in F. inversion F; subst. assert (Qc : quiet (nm ++ lit "Choice")) by (apply quiet_app; [auto|ql]). constructor; cbn; auto.
    + intros P. destruct (choice_not_base nm). exact P.
    + constructor; [|constructor]. constructor; auto.
Qed.

Lemma rfilter_sat {A} (p : A -> res bool) l r x : rfilter p l = Ok r -> In x r -> p x = Ok true.
Proof.
  revert r. induction l as [|y l IH]; intros r H I; cbn in H; [injection H as <-; destruct I|].
  bo H b Hb. bo H r' Hr. injection H as <-. destruct b; [destruct I as [<-|I]; auto|]; eapply IH; eauto.
Qed.
Lemma elements_sat p anc ks l k : elements_where p anc ks = Ok l -> In k l -> is_element (fst k) = true /\ exists t, xsd_type (fst k) anc = Ok t /\ p t = true.
Proof.
  intros H I. apply (rfilter_sat _ _ _ _ H) in I. destruct (is_element (fst k)); [|discriminate]. split; auto. apply rmap_iff in I as (t & Ht & E). eauto.
Qed.
Lemma nodes_sat p anc ks l k : nodes_where p anc ks = Ok l -> In k l -> exists t, xsd_type (fst k) anc = Ok t /\ p t = true.
Proof. intros H I. apply (rfilter_sat _ _ _ _ H) in I. apply rmap_iff in I as (t & Ht & E). eauto. Qed.
Lemma one_of_tags ks ts n anc t : map tag_of ks = map lit ts -> xsd_type n anc = Ok t -> one_of ks t = true -> one ts n.
Proof.
  intros E X H. unfold one_of in H. apply existsb_exists in H as (k & Ik & Hk). rewrite (is_kind_tag _ _ _ k X) in Hk. apply str_eqb_eq in Hk.
  assert (I : In (tag_of k) (map lit ts)) by (rewrite <- E; apply in_map; auto). apply in_map_iff in I as (s & Es & Is). exists s. split; auto. unfold tag. congruence.
Qed.
Lemma type_tags_content n : one content_tags n -> one type_tags n.
Proof. intros (t & I & T). exists t. split; auto. cbn in *. intuition (subst; auto 15). Qed.

Lemma base_quiet n b : fine n -> get_base n = Ok b -> quiet b /\ B b.
Proof. intros F H. apply expect_ok in H. split; [eapply fine_quiet; eauto; cbn; auto|]. destruct F as (_ & F & _). apply F. exact H. Qed.
Lemma base_field_decent n b : quiet b -> B b -> dfield (base_field n b).
Proof. intros Q H. constructor; cbn; [ql|auto|auto|constructor]. Qed.

Lemma complex_decent u n anc e : fine n -> Forall quiet_name anc -> decent_kids (kids u n anc) -> parse_complex_type n anc (kids u n anc) = Ok e -> decent e.
Proof.
  intros Fn A K H. unfold parse_complex_type in H. bo H pt Hp. bo H nm Hn. bo H fs Hf. bo H l Hl. cbv zeta in H.
  assert (Fa := attributes_decent _ _ _ K Hf).
  assert (Qn : quiet nm).
  { destruct (is_kind KSchema pt); [apply expect_ok in Hn; eapply fine_name; eauto|eapply parent_quiet; eauto]. }
  assert (X : forall e, bind (attribute_groups_to_aliases (n :: anc) (kids u n anc)) (fun groups => Ok (EStruct {| st_name := nm; st_comment := get_documentation n;
     st_fields := fs; st_groups := groups; st_subtypes := [] |})) = Ok e -> decent e).
  { intros e' H'. bo H' gs Hg. injection H' as <-. constructor; cbn; auto. }
  destruct (last_opt l) as [k|] eqn:Lk; [|auto]. destruct (existsb _ _); [|auto]. bo H x Hx. apply last_opt_in in Lk.
  assert (F : decent x).
  { eapply K; [eapply rfilter_in; eauto|eauto|]. destruct (elements_sat _ _ _ _ _ Hl Lk) as (_ & t & Ht & O).
    apply type_tags_content. eapply one_of_tags; [|eauto|exact O]. reflexivity. }
  unfold finish_complex in H. destruct x; try (injection H as <-; exact F).
  - injection H as <-. inversion F; subst. constructor; cbn; auto. apply Forall_app. auto.
  - cbv zeta in H. bo H gs Hg. injection H as <-. inversion F; subst. assert (Qc : quiet (nm ++ lit "Choice")) by (apply quiet_app; [auto|ql]).
    constructor; cbn; auto. constructor; [|constructor]. constructor; cbn; auto.
    apply Forall_app. split; auto. constructor; [|constructor]. constructor; cbn; auto. intros P. destruct (choice_not_base nm). exact P.
Qed.
Lemma derivation_decent kinds n anc ks e : fine n -> decent_kids ks -> complex_derivation kinds n anc ks = Ok e -> decent e.
Proof.
  intros Fn K H. unfold complex_derivation in H. bo H b Hb. bo H fs Hf. cbv zeta in H. bo H l Hl.
  assert (Fa := attributes_decent _ _ _ K Hf). destruct (base_quiet _ _ Fn Hb) as [Qb Bb].
  assert (Fb : Forall dfield (fs ++ [base_field n b])) by (apply Forall_app; split; auto; constructor; auto using base_field_decent).
  assert (X : forall e, bind (attribute_groups_to_aliases (n :: anc) ks) (fun groups => Ok (EStruct {| st_name := []; st_comment := get_documentation n;
     st_fields := fs ++ [base_field n b]; st_groups := groups; st_subtypes := [] |})) = Ok e -> decent e).
  { intros e' H'. bo H' gs Hg. injection H' as <-. constructor; cbn; auto. apply quiet_nil. }
  destruct (last_opt l) as [k|] eqn:Lk; [|auto]. bo H x Hx. apply last_opt_in in Lk.
  destruct (K k x (rfilter_in _ _ _ _ Hl Lk) Hx) as [F _].
  destruct x; auto. injection H as <-. cbn in F. inversion F; subst. constructor; cbn; auto. apply Forall_app. auto.
Qed.
Lemma union_subtypes_decent ks : (forall k e, In k ks -> snd k = Ok e -> decent e) -> forall i es, union_subtypes i ks = Ok es -> Forall decent es.
Proof.
  induction ks as [|k ks IH]; intros K i es H; cbn in H; [injection H as <-; constructor|].
  bo H e He. bo H l Hl. injection H as <-. assert (Q : quiet (lit "EnumCaseType_" ++ dec i)) by (apply quiet_app; [ql|apply quiet_dec]).
  constructor; [apply set_name_decent; auto using one_line_quiet; eapply K; eauto; left; auto|].
  eapply IH; eauto. intros k' e' I. apply K. right. auto.
Qed.
Lemma decent_name e : decent e -> (forall i, e <> EImport i) -> quiet (entity_name e).
Proof. destruct 1; cbn; auto. intros N. destruct (N i). auto. Qed.
Lemma union_subtypes_names ks : forall i es e, union_subtypes i ks = Ok es -> In e es -> quiet (entity_name e).
Proof.
  induction ks as [|k ks IH]; intros i es e H I; cbn in H; [injection H as <-; destruct I|].
  bo H x Hx. bo H l Hl. injection H as <-. destruct I as [<-|I]; [|eapply IH; eauto].
  assert (Q : quiet (lit "EnumCaseType_" ++ dec i)) by (apply quiet_app; [ql|apply quiet_dec]). destruct x; exact Q.
Qed.
Lemma union_cases_decent es : (forall e, In e es -> quiet (entity_name e)) -> forall i, Forall dcase (union_sub_cases i es).
Proof.
  induction es as [|e es IH]; intros H i; cbn; [constructor|]. constructor; [|apply IH; intros; apply H; right; auto].
  constructor; cbn; [apply quiet_literal, quiet_app; [ql|apply quiet_dec]|]. intros t [= <-]. apply H. left. auto.
Qed.
Lemma members_decent m : quiet m -> Forall dcase (create_enum_cases m).
Proof.
  intros Q. unfold create_enum_cases. apply Forall_forall. intros c I. apply in_map_iff in I as (t & <- & I). apply filter_In in I as [I _].
  apply (quiet_split _ _ _ Q) in I. constructor; cbn; [apply quiet_literal; auto|]. intros t' [= <-]. auto.
Qed.
Lemma facets_fine (n : node) anc ks fs : (forall k, In k ks -> ~ tag "annotation" (fst k) -> fine (fst k)) -> facets anc ks = Ok fs ->
  Forall sane_facet fs /\ (forall f v, In f fs -> length_value (fa_type f) = Some v -> exists k, u32_text v k).
Proof.
  revert fs. induction ks as [|k ks IH]; intros fs F H; cbn [facets] in H.
  - injection H as <-. split; [constructor|]. intros f v [].
  - bo H t Ht. bo H l Hl. injection H as <-. destruct (IH l) as [I1 I2]; auto; [intros; apply F; auto; right; auto|].
    destruct t as [| | |ft| |]; auto. apply facet_type_of in Ht.
    assert (Fk : fine (fst k)).
    { apply F; [left; auto|]. intros X. apply facet_tagged in Ht as (t & I & T). unfold tag in *. rewrite X in T. cbn in I. clear - I T.
      repeat (destruct I as [<-|I]; [discriminate|]). destruct I. }
    destruct Fk as [(_ & Hb & Hl' & _) _]. split.
    + constructor; auto. unfold sane_facet. cbn. destruct ft; auto; inversion Ht; subst; eapply Hb; eauto; eexists; (split; [|eassumption]); cbn; auto.
    + intros f v [<-|I] E; [|eauto]. cbn in E. destruct ft; try discriminate; injection E as ->; inversion Ht; subst; eapply Hl'; eauto; eexists; (split; [|eassumption]); cbn; auto.
Qed.
Lemma cases_decent u fs : is_simple_enumerations u fs = true -> Forall dcase (cases fs).
Proof.
  unfold is_simple_enumerations. induction fs as [|f fs IH]; cbn; [constructor|]. rewrite andb_true_iff. intros [H1 H2].
  destruct (fa_type f); auto. constructor; auto. constructor; cbn; [|discriminate]. apply (plain_literal u). apply plain_value_iff. auto.
Qed.
Lemma kind_not_tag (n : node) anc k ts : xsd_type n anc = Ok (TKind k) -> forallb (fun t => negb (str_eqb (tag_of k) (lit t))) ts = true -> ~ one ts n.
Proof.
  intros H F (t & I & T). rewrite forallb_forall in F. apply F in I. assert (X := is_kind_tag _ _ _ k H). cbn in X. destruct (kind_beq k k) eqn:E; [|destruct k; discriminate].
  symmetry in X. apply str_eqb_eq in X. unfold tag in T. rewrite <- X, T in I. rewrite str_eqb_refl in I. discriminate.
Qed.

Lemma reserved n nm : fine n -> has n "name" nm \/ has n "ref" nm -> nm = lit "__base__" -> forall q, B q.
Proof. intros (_ & _ & H) X ->. auto. Qed.
Lemma naming_in a : existsb (String.eqb a) naming = true -> In a naming.
Proof. intros H. apply existsb_exists in H as (x & I & E). apply String.eqb_eq in E. subst. auto. Qed.
Ltac fq Fn H := refine (fine_quiet _ _ _ Fn _ H); apply naming_in; reflexivity.
Lemma choice_decent n anc ks e : decent_kids ks -> parse_choice n anc ks = Ok e -> decent e.
Proof.
  intros K H. unfold parse_choice in H. bo H l Hl. bo H cs Hc. injection H as <-. apply rmapm_ok in Hc. constructor; cbn; [apply quiet_nil|ql| |constructor].
  apply Forall_forall. intros c I. destruct (Forall2_in_r _ _ _ _ Hc I) as (k & Ik & Hk). bo Hk x Hx. destruct x; try discriminate. injection Hk as <-.
  destruct (K k _ (rfilter_in _ _ _ _ Hl Ik) Hx) as [X _]. exact X.
Qed.
Lemma case_decent n : fine n -> outcome (parse_case_of_choice n).
Proof.
  intros Fn. unfold parse_case_of_choice, attr_ref, attr_name, attr_type. cbv zeta. destruct (attribute n (lit "ref")) as [r|] eqn:R.
  - assert (Q : quiet r) by fq Fn R. constructor; cbn; [apply quiet_literal; auto|]. intros t [= <-]. auto.
  - constructor; cbn.
    + destruct (attribute n (lit "name")) as [m|] eqn:M; cbn; [apply quiet_literal; fq Fn M|apply quiet_literal; ql].
    + intros t H. fq Fn H.
Qed.
Lemma element_decent n anc ks e : fine n -> decent_kids ks -> parse_element n anc ks = Ok e -> outcome e.
Proof.
  intros Fn K H. unfold parse_element in H. bo H pt Hp.
  assert (Sq : parse_field_of_sequence n anc ks = Ok e -> outcome e).
  { clear H. intros H. unfold parse_field_of_sequence in H. cbv zeta in H.
    set (nm := unwrap_or (unwrap_or (lit "UNSUPPORTED_ELEMENT_NAME") (attr_ref n)) (attr_name n)) in *.
    assert (Qn : quiet nm /\ (nm = lit "__base__" -> forall q, B q)).
    { unfold nm, attr_name, attr_ref. destruct (attribute n (lit "name")) as [m|] eqn:M; cbn; [split; [fq Fn M|eapply reserved; eauto]|].
      destruct (attribute n (lit "ref")) as [m|] eqn:R; cbn; [split; [fq Fn R|eapply reserved; eauto]|]. split; [ql|discriminate]. }
    destruct Qn as [Qn Nb]. clearbody nm.
    destruct (_ || _).
    - injection H as <-. cbn. constructor; cbn; [auto| |intros P; apply Nb; exact P|constructor].
      unfold attr_type, attr_ref. destruct (attribute n (lit "type")) as [m|] eqn:M; cbn; [fq Fn M|].
      destruct (attribute n (lit "ref")) as [m|] eqn:R; cbn; [fq Fn R|ql].
    - bo H l Hl. bo H k Hk. apply expect_ok, last_opt_in in Hk. bo H x Hx. injection H as <-.
      assert (D : decent x).
      { eapply K; [eapply rfilter_in; eauto|eauto|]. destruct (nodes_sat _ _ _ _ _ Hl Hk) as (t & Ht & O).
        assert (X : one ["simpleType"; "complexType"] (fst k)) by (eapply one_of_tags; [|eauto|exact O]; reflexivity).
        destruct X as (s & [<-|[<-|[]]] & T); eexists; (split; [|exact T]); cbn; auto 15. }
      assert (Qt : quiet (nm ++ lit "Type")) by (apply quiet_app; [auto|ql]).
      assert (En : entity_name (set_name (nm ++ lit "Type") x) = nm ++ lit "Type") by (destruct x; reflexivity).
      cbn. constructor; cbn; [auto|rewrite En; auto|intros P; apply Nb; exact P|]. constructor; [|constructor].
      apply set_name_decent; auto using one_line_quiet. }
  assert (Df : Ok (element_default n) = Ok e -> outcome e).
  { intros [= <-]. unfold element_default, attr_type. constructor; cbn; [ql|]. destruct (attribute n (lit "type")) as [m|] eqn:M; cbn; [fq Fn M|ql]. }
  destruct pt as [k| | | | |]; auto. destruct k; auto.
  - injection H as <-. apply case_decent; auto.
  - unfold parse_global_element in H. bo H nm Hn. apply expect_ok in Hn. assert (Q : quiet nm) by fq Fn Hn. unfold attr_type in H.
    destruct (attribute n (lit "type")) as [m|] eqn:M; [injection H as <-; constructor; cbn; auto; fq Fn M|]. bo H l Hl.
    destruct (last_opt l) as [k|] eqn:Lk; [|injection H as <-; constructor; cbn; auto].
    apply rmap_iff in H as (x & Hx & <-). apply last_opt_in in Lk. apply decent_outcome, set_name_decent; auto using one_line_quiet.
    eapply K; [eapply rfilter_in; eauto|eauto|]. destruct (nodes_sat _ _ _ _ _ Hl Lk) as (t & Ht & O).
    assert (X : one ["simpleType"; "complexType"] (fst k)) by (eapply one_of_tags; [|eauto|exact O]; reflexivity).
    destruct X as (s & [<-|[<-|[]]] & T); eexists; (split; [|exact T]); cbn; auto 15.
Qed.
Lemma attribute_decent n anc ks e : fine n -> decent_kids ks -> parse_attribute n anc ks = Ok e -> outcome e.
Proof.
  intros Fn K H. unfold parse_attribute in H. bo H pt Hp. destruct (is_kind KSchema pt).
  - unfold parse_global_attribute, attr_ref, attr_name, attr_type in H.
    destruct (attribute n (lit "ref")) as [r|] eqn:R; [injection H as <-; constructor; cbn; fq Fn R|].
    bo H nm Hn. apply expect_ok in Hn. assert (Q : quiet nm) by fq Fn Hn.
    destruct (attribute n (lit "type")) as [m|] eqn:M; [injection H as <-; constructor; cbn; auto; fq Fn M|]. bo H l Hl.
    destruct (last_opt l) as [k|] eqn:Lk; [|injection H as <-; constructor; cbn; auto].
    apply rmap_iff in H as (x & Hx & <-). apply last_opt_in in Lk. apply decent_outcome, set_name_decent; auto using one_line_quiet.
    eapply K; [eapply rfilter_in; eauto|eauto|]. destruct (elements_sat _ _ _ _ _ Hl Lk) as (_ & t & Ht & O).
    assert (X : one ["simpleType"] (fst k)) by (apply (one_of_tags [KSimpleType] ["simpleType"] (fst k) _ t eq_refl Ht); cbn; rewrite O; auto).
    destruct X as (s & [<-|[]] & T); eexists; (split; [|exact T]); cbn; auto 15.
  - bo H nm Hn. bo H us Hu. injection H as <-. apply expect_ok in Hn. unfold attr_name, attr_ref, or_else in Hn.
    assert (X : quiet nm /\ (nm = lit "__base__" -> forall q, B q)).
    { destruct (attribute n (lit "name")) as [m|] eqn:M; [injection Hn as <-; split; [fq Fn M|eapply reserved; eauto]|].
      split; [fq Fn Hn|eapply reserved; eauto]. }
    destruct X as [Q Nb]. constructor; cbn; [auto| |intros P; apply Nb; exact P|constructor].
    unfold attr_type, attr_ref, or_else. destruct (attribute n (lit "type")) as [m|] eqn:M; cbn; [fq Fn M|].
    destruct (attribute n (lit "ref")) as [m|] eqn:R; cbn; [fq Fn R|ql].
Qed.
Lemma group_decent n anc ks e : fine n -> decent_kids ks -> parse_attribute_group n anc ks = Ok e -> decent e.
Proof.
  intros Fn K H. unfold parse_attribute_group in H. bo H pt Hp. destruct (is_kind KSchema pt).
  - bo H nm Hn. apply expect_ok in Hn. bo H fs Hf. injection H as <-. constructor; cbn; [fq Fn Hn|eapply attributes_decent; eauto|constructor].
  - bo H nm Hn. apply expect_ok in Hn. injection H as <-. constructor; cbn; fq Fn Hn.
Qed.
Lemma list_decent n ks e : fine n -> decent_kids ks -> parse_list n ks = Ok e -> decent e.
Proof.
  intros Fn K H. unfold parse_list in H. bo H t Ht. injection H as <-.
  enough (D : decent (ETuple t)) by (inversion D; subst; constructor; cbn; auto).
  destruct (attribute n (lit "itemType")) as [it|] eqn:I.
  - injection Ht as <-. constructor; cbn; [apply quiet_nil|fq Fn I|constructor|intros f v []|constructor].
  - bo Ht k Hk. apply expect_ok, find_some in Hk as [Ik E]. apply andb_true_iff in E as [_ E]. apply str_eqb_eq in E. bo Ht x Hx.
    assert (D : decent x) by (eapply K; eauto; eexists; (split; [|exact E]); cbn; auto 15).
    destruct x; try discriminate; injection Ht as <-; auto. inversion D; subst. constructor; cbn; [apply quiet_nil|auto|constructor|intros f v []|].
    constructor; [auto|constructor].
Qed.
Lemma union_decent n anc ks e : fine n -> Forall quiet_name anc -> decent_kids ks -> parse_union n anc ks = Ok e -> decent e.
Proof.
  intros Fn A K H. unfold parse_union in H. cbv zeta in H. bo H l Hl. bo H subs Hs. bo H fs Hf.
  assert (F : Forall decent subs).
  { eapply union_subtypes_decent; [|eauto]. intros k e' I He. eapply K; [eapply rfilter_in; eauto|eauto|].
    destruct (elements_sat _ _ _ _ _ Hl I) as (_ & t & Ht & O).
    assert (X : one ["simpleType"] (fst k)) by (apply (one_of_tags [KSimpleType] ["simpleType"] (fst k) _ t eq_refl Ht); cbn; rewrite O; auto).
    destruct X as (s & [<-|[]] & T); eexists; (split; [|exact T]); cbn; auto 15. }
  assert (Fc : Forall dcase ((match attribute n (lit "memberTypes") with Some m => create_enum_cases m | None => [] end) ++ union_sub_cases 0 subs)).
  { apply Forall_app. split; [destruct (attribute n (lit "memberTypes")) as [m|] eqn:M; [apply members_decent; fq Fn M|constructor]|].
    apply union_cases_decent. intros x. eapply union_subtypes_names; eauto. }
  assert (Fa := attributes_decent _ _ _ K Hf). destruct fs as [|f fs].
  - injection H as <-. constructor; cbn; auto; [apply quiet_nil|ql].
  - bo H pn Hn. injection H as <-. assert (Q := parent_quiet _ _ A Hn). assert (Qc : quiet (pn ++ lit "Choice")) by (apply quiet_app; [auto|ql]).
    constructor; cbn; [apply quiet_nil| |constructor]. inversion Fa; subst. constructor; auto. apply Forall_app. split; auto. constructor; [|constructor].
    constructor; cbn; auto.
    + intros P. destruct (choice_not_base pn). exact P.
    + constructor; [|constructor]. constructor; cbn; auto. ql.
Qed.
Lemma restriction_decent u n anc e : fine n -> Forall quiet_name anc -> (forall c, In c (children n) -> ~ tag "annotation" c -> fine c) ->
  simple_type_restriction u n anc (kids u n anc) = Ok e -> decent e.
Proof.
  intros Fn A Fc H. unfold simple_type_restriction in H. bo H b Hb. bo H fs Hf. cbv zeta in H. destruct (base_quiet _ _ Fn Hb) as [Qb _].
  apply (facets_fine n) in Hf as [H1 H2].
  - destruct (is_simple_enumerations u fs) eqn:E; cbn [andb] in H; [destruct (negb (is_empty (cases fs)))|].
    + bo H pn Hn. injection H as <-. constructor; cbn; auto; [apply quiet_app; [eapply parent_quiet; eauto|ql]|]. eapply cases_decent; eauto.
    + injection H as <-. constructor; cbn; auto. apply quiet_nil.
    + injection H as <-. constructor; cbn; auto. apply quiet_nil.
  - intros k I N. unfold kids in I. apply in_map_iff in I as (c & <- & I). cbn in *. auto.
Qed.
Lemma simple_decent n anc ks e : fine n -> decent_kids ks -> (forall k, In k ks -> In (fst k) (children n)) -> tag "simpleType" n -> parse_simple_type n anc ks = Ok e -> decent e.
Proof.
  intros Fn K S T H. unfold parse_simple_type in H. cbv zeta in H. bo H pt Hp. destruct (negb _); [discriminate|]. bo H l Hl. bo H k Hk.
  apply expect_ok, last_opt_in in Hk. bo H x Hx. injection H as <-.
  assert (D : decent x).
  { eapply K; [eapply rfilter_in; eauto|eauto|]. destruct (elements_sat _ _ _ _ _ Hl Hk) as (E & t & Ht & O).
    destruct Fn as [(_ & _ & _ & _ & G & _) _]. destruct (G T (fst k)) as (s & I & T').
    - apply in_particles. split; [apply S; eapply rfilter_in; eauto|]. split; auto. unfold not_annotation in O. rewrite (is_kind_tag _ _ _ KAnnotation Ht) in O.
      rewrite <- tagged_iff. intros X. rewrite (tagged_tagb KAnnotation "annotation" eq_refl) in X. rewrite X in O. discriminate.
    - destruct I as [<-|[<-|[<-|[]]]]; eexists; (split; [|exact T']); cbn; auto 15. }
  apply set_comment_decent. unfold attr_name. destruct (attribute n (lit "name")) as [m|] eqn:M; auto.
  assert (Q : quiet m) by fq Fn M. apply set_name_decent; auto using one_line_quiet.
Qed.
Lemma content_decent n anc ks e : fine n -> decent_kids ks -> (forall k, In k ks -> In (fst k) (children n)) -> one ["complexContent"; "simpleContent"] n -> parse_content n anc ks = Ok e -> decent e.
Proof.
  intros Fn K S T H. unfold parse_content in H. bo H l Hl. bo H k Hk.
  apply expect_ok, last_opt_in in Hk.
  eapply K; [eapply rfilter_in; eauto|eauto|]. destruct (elements_sat _ _ _ _ _ Hl Hk) as (E & t & Ht & O).
  destruct Fn as [(_ & _ & _ & _ & _ & G) _]. destruct (G T (fst k)) as (s & I & T').
  - apply in_particles. split; [apply S; eapply rfilter_in; eauto|]. split; auto. unfold not_annotation in O. rewrite (is_kind_tag _ _ _ KAnnotation Ht) in O.
    rewrite <- tagged_iff. intros X. rewrite (tagged_tagb KAnnotation "annotation" eq_refl) in X. rewrite X in O. discriminate.
  - destruct I as [<-|[<-|[]]]; eexists; (split; [|exact T']); cbn; auto 15.
Qed.
Lemma kind_tag (n : node) anc k : xsd_type n anc = Ok (TKind k) -> tag_name n = tag_of k.
Proof.
  intros H. assert (X := is_kind_tag _ _ _ k H). cbn in X. destruct (kind_beq k k) eqn:E; [|destruct k; discriminate]. symmetry in X. apply str_eqb_eq in X. auto.
Qed.

Lemma step_decent u n anc e : fine n -> Forall quiet_name anc -> (forall c, In c (children n) -> ~ tag "annotation" c -> fine c) ->
  decent_kids (kids u n anc) -> parse_step u n anc (kids u n anc) = Ok e -> outcome e /\ (one type_tags n -> decent e).
Proof.
  intros Fn A Fc K H. unfold parse_step in H. bo H t Ht.
  assert (S : forall k, In k (kids u n anc) -> In (fst k) (children n)) by (intros k I; unfold kids in I; apply in_map_iff in I as (c & <- & I); auto).
  assert (W : decent e -> outcome e /\ (one type_tags n -> decent e)) by (intros D; split; auto using decent_outcome).
  destruct t as [k|x|r|f| |]; try discriminate.
  - pose proof (fun ts => kind_not_tag n anc k ts Ht) as NT.
    destruct k; try discriminate.
    + apply W. eapply sequence_decent; eauto.
    + injection H as <-. split; [constructor; cbn; [ql|ql|discriminate|constructor]|]. intros O. destruct (NT type_tags); auto.
    + injection H as <-. split; [constructor; cbn; [ql|ql|discriminate|constructor]|]. intros O. destruct (NT type_tags); auto.
    + split; [eapply attribute_decent; eauto|]. intros O. destruct (NT type_tags); auto.
    + apply W. eapply group_decent; eauto.
    + apply W. eapply choice_decent; eauto.
    + apply W. eapply content_decent; eauto. eexists. split; [left; reflexivity|exact (kind_tag _ _ _ Ht)].
    + apply W. eapply complex_decent; eauto.
    + split; [eapply element_decent; eauto|]. intros O. destruct (NT type_tags); auto.
    + apply W. injection H as <-. unfold parse_import. destruct Fn as [(_ & _ & _ & G & _) _].
      assert (T : one ["import"; "include"] n) by (eexists; split; [left; reflexivity|exact (kind_tag _ _ _ Ht)]).
      constructor; cbn; [destruct (attribute n (lit "schemaLocation")) eqn:X|destruct (attribute n (lit "namespace")) eqn:X]; cbn; try (intros []); apply (G _ T); auto.
    + apply W. injection H as <-. unfold parse_import. destruct Fn as [(_ & _ & _ & G & _) _].
      assert (T : one ["import"; "include"] n) by (eexists; split; [right; left; reflexivity|exact (kind_tag _ _ _ Ht)]).
      constructor; cbn; [destruct (attribute n (lit "schemaLocation")) eqn:X|destruct (attribute n (lit "namespace")) eqn:X]; cbn; try (intros []); apply (G _ T); auto.
    + apply W. eapply list_decent; eauto.
    + apply W. eapply sequence_decent; eauto.
    + apply W. eapply content_decent; eauto. eexists. split; [right; left; reflexivity|exact (kind_tag _ _ _ Ht)].
    + apply W. eapply simple_decent; eauto. exact (kind_tag _ _ _ Ht).
    + apply W. eapply union_decent; eauto.
  - apply W. destruct x; cbn in H; [eapply derivation_decent; eauto|]. unfold simple_content_extension in H. bo H b Hb. bo H fs Hf. bo H gs Hg. injection H as <-.
    destruct (base_quiet _ _ Fn Hb). constructor; cbn; [apply quiet_nil| |constructor]. apply Forall_app. split; [eapply attributes_decent; eauto|]. constructor; auto using base_field_decent.
  - apply W. destruct r; cbn in H; [eapply derivation_decent; eauto|discriminate|]. eapply restriction_decent; eauto.
Qed.

Lemma node_decent u n : forall anc e, (forall x, part x n -> fine x) -> Forall quiet_name anc -> parse_node u n anc = Ok e -> outcome e /\ (one type_tags n -> decent e).
Proof.
  induction n as [t a ns cs IH|s|] using node_tree_ind; intros anc e F A H; rewrite parse_node_eq in H; (eapply step_decent; [apply F; constructor|exact A| | |exact H]).
  - intros c I N. apply F. eapply part_child; eauto. constructor.
  - intros k x I Hx. unfold kids in I. apply in_map_iff in I as (c & <- & Ic). cbn [fst snd children] in *.
    rewrite Forall_forall in IH. apply (IH c Ic) with (anc := Elem t a ns cs :: anc); auto.
    + intros y P. apply F. eapply part_child; eauto. intros T. rewrite parse_node_eq in Hx. unfold parse_step in Hx. unfold tag in T.
      rewrite (xsd_kind c _ KAnnotation) in Hx by exact T. discriminate.
    + constructor; auto. apply fine_name. apply F. constructor.
  - intros c [].
  - intros k x [].
  - intros c [].
  - intros k x [].
Qed.
End D.

(** ** Linking *)
Notation anything := (fun _ : str => True).
Lemma assembled_decent (P : str -> list (field entity) -> Prop) own out : (forall q c, P q c -> Forall (dfield anything) c) ->
  Forall (dfield anything) own -> assembled P own out -> Forall (dfield anything) out.
Proof.
  intros HP Ho (cs & F & ->). apply Forall_app. split.
  - apply Forall_forall. intros f I. apply in_proper in I as [I _]. rewrite Forall_forall in Ho. auto.
  - apply Forall_forall. intros f I. apply in_not_redeclared in I as [I _]. destruct (in_concat_2 _ _ _ _ F I) as (b & c & _ & H & Ic).
    apply HP in H. rewrite Forall_forall in H. auto.
Qed.
Lemma same_fields_decent (R : entity -> entity -> Prop) fs gs :
  (forall f e e', In f fs -> In e (fl_subtypes f) -> R e e' -> decent anything e -> decent anything e') ->
  Forall (dfield anything) fs -> Forall2 (same_field R) fs gs -> Forall (dfield anything) gs.
Proof.
  intros HR F H. apply Forall_forall. intros g I. destruct (Forall2_in_r _ _ _ _ H I) as (f & If & (E1 & E2 & _ & _ & _ & Hs)).
  rewrite Forall_forall in F. assert (D := F f If). inversion D; subst. constructor; [rewrite E1; auto|rewrite E2; auto|auto|].
  apply Forall_forall. intros e' Ie'. destruct (Forall2_in_r _ _ _ _ Hs Ie') as (e & Ie & He). eapply HR; eauto. match goal with X : Forall (decent _) (fl_subtypes f) |- _ => rewrite Forall_forall in X; auto end.
Qed.
Lemma completed_decent (P : str -> list (field entity) -> Prop) e : (forall q c, P q c -> Forall (dfield anything) c) ->
  forall e', completed P e e' -> decent anything e -> decent anything e'.
Proof.
  intros HP. induction e as [s IHf IHs|t IH|n IH|f|c|a|i] using entity_sub_ind; intros e' C D; inversion C; subst; auto.
  - inversion D; subst. match goal with X : same_struct _ _ |- _ => destruct X as (E1 & E2 & E3 & E4) end. constructor; [rewrite E1; auto| |rewrite E4; auto].
    eapply assembled_decent; [exact HP| |eassumption]. eapply same_fields_decent; [|eassumption|eassumption]. intros f e e' If Ie. eapply IHf; eauto.
Qed.
Lemma link_decent f f' : link f = Ok f' -> Forall (decent anything) (top_level f) -> Forall (decent anything) (rf_types f').
Proof.
  intros L D. destruct (link_ok _ _ L) as (Eg & _ & _ & Len & Other & Str).
  assert (G : forall i e, nth_error (rf_types f') i = Some e -> decent anything e).
  { induction i as [i IH] using (well_founded_induction lt_wf). intros e' He'.
    assert (Li : (i < List.length (rf_types f))%nat) by (rewrite <- Len; apply nth_error_Some; congruence).
    destruct (nth_error (rf_types f) i) as [e|] eqn:He; [|apply nth_error_None in He; lia].
    assert (De : decent anything e).
    { rewrite Forall_forall in D. apply D. unfold top_level. apply in_or_app. left. eapply nth_error_In; eauto. }
    destruct e as [s|fl|t|n|c|a|im]; try (rewrite (Other i _ He) in He' by discriminate; injection He' as <-; exact De).
    destruct (Str i s He) as (t & Ht & own & out & gs & Same & Ho & As & Hg & Ef). unfold struct_at in Ht. rewrite Ht in He'. injection He' as <-.
    assert (SD : forall q c, snapshot (top_level f) (top_level f') i q c -> Forall (dfield anything) c).
    { intros q c [[_ ->]|(j & Rf & [(Lj & x & Hx & ->)|(Lj & x & Hx & ->)])]; [constructor| |].
      - unfold struct_at, top_level in Hx. rewrite nth_error_app1 in Hx by (rewrite Len; lia). apply IH in Hx; [|auto]. inversion Hx; auto.
      - apply nth_error_In in Hx. rewrite Forall_forall in D. apply D in Hx. inversion Hx; auto. }
    inversion De; subst. destruct Same as (E1 & E2 & E3 & E4). 
    assert (Down : Forall (dfield anything) own).
    { eapply same_fields_decent; [|eassumption|exact Ho]. intros f0 e e' _ _. apply completed_decent. exact SD. }
    assert (Dout : Forall (dfield anything) out).
    { eapply assembled_decent; [|exact Down|exact As]. intros q c [X|[_ ->]]; [eauto|constructor]. }
    constructor; [rewrite E1; auto| |rewrite E4; auto]. rewrite Ef. apply Forall_app. split; auto. apply Forall_concat. apply Forall_forall. intros g Ig.
    destruct (Forall2_in_r _ _ _ _ Hg Ig) as (a & _ & [X|[_ ->]]); eauto. }
  apply Forall_forall. intros e I. apply In_nth_error in I as (i & Hi). eauto.
Qed.

(** ** Declarations *)
Lemma global_decent B u n p anc e : tag "schema" p -> one ["element"; "attribute"] n -> (forall x, part x n -> fine B x) -> Forall quiet_name (p :: anc) ->
  parse_node u n (p :: anc) = Ok e -> decent B e.
Proof.
  intros Tp O F A H. destruct (node_decent B u n _ _ F A H) as [Out _].
  assert (Fn : fine B n) by (apply F; constructor).
  assert (K : forall c x, In c (children n) -> one ["simpleType"; "complexType"] c -> parse_node u c (n :: p :: anc) = Ok x -> decent B x).
  { intros c x I T Hx. eapply node_decent; [|constructor; [|exact A]|exact Hx|].
    - intros y Py. apply F. eapply part_child; eauto. intros T'. destruct T as (t & [<-|[<-|[]]] & T); unfold tag in *; rewrite T' in T; discriminate.
    - eapply fine_name; eauto.
    - destruct T as (t & [<-|[<-|[]]] & T); eexists; (split; [|exact T]); cbn; auto 15. }
  assert (Sol : match e with EField _ | ECase _ => False | _ => True end).
  { assert (G : forall c x nm, In c (children n) -> one ["simpleType"; "complexType"] c -> parse_node u c (n :: p :: anc) = Ok x ->
        match set_name nm x with EField _ | ECase _ => False | _ => True end).
    { intros c x nm I T Hx. assert (D := K c x I T Hx). destruct D; exact Logic.I. }
    destruct O as (t & [<-|[<-|[]]] & T).
    - rewrite (step_kind u n _ KElement) in H by exact T. unfold parse_element in H. rewrite (parent_kind _ p anc KSchema eq_refl Tp) in H. cbn [bind] in H.
      unfold parse_global_element in H. bo H nm Hn. destruct (attr_type n); [injection H as <-; exact Logic.I|]. bo H l Hl.
      destruct (last_opt l) as [k|] eqn:Lk; [|injection H as <-; exact Logic.I]. apply rmap_iff in H as (x & Hx & <-). apply last_opt_in in Lk.
      destruct (nodes_sat _ _ _ _ _ Hl Lk) as (t & Ht & Oo). assert (Ik := rfilter_in _ _ _ _ Hl Lk). unfold kids in Ik. apply in_map_iff in Ik as (c & <- & Ic). cbn [fst snd] in *.
      eapply G; eauto. eapply one_of_tags; [|eauto|exact Oo]. reflexivity.
    - rewrite (step_kind u n _ KAttribute) in H by exact T. unfold parse_attribute in H. rewrite (parent_kind _ p anc KSchema eq_refl Tp) in H. cbn [bind is_kind kind_beq] in H.
      unfold parse_global_attribute in H. destruct (attr_ref n); [injection H as <-; exact Logic.I|]. bo H nm Hn. destruct (attr_type n); [injection H as <-; exact Logic.I|]. bo H l Hl.
      destruct (last_opt l) as [k|] eqn:Lk; [|injection H as <-; exact Logic.I]. apply rmap_iff in H as (x & Hx & <-). apply last_opt_in in Lk.
      destruct (elements_sat _ _ _ _ _ Hl Lk) as (_ & t & Ht & Oo). assert (Ik := rfilter_in _ _ _ _ Hl Lk). unfold kids in Ik. apply in_map_iff in Ik as (c & <- & Ic). cbn [fst snd] in *.
      eapply G; eauto. assert (X : one ["simpleType"] c) by (apply (one_of_tags [KSimpleType] ["simpleType"] c _ t eq_refl Ht); cbn; rewrite Oo; auto).
      destruct X as (s & [<-|[]] & Ts). exists "simpleType". split; [left; auto|auto]. }
  destruct e; try exact Out; destruct Sol.
Qed.

Definition declaration_tags : list string := ["import"; "include"; "simpleType"; "element"; "complexType"; "attribute"; "attributeGroup"].
Lemma declared_tags n c : ok_schema n -> In c (children n) -> is_element c = true -> ~ tag "annotation" c -> one declaration_tags c.
Proof.
  intros [_ F] I E N. rewrite Forall_forall in F. destruct (F c I) as [[X|X]|X]; [congruence|contradiction|].
  destruct X as [X|[X|[X|[X|[X|X]]]]]; inversion X; subst;
    try (match goal with H : one _ _ |- _ => destruct H as (t & [<-|[<-|[]]] & T) end; eexists; (split; [|exact T]); cbn; auto 10);
    eexists; (split; [|eassumption]); cbn; auto 10.
Qed.
Lemma child_decent B u n anc c e : tag "schema" n -> Forall quiet_name (n :: anc) -> one declaration_tags c ->
  (forall x, part x c -> fine B x) -> parse_node u c (n :: anc) = Ok e -> decent B e.
Proof.
  intros T A O F H. destruct (node_decent B u c _ _ F A H) as [Out D].
  destruct O as (t & I & Tc). cbn in I.
  assert (TT : In t type_tags -> decent B e) by (intros X; apply D; exists t; auto).
  assert (GG : In t ["element"; "attribute"] -> decent B e) by (intros X; eapply global_decent; eauto; exists t; auto).
  destruct I as [<-|[<-|[<-|[<-|[<-|[<-|[<-|[]]]]]]]]; try (apply TT; cbn; auto 15; fail); try (apply GG; cbn; auto; fail).
  - rewrite (step_kind u c _ KImport) in H by exact Tc. injection H as <-. exact Out.
  - rewrite (step_kind u c _ KInclude) in H by exact Tc. injection H as <-. exact Out.
  - rewrite (step_kind u c _ KAttributeGroup) in H by exact Tc. unfold parse_attribute_group in H. bo H pt Hp.
    destruct (is_kind KSchema pt); [bo H nm Hn; bo H fs Hf; injection H as <-; exact Out|bo H nm Hn; injection H as <-; exact Out].
Qed.
Lemma in_declarations n c : In c (declarations n) -> In c (children n) /\ is_element c = true /\ ~ tag "annotation" c /\ ~ tag "attributeGroup" c.
Proof.
  unfold declarations. rewrite filter_In, !andb_true_iff, !negb_true_iff. intros (I & (E & A) & G). split; auto. split; auto.
  rewrite <- !tagged_iff. split; congruence.
Qed.
Lemma schema_element n : tag "schema" n -> is_element n = true.
Proof. intros T. destruct n; try discriminate. reflexivity. Qed.
Lemma nonempty_element t c : lit t <> [] -> tag t c -> is_element c = true.
Proof. intros N T. destruct c; auto; unfold tag in T; cbn in T; congruence. Qed.

Lemma file_decent u n f : ok_schema n -> (forall x, part x n -> tidy_element x) -> parse_schema u n [] = Ok f -> Forall (decent anything) (top_level f).
Proof.
  intros O T H. destruct (schema_inv _ _ _ _ H) as (_ & H1 & H2 & _).
  assert (A : Forall quiet_name [n]).
  { constructor; [|constructor]. intros v Hv. destruct (T n (part_self n)) as (N & _). eapply N; [|exact Hv]. cbn; auto. }
  assert (X : forall c e, In c (children n) -> is_element c = true -> ~ tag "annotation" c -> parse_node u c [n] = Ok e -> decent anything e).
  { intros c e I E N Hc. eapply child_decent; eauto; [apply O|eapply declared_tags; eauto|]. intros x P. split; [|split; auto]. apply T. eapply part_child; eauto. }
  apply Forall_app. split; apply Forall_forall; intros e Ie.
  - destruct (Forall2_in_r _ _ _ _ H1 Ie) as (c & Ic & Hc). apply in_declarations in Ic as (I & E & N & _). eauto.
  - destruct (Forall2_in_r _ _ _ _ H2 Ie) as (c & Ic & Hc). apply in_tagged in Ic as [I (t & [<-|[]] & Tc)]. eapply X; eauto.
    + eapply nonempty_element; [|exact Tc]. discriminate.
    + unfold tag in *. rewrite Tc. discriminate.
Qed.

(** ** No panic of linking *)
Lemma nested_base B f d b : nested_in f d -> dfield B f -> In b (st_fields d) -> placeholder b -> B (fl_type b).
Proof.
  induction 1 as [f d I|f d g d' I Ig N IH]; intros D Ib P.
  - inversion D; subst. match goal with X : Forall _ (fl_subtypes f) |- _ => rewrite Forall_forall in X; specialize (X _ I); inversion X; subst end.
    match goal with X : Forall _ (st_fields d) |- _ => rewrite Forall_forall in X; specialize (X _ Ib); inversion X; subst end. auto.
  - inversion D; subst. match goal with X : Forall _ (fl_subtypes f) |- _ => rewrite Forall_forall in X; specialize (X _ I); inversion X; subst end.
    apply IH; auto. match goal with X : Forall _ (st_fields d) |- _ => rewrite Forall_forall in X; auto end.
Qed.
Lemma struct_name u n c s : ok_schema n -> (forall x, part x c -> tidy_element x) -> In c (declarations n) -> declares c (EStruct s) ->
  parse_node u c [n] = Ok (EStruct s) -> has c "name" (st_name s).
Proof.
  intros O T I (D1 & D2 & _ & _ & _ & D3) H. apply in_declarations in I as (I & E & N & NG). destruct (declared_tags _ _ O I E N) as (t & It & Tc). cbn in It.
  destruct It as [<-|[<-|[<-|[<-|[<-|[<-|[<-|[]]]]]]]].
  - destruct D1 as (i & X & _); [eexists; split; [left; reflexivity|exact Tc]|discriminate].
  - destruct D1 as (i & X & _); [eexists; split; [right; left; reflexivity|exact Tc]|discriminate].
  - apply D2. eexists; split; [right; left; reflexivity|exact Tc].
  - apply D2. eexists; split; [left; reflexivity|exact Tc].
  - destruct (D3 Tc) as (nm & Hn & X). destruct X as [X|(en & s' & X & _)]; [|cbn in X; subst; auto|discriminate].
    intros x y Ix Ox Iy. assert (Px : part x c) by (eapply part_child; [exact Ix| |constructor]; intros Ta; destruct Ox as (t & [<-|[<-|[]]] & Tx); unfold tag in *; rewrite Ta in Tx; discriminate).
    destruct (T x Px) as (_ & _ & _ & _ & _ & G). apply G; auto.
  - rewrite (step_kind u c _ KAttribute) in H by exact Tc. unfold parse_attribute in H. rewrite (parent_kind _ n [] KSchema eq_refl (proj1 O)) in H. cbn [bind is_kind kind_beq] in H.
    unfold parse_global_attribute in H. destruct (attr_ref c); [discriminate|]. bo H nm Hn. apply expect_ok in Hn. destruct (attr_type c); [discriminate|]. bo H l Hl.
    destruct (last_opt l); [|injection H as <-; exact Hn]. apply rmap_iff in H as (x & _ & E'). destruct x; try discriminate. injection E' as <-. exact Hn.
  - contradiction.
Qed.
Lemma link_total u n f : ok_schema n -> (forall x, part x n -> tidy_element x) -> not_self_derived n -> parse_schema u n [] = Ok f -> exists f', link f = Ok f'.
Proof.
  intros O T [NS R] H. destruct (link_panic f) as [LP LE]. destruct (link f) as [f'| |]; [eauto|congruence|]. exfalso.
  destruct (proj1 LP eq_refl) as (i & Li & s & fl & d & b & At & Ifl & Nd & Ib & Pb & Rf).
  assert (A : Forall quiet_name [n]).
  { constructor; [|constructor]. intros v Hv. destruct (T n (part_self n)) as (N & _). eapply N; [|exact Hv]. cbn; auto. }
  assert (At' := struct_at_types _ _ _ Li At). unfold struct_at in At'. 
  destruct (schema_inv _ _ _ _ H) as (_ & H1 & _). destruct (schema_ok _ _ _ _ (proj1 O) H) as [D _].
  assert (X : exists c, nth_error (declarations n) i = Some c) by (destruct (nth_error (declarations n) i) eqn:E; [eauto|apply nth_error_None in E; rewrite (Forall2_len _ _ _ H1) in E; lia]).
  destruct X as (c & Hc).
  assert (F2 : forall (P : node -> entity -> Prop) l r j x y, Forall2 P l r -> nth_error l j = Some x -> nth_error r j = Some y -> P x y).
  { intros P l r j x y F. revert j. induction F; intros [|j] E1 E2; try discriminate; cbn in *; [congruence|eauto]. }
  assert (Pc := F2 _ _ _ _ _ _ H1 Hc At'). assert (Dc := F2 _ _ _ _ _ _ D Hc At'). cbn beta in Pc.
  assert (Ic := nth_error_In _ _ Hc). destruct (in_declarations _ _ Ic) as (I & E & N & _).
  assert (PP : forall x, part x c -> part x n) by (intros x P; eapply part_child; eauto).
  assert (Hn := struct_name u n c s O (fun x P => T x (PP x P)) Ic Dc Pc).
  pose (B := fun q : str => forall k, local q k -> k <> st_name s).
  assert (DD : decent B (EStruct s)).
  { eapply child_decent; [apply O|exact A|eapply declared_tags; eauto| |exact Pc]. intros x Px. split; [apply T; auto|]. split.
    - intros q Hq k Hk. eapply (NS c); eauto.
    - destruct (R x (PP x Px)) as [R1 R2]. tauto. }
  inversion DD; subst. assert (Bb : B (fl_type b)).
  { eapply nested_base; eauto. match goal with X : Forall _ (st_fields s) |- _ => rewrite Forall_forall in X; auto end. }
  destruct Rf as (k & s' & Lk & At2 & Ek & _). unfold struct_at in *. rewrite At in At2. injection At2 as <-. apply (Bb k); auto.
Qed.

(** ** The whole way *)
Lemma target_tidy n : (forall t, In t (namespaces n) -> tidy_namespace t) -> sane_ns (target_namespace n).
Proof.
  intros T t E. unfold target_namespace in E. destruct (attribute n _); [|discriminate]. apply find_some in E as [I _]. exact (T t I).
Qed.
Lemma file_outcome u f : sane_ns (rf_target_ns f) -> Forall (decent anything) (rf_types f) ->
  exists its f' s, all_items u (rf_target_ns f) (fun q => format_type_name u q (rf_xsd_ns f) (rf_target_ns f)) (format_name u) (variant_name u (rf_target_ns f)) (rf_types f) its /\
    generate_rs_file u f = Ok (f', s) /\ lex u s = Some (List.concat (map (item_tokens u) its)).
Proof.
  intros SN D. assert (S : Forall sane (rf_types f)) by (eapply Forall_impl; [apply (decent_sane anything)|exact D]).
  destruct (file_panic u f SN S) as (_ & _ & [(e & I & Bad)|(its & Hi)]).
  - exfalso. rewrite Forall_forall in D. exact (decent_lengths anything e (D e I) Bad).
  - destruct (file_text u f its SN S Hi) as (f' & s & G & L). eauto 8.
Qed.
Lemma schema_outcome u n : ok_schema n -> tidy n -> exists f, parse_schema u n [] = Ok f /\
  exists its f' s, all_items u (rf_target_ns f) (fun q => format_type_name u q (rf_xsd_ns f) (rf_target_ns f)) (format_name u) (variant_name u (rf_target_ns f)) (rf_types f) its /\
    generate_rs_file u f = Ok (f', s) /\ lex u s = Some (List.concat (map (item_tokens u) its)).
Proof.
  intros O [T TN]. destruct (schema_supported u n [] O (Forall_nil _)) as (f & H). exists f. split; auto.
  destruct (schema_inv _ _ _ _ H) as (_ & _ & _ & E & _). apply file_outcome; [rewrite E; apply target_tidy; auto|].
  assert (D := file_decent u n f O T H). unfold top_level in D. apply Forall_app in D as [D _]. auto.
Qed.
Lemma document_outcome u roots n : document roots n -> ok_schema n -> tidy n -> not_self_derived n -> exists f, parse u roots = Ok f /\
  exists its f' s, all_items u (rf_target_ns f) (fun q => format_type_name u q (rf_xsd_ns f) (rf_target_ns f)) (format_name u) (variant_name u (rf_target_ns f)) (rf_types f) its /\
    generate_rs_file u f = Ok (f', s) /\ lex u s = Some (List.concat (map (item_tokens u) its)).
Proof.
  intros (a & b & -> & E & L) O [T TN] NS. destruct (schema_supported u n [] O (Forall_nil _)) as (f0 & H). destruct (link_total u n f0 O T NS H) as (f & Hl).
  exists f. destruct (parse_document u (a ++ n :: b)) as [PD _]. split; [apply (PD a n b); auto; eauto|].
  destruct (schema_inv _ _ _ _ H) as (_ & _ & _ & En & _). destruct (link_ok _ _ Hl) as (_ & Et & _).
  apply file_outcome; [rewrite Et, En; apply target_tidy; auto|]. eapply link_decent; eauto. eapply file_decent; eauto.
Qed.

(** ** Every declared type is defined *)
Definition typelike (e : entity) : Prop := match e with EStruct _ | ETuple _ | EEnum _ => True | _ => False end.
Lemma typelike_set nm e : typelike e -> typelike (set_name nm e).
Proof. destruct e; auto. Qed.
Lemma typelike_comment c e : typelike e -> typelike (set_comment c e).
Proof. destruct e; auto. Qed.
Definition basic_tags : list string := ["all"; "sequence"; "choice"; "group"; "extension"; "restriction"; "list"; "union"].
Lemma derivation_typelike kinds n anc ks e : complex_derivation kinds n anc ks = Ok e -> typelike e.
Proof.
  intros H. unfold complex_derivation in H. bo H b Hb. bo H fs Hf. cbv zeta in H. bo H l Hl.
  assert (X : forall e fs, bind (attribute_groups_to_aliases (n :: anc) ks) (fun groups => Ok (EStruct {| st_name := []; st_comment := get_documentation n;
     st_fields := fs; st_groups := groups; st_subtypes := [] |})) = Ok e -> typelike e).
  { intros e' fs' H'. bo H' gs Hg. injection H' as <-. exact Logic.I. }
  destruct (last_opt l) as [k|]; [|eauto]. bo H x Hx. destruct x; eauto. injection H as <-. exact Logic.I.
Qed.
Lemma basic_typelike u n anc e : one basic_tags n -> parse_node u n anc = Ok e -> typelike e.
Proof.
  intros (t & I & T) H.
  assert (Seq : parse_sequence n anc (kids u n anc) = Ok e -> typelike e).
  { clear. intros H. unfold parse_sequence in H. bo H nm Hn. bo H fs Hf. injection H as <-. exact Logic.I. }
  cbn in I. destruct I as [<-|[<-|[<-|[<-|[<-|[<-|[<-|[<-|[]]]]]]]]].
  - rewrite (step_kind u n _ KAll) in H by exact T. auto.
  - rewrite (step_kind u n _ KSequence) in H by exact T. auto.
  - rewrite (step_kind u n _ KChoice) in H by exact T. unfold parse_choice in H. bo H l Hl. bo H cs Hc. injection H as <-. exact Logic.I.
  - rewrite (step_kind u n _ KGroup) in H by exact T. discriminate.
  - rewrite parse_node_eq in H. unfold parse_step in H. bo H t Ht. destruct t as [k|x|r|f| |]; try discriminate.
    + exfalso. pose proof (kind_tag _ _ _ Ht) as X. unfold tag in T. rewrite T in X. destruct k; discriminate.
    + destruct x; cbn in H; [eapply derivation_typelike; eauto|]. unfold simple_content_extension in H. bo H b Hb. bo H fs Hf. bo H gs Hg. injection H as <-. exact Logic.I.
    + destruct r; cbn in H; [eapply derivation_typelike; eauto|discriminate|]. unfold simple_type_restriction in H. bo H b Hb. bo H fs Hf. cbv zeta in H.
      destruct (is_simple_enumerations u fs && negb (is_empty (cases fs))); [bo H pn Hn|]; injection H as <-; exact Logic.I.
  - rewrite parse_node_eq in H. unfold parse_step in H. bo H t Ht. destruct t as [k|x|r|f| |]; try discriminate.
    + exfalso. pose proof (kind_tag _ _ _ Ht) as X. unfold tag in T. rewrite T in X. destruct k; discriminate.
    + destruct x; cbn in H; [eapply derivation_typelike; eauto|]. unfold simple_content_extension in H. bo H b Hb. bo H fs Hf. bo H gs Hg. injection H as <-. exact Logic.I.
    + destruct r; cbn in H; [eapply derivation_typelike; eauto|discriminate|]. unfold simple_type_restriction in H. bo H b Hb. bo H fs Hf. cbv zeta in H.
      destruct (is_simple_enumerations u fs && negb (is_empty (cases fs))); [bo H pn Hn|]; injection H as <-; exact Logic.I.
  - rewrite (step_kind u n _ KList) in H by exact T. unfold parse_list in H. bo H t Ht. injection H as <-. exact Logic.I.
  - rewrite (step_kind u n _ KUnion) in H by exact T. unfold parse_union in H. cbv zeta in H. bo H l Hl. bo H subs Hs. bo H fs Hf.
    destruct fs; [injection H as <-; exact Logic.I|]. bo H pn Hn. injection H as <-. exact Logic.I.
Qed.
Lemma kids_in u n anc k : In k (kids u n anc) -> In (fst k) (children n) /\ snd k = parse_node u (fst k) (n :: anc).
Proof. intros I. unfold kids in I. apply in_map_iff in I as (c & <- & I). auto. Qed.
Lemma particle_kid u n anc l k : elements_where not_annotation (n :: anc) (kids u n anc) = Ok l -> In k l -> In (fst k) (particles n).
Proof.
  intros Hl Hk. destruct (elements_sat _ _ _ _ _ Hl Hk) as (E & t & Ht & O). apply in_particles. split; [apply (kids_in u n anc); eapply rfilter_in; eauto|]. split; auto.
  unfold not_annotation in O. rewrite (is_kind_tag _ _ _ KAnnotation Ht) in O.
  rewrite <- tagged_iff. intros X. rewrite (tagged_tagb KAnnotation "annotation" eq_refl) in X. rewrite X in O. discriminate.
Qed.
Lemma content_typelike u n anc e : tidy_element n -> one ["complexContent"; "simpleContent"] n -> parse_node u n anc = Ok e -> typelike e.
Proof.
  intros (_ & _ & _ & _ & _ & G) O H. assert (P : parse_content n anc (kids u n anc) = Ok e).
  { destruct O as (t & [<-|[<-|[]]] & T); [rewrite (step_kind u n _ KComplexContent) in H by exact T|rewrite (step_kind u n _ KSimpleContent) in H by exact T]; auto. }
  unfold parse_content in P. bo P l Hl. bo P k Hk. apply expect_ok, last_opt_in in Hk. assert (Ip := particle_kid _ _ _ _ _ Hl Hk).
  destruct (kids_in u n anc k (rfilter_in _ _ _ _ Hl Hk)) as [_ Ek]. rewrite Ek in P. eapply basic_typelike; [|exact P].
  destruct (G O _ Ip) as (t & [<-|[<-|[]]] & T); eexists; (split; [|exact T]); cbn; auto 10.
Qed.
Lemma simple_typelike u n anc e : tidy_element n -> tag "simpleType" n -> parse_node u n anc = Ok e -> typelike e.
Proof.
  intros (_ & _ & _ & _ & G & _) T H. rewrite (step_kind u n _ KSimpleType) in H by exact T.
  unfold parse_simple_type in H. cbv zeta in H. bo H pt Hp. destruct (negb _); [discriminate|]. bo H l Hl. bo H k Hk.
  apply expect_ok, last_opt_in in Hk. bo H x Hx. injection H as <-. assert (Ip := particle_kid _ _ _ _ _ Hl Hk).
  destruct (kids_in u n anc k (rfilter_in _ _ _ _ Hl Hk)) as [_ Ek]. rewrite Ek in Hx. apply typelike_comment.
  assert (X : typelike x). { eapply basic_typelike; [|exact Hx]. destruct (G T _ Ip) as (t & [<-|[<-|[<-|[]]]] & T'); eexists; (split; [|exact T']); cbn; auto 10. }
  destruct (attr_name n); auto. apply typelike_set; auto.
Qed.
Lemma complex_typelike u n anc e : (forall x, part x n -> tidy_element x) -> tag "complexType" n -> parse_node u n anc = Ok e -> typelike e.
Proof.
  intros F T H. rewrite (step_kind u n _ KComplexType) in H by exact T. unfold parse_complex_type in H. bo H pt Hp. bo H nm Hn. bo H fs Hf. bo H l Hl. cbv zeta in H.
  assert (X : forall e, bind (attribute_groups_to_aliases (n :: anc) (kids u n anc)) (fun groups => Ok (EStruct {| st_name := nm; st_comment := get_documentation n;
     st_fields := fs; st_groups := groups; st_subtypes := [] |})) = Ok e -> typelike e).
  { intros e' H'. bo H' gs Hg. injection H' as <-. exact Logic.I. }
  destruct (last_opt l) as [k|] eqn:Lk; [|auto]. destruct (existsb _ _); [|auto]. bo H x Hx. apply last_opt_in in Lk.
  assert (Y : typelike x).
  { destruct (elements_sat _ _ _ _ _ Hl Lk) as (_ & t & Ht & O).
    assert (C : one content_tags (fst k)) by (eapply one_of_tags; [|eauto|exact O]; reflexivity).
    destruct (kids_in u n anc k (rfilter_in _ _ _ _ Hl Lk)) as [Ik Ek]. rewrite Ek in Hx.
    assert (Tk : tidy_element (fst k)).
    { apply F. eapply part_child; [exact Ik| |constructor]. intros Ta. destruct C as (s & I & Ts). unfold tag in *. rewrite Ta in Ts. cbn in I.
      repeat (destruct I as [<-|I]; [discriminate|]). destruct I. }
    destruct C as (s & I & Ts). cbn in I.
    assert (BB : In s basic_tags -> typelike x) by (intros X1; eapply basic_typelike; [exists s; eauto|eauto]).
    assert (CC : In s ["complexContent"; "simpleContent"] -> typelike x) by (intros X1; eapply content_typelike; [eauto|exists s; eauto|eauto]).
    destruct I as [<-|[<-|[<-|[<-|[<-|[<-|[]]]]]]]; try (apply BB; cbn; auto 10; fail); apply CC; cbn; auto. }
  unfold finish_complex in H. destruct x; try destruct Y.
  - injection H as <-. exact Logic.I.
  - injection H as <-. exact Logic.I.
  - cbv zeta in H. bo H gs Hg. injection H as <-. exact Logic.I.
Qed.

(** A named type among the declared ones. *)
Lemma declared_named ident nm e : typelike e -> named nm e -> exists k, In ([] : list str, nm, k) (declared ident [] e).
Proof.
  intros Ty [E|(en & s & -> & _ & Es & <-)].
  - destruct e; try destruct Ty; cbn in E; subst; eexists; left; reflexivity.
  - exists KStruct. cbn. right. rewrite Es. cbn. left. reflexivity.
Qed.
Lemma named_linked f f' : link f = Ok f' -> forall nm e, In e (rf_types f) -> typelike e -> named nm e -> exists e', In e' (rf_types f') /\ typelike e' /\ named nm e'.
Proof.
  intros L nm e I Ty N. destruct (link_ok _ _ L) as (_ & _ & _ & _ & Other & Str). apply In_nth_error in I as (i & Hi).
  destruct e as [s|fl|t|n|c|a|im]; try (eexists; split; [eapply nth_error_In; apply (Other i _ Hi); discriminate|auto]).
  destruct (Str i s Hi) as (t & Ht & own & out & gs & (E1 & _) & _). exists (EStruct t). split; [eapply nth_error_In; exact Ht|]. split; auto.
  destruct N as [N|(en & s' & X & _)]; [left; cbn in *; congruence|discriminate].
Qed.
Lemma declaration_named_at u n f d nm : ok_schema n -> (forall x, part x n -> tidy_element x) -> parse_schema u n [] = Ok f ->
  In d (children n) -> has d "name" nm -> one ["simpleType"; "complexType"] d \/ tag "element" d /\ absent d "type" ->
  exists i e, nth_error (declarations n) i = Some d /\ nth_error (rf_types f) i = Some e /\ typelike e /\ named nm e.
Proof.
  intros O T H I Hn Hd. destruct (schema_inv _ _ _ _ H) as (_ & H1 & _). destruct (schema_ok _ _ _ _ (proj1 O) H) as [D _].
  assert (Td : one ["simpleType"; "complexType"; "element"] d).
  { destruct Hd as [(t & [<-|[<-|[]]] & X)|[X _]]; eexists; (split; [|exact X]); cbn; auto. }
  assert (Nd : forall t, In t ["annotation"; "attributeGroup"; "import"; "include"] -> ~ tag t d).
  { intros t It X. destruct Td as (s & Is & Ts). unfold tag in *. rewrite X in Ts. cbn in It, Is. clear - It Is Ts.
    repeat (destruct It as [<-|It]; [repeat (destruct Is as [<-|Is]; [discriminate|]); destruct Is|]). destruct It. }
  assert (Ed : is_element d = true) by (destruct Td as (s & Is & Ts); apply (nonempty_element s d); auto; cbn in Is; clear - Is; repeat (destruct Is as [<-|Is]; [discriminate|]); destruct Is).
  assert (Id : In d (declarations n)).
  { unfold declarations. rewrite filter_In, !andb_true_iff, !negb_true_iff. repeat split; auto.
    - destruct (tagged "annotation" d) eqn:X; auto. apply tagged_iff in X. exfalso. eapply (Nd "annotation"%string); eauto. cbn; auto.
    - destruct (tagged "attributeGroup" d) eqn:X; auto. apply tagged_iff in X. exfalso. eapply (Nd "attributeGroup"%string); eauto. cbn; auto. }
  apply In_nth_error in Id as (i & Hi).
  assert (F2 : forall (P : node -> entity -> Prop) l r j x, Forall2 P l r -> nth_error l j = Some x -> exists y, nth_error r j = Some y /\ P x y).
  { intros P l r j x F. revert j. induction F; intros [|j] E1; try discriminate; cbn in *; [injection E1 as <-; eauto|eauto]. }
  destruct (F2 _ _ _ _ _ H1 Hi) as (e & He & Pe). destruct (F2 _ _ _ _ _ D Hi) as (e' & He' & De). rewrite He in He'. injection He' as <-. cbn beta in Pe.
  assert (PP : forall x, part x d -> part x n) by (intros x P; eapply part_child; eauto; apply (Nd "annotation"%string); cbn; auto).
  exists i, e. split; [exact Hi|]. split; [exact He|]. destruct De as (_ & D2 & _ & _ & _ & D3).
  destruct Hd as [(t & [<-|[<-|[]]] & X)|[X Ab]].
  - split; [apply (simple_typelike u d [n]); auto; apply T, PP; constructor|]. left. assert (Y : has d "name" (entity_name e)) by (apply D2; eexists; split; [right; left; reflexivity|exact X]).
    unfold has in *. congruence.
  - split; [apply (complex_typelike u d [n]); auto|]. destruct (D3 X) as (nm' & Hn' & Nm). unfold has in Hn, Hn'. rewrite Hn in Hn'. injection Hn' as <-. apply Nm.
    intros x y Ix Ox Iy. assert (Px : part x d) by (eapply part_child; [exact Ix| |constructor]; intros Ta; destruct Ox as (t & [<-|[<-|[]]] & Tx); unfold tag in *; rewrite Ta in Tx; discriminate).
    destruct (T x (PP x Px)) as (_ & _ & _ & _ & _ & G). apply G; auto.
  - split.
    + rewrite (step_kind u d _ KElement) in Pe by exact X. unfold parse_element in Pe. rewrite (parent_kind _ n [] KSchema eq_refl (proj1 O)) in Pe. cbn [bind] in Pe.
      unfold parse_global_element in Pe. bo Pe nm' Hn'. unfold attr_type in Pe. rewrite Ab in Pe. bo Pe l Hl.
      destruct (last_opt l) as [k|] eqn:Lk; [|injection Pe as <-; exact Logic.I]. apply rmap_iff in Pe as (x & Hx & <-). apply last_opt_in in Lk. apply typelike_set.
      destruct (nodes_sat _ _ _ _ _ Hl Lk) as (t & Ht & Oo). destruct (kids_in u d [n] k (rfilter_in _ _ _ _ Hl Lk)) as [Ik Ek]. rewrite Ek in Hx.
      assert (C : one ["simpleType"; "complexType"] (fst k)) by (eapply one_of_tags; [|eauto|exact Oo]; reflexivity).
      assert (Pk : forall y, part y (fst k) -> tidy_element y).
      { intros y Py. apply T, PP. eapply part_child; [exact Ik| |exact Py]. intros Ta. destruct C as (s & [<-|[<-|[]]] & Ts); unfold tag in *; rewrite Ta in Ts; discriminate. }
      destruct C as (s & [<-|[<-|[]]] & Ts); [eapply simple_typelike; eauto; apply Pk; constructor|eapply complex_typelike; eauto].
    + left. assert (Y : has d "name" (entity_name e)) by (apply D2; eexists; split; [left; reflexivity|exact X]). unfold has in *. congruence.
Qed.
Lemma declaration_named u n f d nm : ok_schema n -> (forall x, part x n -> tidy_element x) -> parse_schema u n [] = Ok f ->
  In d (children n) -> has d "name" nm -> one ["simpleType"; "complexType"] d \/ tag "element" d /\ absent d "type" ->
  exists e, In e (rf_types f) /\ typelike e /\ named nm e.
Proof.
  intros O T H I Hn Hd. destruct (declaration_named_at u n f d nm O T H I Hn Hd) as (i & e & _ & He & X). exists e. split; auto. eapply nth_error_In; eauto.
Qed.
Lemma types_defined u roots n f its d nm : document roots n -> ok_schema n -> tidy n -> parse u roots = Ok f ->
  all_items u (rf_target_ns f) (fun q => format_type_name u q (rf_xsd_ns f) (rf_target_ns f)) (format_name u) (variant_name u (rf_target_ns f)) (rf_types f) its ->
  In d (children n) -> has d "name" nm -> one ["simpleType"; "complexType"] d \/ tag "element" d /\ absent d "type" ->
  exists k, In ([] : list str, ty u (fun q => format_type_name u q (rf_xsd_ns f) (rf_target_ns f)) nm, k) (List.concat (map (defined []) its)).
Proof.
  intros (a & b & -> & E & L) O [T TN] H Hi I Hn Hd. destruct (parse_document u (a ++ n :: b)) as [PD _].
  destruct (proj1 (proj1 (PD a n b eq_refl E L) f) H) as (f0 & Hp & Hl).
  destruct (declaration_named u n f0 d nm O T Hp I Hn Hd) as (e0 & I0 & T0 & N0). destruct (named_linked _ _ Hl _ _ I0 T0 N0) as (e & Ie & Te & Ne).
  destruct (declared_named (format_name u) nm e Te Ne) as (k & Hk). exists k.
  destruct (file_defined u f _ _ Hi) as (-> & _). apply in_map_iff. exists ([], nm, k). split; auto. apply in_concat. eexists. split; [apply in_map; exact Ie|exact Hk].
Qed.
