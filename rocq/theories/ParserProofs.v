(** Proofs about the parser model. *)
From Coq Require Import Arith NArith ZArith Bool Ascii String List Lia.
From Coq Require Import ZifyBool ZifyNat ZifyN.
From Verif Require Import Str StrFacts SpecLex TzProofs Xml Names NamesProofs Entity Parser ParserFacts SpecSchema.
Import ListNotations.
Local Open Scope string_scope.
Local Open Scope list_scope.
Local Open Scope N_scope.
Arguments lit : simpl never.
Arguments tag_of : simpl never.

(** ** Documentation *)
Lemma lit_nonempty_tag t n : tag t n -> lit t <> [] -> is_element n = true.
Proof. unfold tag. intros H Ht. destruct n; auto; cbn in H; congruence. Qed.

Lemma find_first {A} (p : A -> bool) l c : find p l = Some c <->
  exists a b, l = a ++ c :: b /\ p c = true /\ forall y, In y a -> p y = false.
Proof.
  induction l as [|x l IH]; cbn.
  - split; [discriminate|]. intros (a & b & H & _). destruct a; discriminate.
  - destruct (p x) eqn:E.
    + split.
      * intros [= ->]. exists [], l. repeat split; auto. intros y [].
      * intros (a & b & H & Hc & Ha). destruct a as [|y a]; cbn in H; injection H as -> ->; auto.
        rewrite (Ha y (or_introl eq_refl)) in E. discriminate.
    + rewrite IH. split; intros (a & b & H & Hc & Ha).
      * exists (x :: a), b. subst l. repeat split; auto. intros y [->|Hy]; auto.
      * destruct a as [|y a]; cbn in H; injection H as -> ->; [congruence|]. exists a, b. repeat split; auto.
        intros z Hz. apply Ha. right; auto.
Qed.

Lemma find_child_iff n t c : lit t <> [] -> (find_child n (lit t) = Some c <-> first_child n t c).
Proof.
  intros Ht. unfold find_child, first_child. rewrite find_first.
  assert (E : forall y, (is_element y && str_eqb (tag_name y) (lit t)) = true <-> tag t y).
  { intros y. rewrite andb_true_iff, str_eqb_eq. split; [tauto|]. intros H; split; auto. eapply lit_nonempty_tag; eauto. }
  split; intros (a & b & H & Hc & Ha); exists a, b; (split; [auto|]); (split; [apply E; auto|]).
  - intros y Hy HT. apply E in HT. rewrite (Ha y Hy) in HT. discriminate.
  - intros y Hy. destruct (is_element y && _) eqn:B; auto. apply E in B. exfalso; eapply Ha; eauto.
Qed.

Lemma documented_iff n d : get_documentation n = Some d <-> documented n d.
Proof.
  unfold get_documentation, documented. split.
  - destruct (find_child n _) as [a|] eqn:E1; [|discriminate]. destruct (find_child a _) as [x|] eqn:E2; [|discriminate].
    apply find_child_iff in E1; [|discriminate]. apply find_child_iff in E2; [|discriminate]. intros H.
    assert (is_element x = true). { destruct E2 as (? & ? & _ & HT & _). eapply lit_nonempty_tag; [exact HT|discriminate]. }
    destruct x as [t at_ ns [|[| |] cs]| |]; try discriminate. cbn in H. injection H as ->.
    eexists a, _, cs. split; [auto|]. split; [eauto|reflexivity].
  - intros (a & x & r & H1 & H2 & H3). apply find_child_iff in H1; [|discriminate]. apply find_child_iff in H2; [|discriminate].
    rewrite H1, H2. destruct x; cbn in H3; try discriminate. subst. reflexivity.
Qed.

Lemma doc_ok n : comment_ok n (get_documentation n).
Proof.
  unfold comment_ok. destruct (get_documentation n) eqn:E; [apply documented_iff; auto|].
  intros d H. apply documented_iff in H. congruence.
Qed.
Lemma doc_unique n c : comment_ok n c <-> c = get_documentation n.
Proof.
  split; [|intros ->; apply doc_ok]. destruct c as [d|]; cbn.
  - intros H. apply documented_iff in H. auto.
  - intros H. destruct (get_documentation n) eqn:E; auto. apply documented_iff in E. exfalso; eapply H; eauto.
Qed.

(** ** Occurrences *)
Lemma parse_unsigned_iff max s k : parse_unsigned max s = Some k <->
  (num s k \/ exists t, s = lit "+" ++ t /\ num t k) /\ k <= max.
Proof.
  unfold parse_unsigned. cbv zeta.
  assert (D : forall ds, match ds with [] => None | _ :: _ => if forallb is_ascii_digit ds then
      if digits_val ds <=? max then Some (digits_val ds) else None else None end = Some k <->
     num ds k /\ k <= max).
  { intros ds. rewrite num_iff. destruct ds as [|d ds]; [split; [discriminate|intros [[H _] _]; congruence]|].
    destruct (forallb is_ascii_digit (d :: ds)) eqn:F.
    - destruct (digits_val (d :: ds) <=? max) eqn:R.
      + split; [intros [= <-]; repeat split; auto; [congruence|lia]|]. intros [(_ & _ & <-) _]; auto.
      + split; [discriminate|]. intros [(_ & _ & <-) H]. lia.
    - split; [discriminate|]. intros [(_ & H & _) _]. congruence. }
  destruct s as [|c s].
  - cbn [strip_prefix]. rewrite (D []). split; [intros [H _]|intros [[H|(t & H & _)] _]].
    + apply num_iff in H as [H _]; congruence.
    + apply num_iff in H as [H _]; congruence.
    + discriminate.
  - cbn [strip_prefix]. destruct (N.eqb_spec 43 c) as [<-|Nc].
    + rewrite (D s). split; intros [H B]; (split; [|auto]).
      * right. exists s. auto.
      * destruct H as [H|(t & E & H)].
        -- apply num_head_digit in H as (d & t & [= <- _] & Hd). lia.
        -- change (43 :: s = 43 :: t) in E. injection E as ->. auto.
    + rewrite (D (c :: s)). split; intros [H B]; (split; [|auto]); auto.
      destruct H as [H|(t & E & H)]; auto. change (c :: s = 43 :: t) in E. congruence.
Qed.

Lemma count_text_iff s k : parse_unsigned u64_max s = Some k <-> count_text s k.
Proof. rewrite parse_unsigned_iff. unfold count_text. change (2 ^ 64) with 18446744073709551616. unfold u64_max. split; intros [H B]; (split; [auto|lia]). Qed.
Lemma count_text_none s : parse_unsigned u64_max s = None <-> forall k, ~ count_text s k.
Proof.
  split.
  - intros H k C. apply count_text_iff in C. congruence.
  - intros H. destruct (parse_unsigned u64_max s) eqn:E; auto. apply count_text_iff in E. exfalso; eapply H; eauto.
Qed.

Lemma min_is_iff n k : min_is n k <-> min_occurs n = k.
Proof.
  unfold min_is, min_occurs, has. destruct (attribute n _) as [s|].
  - split.
    + intros [(s' & [= <-] & C)|(-> & C)].
      * apply count_text_iff in C. rewrite C. auto.
      * rewrite (proj2 (count_text_none s)); auto.
    + destruct (parse_unsigned u64_max s) eqn:E; cbn; intros <-.
      * left. exists s. split; auto. apply count_text_iff; auto.
      * right. split; auto. intros s' j [= <-]. apply count_text_none; auto.
  - split; [intros [(s' & [=] & _)|(-> & _)]; auto|]. intros <-. right. split; auto. discriminate.
Qed.

Lemma not_unbounded k : ~ count_text (lit "unbounded") k.
Proof. apply count_text_none. reflexivity. Qed.

Lemma max_known_iff n : max_known n <-> max_occurs n <> MaxNone.
Proof.
  unfold max_known, max_occurs, has. destruct (attribute n _) as [s|].
  - destruct (str_eqb_spec s (lit "unbounded")) as [->|Ne].
    + split; [discriminate|]. auto.
    + destruct (parse_unsigned u64_max s) eqn:E.
      * split; [discriminate|]. intros _. right. exists s, n0. split; auto. apply count_text_iff; auto.
      * split; [|congruence]. intros [[= H]|(s' & k & [= <-] & C)]; [congruence|]. apply count_text_iff in C. congruence.
  - split; [|congruence]. intros [H|(? & ? & H & _)]; discriminate.
Qed.
Lemma max_many_iff n : max_many n <-> max_occurs n = MaxUnbounded \/ exists v, max_occurs n = MaxBounded v /\ 1 < v.
Proof.
  unfold max_many, max_occurs, has. destruct (attribute n _) as [s|].
  - destruct (str_eqb_spec s (lit "unbounded")) as [->|Ne].
    + split; auto.
    + split.
      * intros [[= H]|(s' & k & [= <-] & C & B)]; [congruence|]. apply count_text_iff in C. rewrite C. eauto.
      * destruct (parse_unsigned u64_max s) eqn:E; (intros [H|(v & H & B)]; [discriminate|]); [|discriminate].
        injection H as <-. right. exists s, n0. split; auto. split; auto. apply count_text_iff; auto.
  - split; intros [H|H]; try discriminate; [destruct H as (? & ? & H & _)|destruct H as (? & H & _)]; discriminate.
Qed.

Lemma element_modifier_cases n : container n (element_modifier n).
Proof.
  unfold element_modifier.
  pose proof (max_known_iff n) as K. pose proof (max_many_iff n) as M.
  destruct (min_occurs n) as [|p] eqn:E1; [|destruct p as [p|p|]].
  - apply min_is_iff in E1. destruct (max_occurs n) as [v| |] eqn:E.
    + destruct (1 <? v) eqn:B.
      * apply c_vec. right. apply M. right. exists v. split; auto. lia.
      * apply c_plain; [|right; split; auto; apply K; discriminate]. rewrite M. intros [|(v' & [= <-] & ?)]; [discriminate|lia].
    + apply c_vec. right. apply M; auto.
    + apply c_option; auto. rewrite K. tauto.
  - apply c_vec. left. exists (N.pos p~1). split; [apply min_is_iff; auto|lia].
  - apply c_vec. left. exists (N.pos p~0). split; [apply min_is_iff; auto|lia].
  - apply min_is_iff in E1. destruct (max_occurs n) as [v| |] eqn:E.
    + destruct (1 <? v) eqn:B.
      * apply c_vec. right. apply M. right. exists v. split; auto. lia.
      * apply c_plain; auto. rewrite M. intros [|(v' & [= <-] & ?)]; [discriminate|lia].
    + apply c_vec. right. apply M; auto.
    + apply c_plain; auto. rewrite M. intros [|(v' & ? & ?)]; discriminate.
Qed.

Lemma min_unique n a b : min_is n a -> min_is n b -> a = b.
Proof. rewrite !min_is_iff. congruence. Qed.
Lemma max_many_known n : max_many n -> max_known n.
Proof. intros [H|(s & k & H & C & _)]; [left; auto|right; eauto]. Qed.

Lemma container_unique n a b : container n a -> container n b -> a = b.
Proof.
  intros Ha Hb; destruct Ha as [Ha|Ha Ha'|Ha Ha'], Hb as [Hb|Hb Hb'|Hb Hb']; auto; exfalso.
  - destruct Ha as [(k & Hk & B)|Ha]; [|apply Hb'; apply max_many_known; auto].
    pose proof (min_unique _ _ _ Hk Hb). lia.
  - destruct Ha as [(k & Hk & B)|Ha]; [|apply Hb; auto].
    destruct Hb' as [Hb'|[Hb' _]]; pose proof (min_unique _ _ _ Hk Hb'); lia.
  - destruct Hb as [(k & Hk & B)|Hb]; [|apply Ha'; apply max_many_known; auto].
    pose proof (min_unique _ _ _ Hk Ha). lia.
  - destruct Hb' as [Hb'|[Hb' Hk]]; [pose proof (min_unique _ _ _ Ha Hb'); lia|tauto].
  - destruct Hb as [(k & Hk & B)|Hb]; [|apply Ha; auto].
    destruct Ha' as [Ha'|[Ha' _]]; pose proof (min_unique _ _ _ Hk Ha'); lia.
  - destruct Ha' as [Ha'|[Ha' Hk]]; [pose proof (min_unique _ _ _ Hb Ha'); lia|tauto].
Qed.
Lemma container_iff n m : element_modifier n = m <-> container n m.
Proof.
  split; [intros <-; apply element_modifier_cases|]. intros H. eapply container_unique; [apply element_modifier_cases|auto].
Qed.

(** ** Enclosing names *)
Lemma not_schema p anc t : xsd_type p anc = Ok t -> is_kind KSchema t = false <-> ~ tag "schema" p.
Proof.
  intros H. rewrite (is_kind_tag _ _ _ KSchema H). unfold tag. destruct (tagb_spec KSchema p) as [E|E].
  - split; [discriminate|]. intros N0; exfalso; apply N0; exact E.
  - split; auto.
Qed.
Lemma parent_name_ok anc s : get_parent_name anc = Ok s -> enclosing anc s.
Proof.
  revert s; induction anc as [|p anc IH]; cbn [get_parent_name]; intros s.
  - intros [= <-]. constructor.
  - intros H. apply bind_ok in H as (t & Ht & H). destruct (is_kind KSchema t) eqn:K.
    + injection H as <-. apply enc_schema. rewrite (is_kind_tag _ _ _ KSchema Ht) in K. apply str_eqb_eq in K. exact K.
    + apply (not_schema _ _ _ Ht) in K. destruct (attribute p (lit "name")) eqn:A.
      * injection H as <-. apply enc_named; auto.
      * apply enc_up; auto.
Qed.
Lemma parent_name_total anc : Forall calm anc -> exists s, get_parent_name anc = Ok s.
Proof.
  induction 1 as [|p anc Hp _ IH]; cbn [get_parent_name]; [eauto|].
  destruct (Hp anc) as [t Ht]. rewrite Ht. cbn. destruct (is_kind KSchema t); [eauto|]. destruct (attribute p _); eauto.
Qed.
Lemma enclosing_unique anc a b : enclosing anc a -> enclosing anc b -> a = b.
Proof.
  intros H; revert b; induction H; intros b Hb; inversion Hb; subst; auto; try contradiction;
    unfold has, absent in *; congruence.
Qed.

(** ** Attributes *)
Lemma tag_kind k t n : tag_of k = lit t -> (tag t n <-> tagb k n = true).
Proof. intros E. unfold tag. rewrite <- E. split; [intros H; apply str_eqb_eq; auto|intros H; apply str_eqb_eq; auto]. Qed.

Lemma attr_use_iff n r : attr_use n = Ok r <->
  use_means n (match r with UseOptional => MOption | UseProhibited => MEmpty | UseRequired => MNone end).
Proof.
  unfold attr_use. destruct (attribute n (lit "use")) as [v|] eqn:A; cbn [unwrap_or]; cbv zeta.
  - repeat match goal with |- context [str_eqb v ?w] => destruct (str_eqb_spec v w) as [->|] end.
    + split; [intros [= <-]; constructor 2; auto|]. intros H. destruct r; auto; inversion H as [X|X|X|X]; unfold has in X; rewrite A in X; discriminate.
    + split; [intros [= <-]; constructor 3; auto|]. intros H. destruct r; auto; inversion H as [X|X|X|X]; unfold has, absent in X; rewrite A in X; discriminate.
    + split; [intros [= <-]; constructor 4; auto|]. intros H. destruct r; auto; inversion H as [X|X|X|X]; unfold has, absent in X; rewrite A in X; discriminate.
    + split; [discriminate|]. intros H. exfalso. destruct r; inversion H as [X|X|X|X]; unfold has, absent in X; rewrite A in X; try discriminate; injection X; auto.
  - change (str_eqb (lit "optional") (lit "optional")) with true. cbv iota. split.
    + intros [= <-]. constructor 1. auto.
    + intros H. destruct r; auto; inversion H as [X|X|X|X]; unfold has in X; rewrite A in X; discriminate.
Qed.

Lemma pick_or a b d : unwrap_or d (or_else a b) = pick a b d.
Proof. destruct a, b; reflexivity. Qed.

(** a local attribute *)
Lemma parse_attribute_iff n p anc ks e : calm p -> ~ tag "schema" p ->
  (parse_attribute n (p :: anc) ks = Ok e <->
   exists f, e = EField f /\ fl_source f = FromAttribute /\ fl_subtypes f = [] /\ fl_comment f = get_documentation n /\
     (has n "name" (fl_name f) \/ absent n "name" /\ has n "ref" (fl_name f)) /\
     fl_type f = pick (attribute n (lit "type")) (attribute n (lit "ref")) (lit "String") /\
     exists m, use_means n m /\ fl_mods f = [m]).
Proof.
  intros C S. unfold parse_attribute, parent_type. destruct (C anc) as [t Ht]. rewrite Ht. cbn [bind].
  rewrite (proj2 (not_schema _ _ _ Ht) S). rewrite bind_ok. unfold attr_name, attr_ref, attr_type.
  assert (NM : forall nm, expect (or_else (attribute n (lit "name")) (attribute n (lit "ref"))) = Ok nm <->
     (has n "name" nm \/ absent n "name" /\ has n "ref" nm)).
  { intros nm. rewrite expect_ok. unfold has, absent. destruct (attribute n (lit "name")); cbn; split; try tauto; intros [H|[H ?]]; congruence. }
  split.
  - intros (nm & Hn & H). apply NM in Hn. apply bind_ok in H as (use & Hu & [= <-]). apply attr_use_iff in Hu.
    eexists. split; [reflexivity|]. cbn. repeat split; auto; [apply pick_or|]. eexists; split; eauto.
  - intros (f & -> & H1 & H2 & H3 & H4 & H5 & m & Hm & H6). exists (fl_name f). split; [apply NM; auto|].
    apply bind_ok.
    assert (exists use, m = match use with UseOptional => MOption | UseProhibited => MEmpty | UseRequired => MNone end) as [use Em].
    { destruct Hm; [exists UseOptional|exists UseOptional|exists UseProhibited|exists UseRequired]; auto. }
    exists use. rewrite Em in Hm. split; [apply attr_use_iff; auto|]. rewrite <- Em. rewrite pick_or, <- H5.
    destruct f as [a b c d s ms]. cbn in *. subst. reflexivity.
Qed.

(** ** Lists, texts *)
Lemma last_opt_final {A} (l : list A) x : last_opt l = Some x <-> exists a, l = a ++ [x].
Proof.
  split; [|intros (a & ->); apply last_opt_app]. induction l as [|y l IH]; [discriminate|].
  destruct l as [|z l]; [intros [= ->]; exists []; auto|]. intros H. destruct (IH H) as (a & E). exists (y :: a). rewrite E. auto.
Qed.
Lemma starts_with_iff p s : starts_with p s = true <-> exists t, s = p ++ t.
Proof.
  revert s; induction p as [|c p IH]; intros s; cbn; [split; eauto|].
  destruct s as [|d s]; [split; [discriminate|intros (t & [=])]|]. rewrite andb_true_iff, N.eqb_eq, IH.
  split; [intros (-> & t & ->); eauto|intros (t & [= -> ->]); eauto].
Qed.
Lemma ends_with_iff p s : ends_with p s = true <-> suffix p s.
Proof.
  unfold ends_with, suffix. rewrite starts_with_iff. split; intros (t & E).
  - exists (rev t). rewrite <- (rev_involutive s), E, rev_app_distr, rev_involutive. auto.
  - exists (rev t). subst s. apply rev_app_distr.
Qed.

Lemma parse_node_calm u n anc e : parse_node u n anc = Ok e -> calm n.
Proof. rewrite parse_node_eq. unfold parse_step. intros H. apply bind_ok in H as (t & Ht & _). eapply calm_any; eauto. Qed.

Lemma filter_cong {A} (p q : A -> bool) l : (forall x, In x l -> p x = q x) -> filter p l = filter q l.
Proof. intros H. induction l as [|x l IH]; cbn; auto. rewrite (H x (or_introl eq_refl)), IH; auto. intros; apply H; right; auto. Qed.

(** the filters of the code are the ones of the specification *)
Lemma tagged_tagb k t : tag_of k = lit t -> forall n, tagged t n = tagb k n.
Proof. intros E n. unfold tagged, tagb. rewrite E. auto. Qed.
Lemma tags_tagged ks ts : map tag_of ks = map lit ts -> forall n, tags ks n = existsb (fun t => tagged t n) ts.
Proof.
  revert ts; induction ks as [|k ks IH]; intros [|t ts] E n; try discriminate; auto. injection E as E1 E2.
  change (tagb k n || tags ks n = tagged t n || existsb (fun t => tagged t n) ts). rewrite (IH ts E2), (tagged_tagb k t E1). auto.
Qed.
Lemma filter_tags ks ts n : map tag_of ks = map lit ts -> filter (tags ks) (children n) = tagged_children ts n.
Proof. intros E. apply filter_cong. intros x _. apply tags_tagged; auto. Qed.
Lemma filter_tags_e ks ts n : map tag_of ks = map lit ts ->
  filter (fun c => is_element c && tags ks c) (children n) = tagged_children ts n.
Proof.
  intros E. apply filter_cong. intros x _. rewrite <- (tags_tagged ks ts E). destruct (tags ks x) eqn:B; [|apply andb_false_r].
  rewrite (tags_element _ _ B). auto.
Qed.
Lemma filter_tagb_e k t n : tag_of k = lit t -> filter (fun c => is_element c && tagb k c) (children n) = tagged_children [t] n.
Proof.
  intros E. rewrite <- (filter_tags_e [k] [t]) by (cbn; congruence). apply filter_cong. intros x _. cbn. rewrite orb_false_r. auto.
Qed.
Lemma filter_tagb k t n : tag_of k = lit t -> filter (tagb k) (children n) = tagged_children [t] n.
Proof.
  intros E. rewrite <- (filter_tags [k] [t]) by (cbn; congruence). apply filter_cong. intros x _. cbn. rewrite orb_false_r. auto.
Qed.
Lemma filter_particles n : filter (fun c => is_element c && negb (tagb KAnnotation c)) (children n) = particles n.
Proof. apply filter_cong. intros x _. rewrite (tagged_tagb KAnnotation "annotation" eq_refl). auto. Qed.
Lemma by_tag_not_annotation : by_tag not_annotation (fun n => negb (tagb KAnnotation n)).
Proof. apply by_tag_not, by_tag_kind. Qed.

Lemma tagged_iff t n : tagged t n = true <-> tag t n.
Proof. unfold tagged, tag. apply str_eqb_eq. Qed.
Lemma in_tagged ts n c : In c (tagged_children ts n) <-> In c (children n) /\ one ts c.
Proof.
  unfold tagged_children, one. rewrite filter_In, existsb_exists. apply and_iff_compat_l.
  split; intros (t & H & E); exists t; split; auto; apply tagged_iff; auto.
Qed.
Lemma in_particles n c : In c (particles n) <-> In c (children n) /\ is_element c = true /\ ~ tag "annotation" c.
Proof.
  unfold particles. rewrite filter_In, andb_true_iff, negb_true_iff. apply and_iff_compat_l, and_iff_compat_l.
  rewrite <- tagged_iff. destruct (tagged "annotation" c); split; congruence.
Qed.

Ltac bk H x Hx := apply bind_ok in H as (x & Hx & H).

(** tag of a node decides the step *)
Lemma step_kind u n anc k : tag_name n = tag_of k ->
  parse_node u n anc = match k with
    | KAll | KSequence => parse_sequence n anc (kids u n anc)
    | KAny => Ok (parse_any n) | KAnyAttribute => Ok (parse_any_attribute n)
    | KAttribute => parse_attribute n anc (kids u n anc)
    | KAttributeGroup => parse_attribute_group n anc (kids u n anc)
    | KChoice => parse_choice n anc (kids u n anc)
    | KComplexContent | KSimpleContent => parse_content n anc (kids u n anc)
    | KComplexType => parse_complex_type n anc (kids u n anc)
    | KElement => parse_element n anc (kids u n anc)
    | KImport | KInclude => Ok (parse_import n)
    | KList => parse_list n (kids u n anc)
    | KSimpleType => parse_simple_type n anc (kids u n anc)
    | KUnion => parse_union n anc (kids u n anc)
    | _ => Panic
    end.
Proof.
  intros H. rewrite parse_node_eq. unfold parse_step. rewrite (xsd_kind _ _ _ H). cbn [bind]. destruct k; reflexivity.
Qed.

(** the two filters as facts about [Ok] results *)
Lemma elements_inv p q u n anc l : by_tag p q ->
  elements_where p (n :: anc) (kids u n anc) = Ok l ->
  Forall calm (children n) /\ l = map (fun c => (c, parse_node u c (n :: anc))) (filter (fun c => is_element c && q c) (children n)).
Proof. intros B H. apply (elements_where_ok p q) in H as [H ->]; auto. split; auto. apply calm_elements; auto. Qed.
Lemma nodes_inv p q u n anc l : by_tag p q ->
  nodes_where p (n :: anc) (kids u n anc) = Ok l ->
  Forall calm (children n) /\ l = map (fun c => (c, parse_node u c (n :: anc))) (filter q (children n)).
Proof. intros B H. apply (nodes_where_ok p q) in H as [H ->]; auto. Qed.

Lemma rmapm_kids {B} (g : kid -> res B) (f : node -> kid) l r :
  rmapm g (map f l) = Ok r -> Forall2 (fun c y => g (f c) = Ok y) l r.
Proof. intros H. apply rmapm_ok in H. apply (proj1 (Forall2_map_l f (fun x y => g x = Ok y) l r) H). Qed.

(** ** Attributes and attribute groups of a component *)
Lemma attribute_node u c p anc f : calm p -> ~ tag "schema" p ->
  one ["attribute"; "anyAttribute"] c -> parse_node u c (p :: anc) = Ok (EField f) -> attribute_field c f.
Proof.
  intros C S (t & [<-|[<-|[]]] & T) H.
  - rewrite (step_kind u c _ KAttribute) in H by exact T. apply parse_attribute_iff in H; auto.
    destruct H as (f' & [= <-] & H1 & H2 & H3 & H4 & H5 & H6). unfold attribute_field.
    split; auto. split; auto. split; [rewrite H3; apply doc_ok|]. split; auto.
    intros T'. unfold tag in *. rewrite T in T'. discriminate.
  - rewrite (step_kind u c _ KAnyAttribute) in H by exact T. injection H as <-. unfold attribute_field. cbn.
    split; auto. split; auto. split; [apply doc_ok|]. split; auto.
    intros T'. unfold tag in *. rewrite T in T'. discriminate.
Qed.

Lemma attributes_ok u n anc fs : ~ tag "schema" n -> calm n ->
  attributes_to_fields (n :: anc) (kids u n anc) = Ok fs ->
  Forall2 attribute_field (attribute_children n) fs /\ Forall calm (children n).
Proof.
  intros S C H. unfold attributes_to_fields in H. bk H l Hl.
  eapply nodes_inv in Hl; [|apply by_tag_one_of]; destruct Hl as [HC ->]. split; auto.
  rewrite (filter_tags _ ["attribute"; "anyAttribute"]) in H by reflexivity.
  apply rmapm_kids in H.
  eapply Forall2_imp; [|exact H]. intros c f Hc Hf. cbn in Hf. bk Hf e He. destruct e; try discriminate. injection Hf as ->.
  eapply attribute_node; eauto. apply in_tagged in Hc as [_ Hc]; auto.
Qed.

Lemma groups_ok u n anc gs : ~ tag "schema" n -> calm n ->
  attribute_groups_to_aliases (n :: anc) (kids u n anc) = Ok gs -> Forall2 group_ref (group_children n) gs.
Proof.
  intros S C H. unfold attribute_groups_to_aliases in H. bk H l Hl.
  eapply nodes_inv in Hl; [|apply by_tag_kind]; destruct Hl as [HC ->].
  rewrite (filter_tagb _ "attributeGroup") in H by reflexivity.
  apply rmapm_kids in H.
  eapply Forall2_imp; [|exact H]. intros c f Hc Hf. cbn in Hf. bk Hf e He. destruct e; try discriminate. injection Hf as ->.
  apply in_tagged in Hc as [_ (t & [<-|[]] & T)]. rewrite (step_kind u c _ KAttributeGroup) in He by exact T.
  unfold parse_attribute_group, parent_type in He. destruct (C anc) as [pt Hp]. rewrite Hp in He. cbn [bind] in He.
  rewrite (proj2 (not_schema _ _ _ Hp) S) in He. bk He r Hr. apply expect_ok in Hr. injection He as <-.
  unfold group_ref, has. cbn. repeat split; auto. apply doc_ok.
Qed.

(** ** Choice *)
Lemma parent_kind anc' p anc k : anc' = p :: anc -> tag_name p = tag_of k -> parent_type anc' = Ok (TKind k).
Proof. intros -> H. apply xsd_kind; auto. Qed.

Lemma case_ok c : exists k, parse_case_of_choice c = ECase k /\ choice_case c k.
Proof.
  unfold parse_case_of_choice, choice_case, attr_ref, attr_name, attr_type. cbv zeta.
  destruct (attribute c (lit "ref")) as [r|]; eexists; (split; [reflexivity|]); cbn;
    (split; [auto|]); (split; [auto|]); (split; [apply doc_ok|]); (split; [eexists; split; [apply element_modifier_cases|auto]|]); split; auto.
Qed.
Lemma choice_ok u n anc e : tag "choice" n -> parse_node u n anc = Ok e ->
  exists en, e = EEnum en /\ en_name en = [] /\ en_comment en = None /\ choice_enum n en.
Proof.
  intros T H. rewrite (step_kind u n _ KChoice) in H by exact T. unfold parse_choice in H. bk H l Hl.
  eapply elements_inv in Hl; [|apply by_tag_kind]; destruct Hl as [HC ->]. rewrite (filter_tagb_e _ "element") in H by reflexivity.
  bk H cs Hcs. injection H as <-. eexists. split; [reflexivity|]. cbn. split; auto. split; auto. unfold choice_enum. cbn.
  split; auto. split; auto. split; auto.
  apply rmapm_kids in Hcs.
  eapply Forall2_imp; [|exact Hcs]. intros c k Hc Hk. cbn in Hk. bk Hk e He. destruct e; try discriminate. injection Hk as ->.
  apply in_tagged in Hc as [_ (t & [<-|[]] & Tc)]. rewrite (step_kind u c _ KElement) in He by exact Tc.
  unfold parse_element in He. rewrite (parent_kind _ n anc KChoice eq_refl T) in He. cbn [bind] in He.
  destruct (case_ok c) as (k' & E & Hk). rewrite E in He. injection He as <-. auto.
Qed.

(** ** Sequence and all *)
Lemma entity_name_set_name nm e : entity_name (set_name nm e) = nm.
Proof. destruct e; reflexivity. Qed.

Lemma seq_element u c p anc e : one ["sequence"; "all"] p -> tag "element" c -> parse_node u c (p :: anc) = Ok e ->
  exists f, e = EField f /\ fl_name f = element_name c /\ fl_source f = FromElement /\ comment_ok c (fl_comment f) /\
    fl_mods f = [element_modifier c] /\
    match attribute c (lit "type"), attribute c (lit "ref") with
    | Some t, _ | None, Some t => fl_type f = t /\ fl_subtypes f = []
    | None, None =>
      exists t e, final (tagged_children ["simpleType"; "complexType"] c) t /\ parse_node u t (c :: p :: anc) = Ok e /\
        fl_type f = element_name c ++ lit "Type" /\ fl_subtypes f = [set_name (element_name c ++ lit "Type") e]
    end.
Proof.
  intros P T H. rewrite (step_kind u c _ KElement) in H by exact T. unfold parse_element in H.
  assert (H' : parse_field_of_sequence c (p :: anc) (kids u c (p :: anc)) = Ok e).
  { destruct P as (t & [<-|[<-|[]]] & Tp); [rewrite (parent_kind _ p anc KSequence eq_refl Tp) in H|rewrite (parent_kind _ p anc KAll eq_refl Tp) in H]; exact H. }
  clear H. rename H' into H. unfold parse_field_of_sequence in H. cbv zeta in H.
  assert (NM : unwrap_or (unwrap_or (lit "UNSUPPORTED_ELEMENT_NAME") (attr_ref c)) (attr_name c) = element_name c).
  { unfold element_name, attr_ref, attr_name, pick. destruct (attribute c (lit "name")), (attribute c (lit "ref")); auto. }
  rewrite NM in H. unfold has_attribute, attr_type, attr_ref in H.
  destruct (attribute c (lit "type")) as [ty|] eqn:Ety; [|destruct (attribute c (lit "ref")) as [r|] eqn:Er].
  - injection H as <-. eexists. split; [reflexivity|]. cbn. repeat split; auto. apply doc_ok.
  - injection H as <-. eexists. split; [reflexivity|]. cbn. repeat split; auto. apply doc_ok.
  - cbn [orb] in H. bk H l Hl. eapply nodes_inv in Hl; [|apply by_tag_one_of]; destruct Hl as [HC ->].
    rewrite (filter_tags _ ["simpleType"; "complexType"]) in H by reflexivity.
    bk H k Hk. apply expect_ok in Hk. rewrite last_opt_map in Hk.
    destruct (last_opt (tagged_children _ c)) as [t|] eqn:Lt; [|discriminate]. cbn in Hk. injection Hk as <-. cbn [snd] in H.
    bk H e' He. injection H as <-. eexists. split; [reflexivity|]. cbn. rewrite entity_name_set_name. repeat split; auto; [apply doc_ok|].
    exists t, e'. repeat split; auto. apply last_opt_final; auto.
Qed.

Lemma particle_ok u n anc P c e f : one ["sequence"; "all"] n -> In c (particles n) ->
  parse_node u c (n :: anc) = Ok e -> to_field P e = Ok f ->
  particle_field (fun t e => parse_node u t (c :: n :: anc) = Ok e) P c f.
Proof.
  intros Hn Hc He Hf. unfold particle_field. split; [|split]; intros T.
  - destruct (seq_element u c n anc e Hn T He) as (g & -> & H1 & H2 & H3 & H4 & H5). cbn in Hf. injection Hf as <-.
    destruct (ends_with P (fl_type g)) eqn:W; cbn.
    + apply ends_with_iff in W. repeat split; auto. rewrite H4.
      exists (element_modifier c), [MRecursive]. repeat split; auto; [apply element_modifier_cases|tauto].
    + assert (~ suffix P (fl_type g)) by (rewrite <- ends_with_iff; congruence).
      repeat split; auto. exists (element_modifier c), []. repeat split; auto; [apply element_modifier_cases|tauto].
  - rewrite (step_kind u c _ KAny) in He by exact T. injection He as <-. unfold parse_any in Hf. cbn [to_field fl_type] in Hf.
    injection Hf as <-. destruct (ends_with P (lit "String")); cbn; repeat split; auto; apply doc_ok.
  - destruct (choice_ok u c _ e T He) as (en & -> & _ & _ & K). cbn in Hf. injection Hf as <-. cbn.
    repeat split; auto. eexists. split; [reflexivity|]. split; auto.
Qed.

Lemma sequence_ok u n anc e : one ["sequence"; "all"] n -> parse_node u n anc = Ok e ->
  exists P s, e = EStruct s /\ enclosing anc P /\ st_name s = P /\ st_groups s = [] /\ st_subtypes s = [] /\
    (forall p r, anc = p :: r -> comment_ok p (st_comment s)) /\
    Forall2 (fun c f => particle_field (fun t e => parse_node u t (c :: n :: anc) = Ok e) P c f) (particles n) (st_fields s).
Proof.
  intros T H. assert (H' : parse_sequence n anc (kids u n anc) = Ok e).
  { destruct T as (t & [<-|[<-|[]]] & T); [rewrite (step_kind u n _ KSequence) in H by exact T|rewrite (step_kind u n _ KAll) in H by exact T]; exact H. }
  clear H. rename H' into H. unfold parse_sequence in H. bk H P HP. bk H fs Hfs. injection H as <-.
  exists P. eexists. split; [reflexivity|]. cbn. split; [apply parent_name_ok; auto|]. repeat split; auto.
  { intros p r ->. apply doc_ok. }
  unfold elements_to_fields in Hfs. bk Hfs l Hl. eapply elements_inv in Hl; [|apply by_tag_not_annotation]; destruct Hl as [_ ->].
  rewrite filter_particles in Hfs. apply rmapm_kids in Hfs.
  eapply Forall2_imp; [|exact Hfs]. intros c f Hc Hf. cbn in Hf. bk Hf e' He. eapply particle_ok; eauto.
Qed.

(** ** Complex types *)
Lemma has_elements_iff c : existsb is_element (children c) = true <-> has_elements c.
Proof. unfold has_elements. rewrite existsb_exists. tauto. Qed.
Lemma tag_neq a b n : lit a <> lit b -> tag a n -> ~ tag b n.
Proof. unfold tag. congruence. Qed.
Lemma last_kids (f : node -> kid) l k : last_opt (map f l) = Some k -> exists c, final l c /\ k = f c.
Proof.
  rewrite last_opt_map. destruct (last_opt l) as [c|] eqn:E; [|discriminate]. intros [= <-]. exists c. split; auto. apply last_opt_final; auto.
Qed.
Lemma final_unique l a b : final l a -> final l b -> a = b.
Proof. intros (x & ->) (y & E). apply app_inj_tail in E as [_ E]. auto. Qed.
Lemma final_in l a : final l a -> In a l.
Proof. intros (x & ->). apply in_or_app. right. left. auto. Qed.
Lemma final_none (f : node -> kid) l : last_opt (map f l) = None -> l = [].
Proof. rewrite last_opt_none. destruct l; [auto|discriminate]. Qed.

Definition complex_result (u : uni) (n : node) (anc : list node) (nm : str) (A : list (field entity)) (ec e : entity) : Prop :=
  match ec with
  | EStruct s0 => exists s, e = EStruct s /\ st_name s = nm /\ st_fields s = st_fields s0 ++ A /\
      st_groups s = st_groups s0 /\ st_subtypes s = st_subtypes s0 /\ st_comment s = st_comment s0
  | EEnum en0 => exists en s f, e = EEnum en /\ en_name en = nm ++ lit "Choice" /\ en_cases en = en_cases en0 /\
      en_source en = en_source en0 /\ en_type en = en_type en0 /\ en_comment en = en_comment en0 /\
      en_subtypes en = [EStruct s] /\ st_name s = nm /\ st_fields s = A ++ [f] /\ choice_field nm f /\
      Forall2 group_ref (group_children n) (st_groups s) /\ comment_ok n (st_comment s) /\ st_subtypes s = []
  | _ => e = ec
  end.
Lemma complex_ok u n anc e : tag "complexType" n -> parse_node u n anc = Ok e ->
  exists nm A, type_name n anc nm /\ Forall2 attribute_field (attribute_children n) A /\
    ((forall c, final (tagged_children content_tags n) c -> ~ has_elements c) ->
       exists s, e = EStruct s /\ st_name s = nm /\ st_fields s = A /\ st_subtypes s = [] /\
         Forall2 group_ref (group_children n) (st_groups s) /\ comment_ok n (st_comment s)) /\
    (forall c, final (tagged_children content_tags n) c -> has_elements c ->
       exists ec, parse_node u c (n :: anc) = Ok ec /\ complex_result u n anc nm A ec e).
Proof.
  intros T H. assert (NS : ~ tag "schema" n) by (eapply tag_neq; [|exact T]; discriminate).
  pose proof (parse_node_calm _ _ _ _ H) as C.
  rewrite (step_kind u n _ KComplexType) in H by exact T. unfold parse_complex_type in H.
  bk H pt Hpt. bk H nm Hnm. bk H A HA. bk H l Hl. exists nm, A.
  split.
  { unfold type_name. unfold parent_type in Hpt. destruct anc as [|p anc].
    - injection Hpt as <-. cbn [is_kind] in Hnm. apply parent_name_ok in Hnm. auto.
    - pose proof (not_schema _ _ _ Hpt) as NSp. destruct (is_kind KSchema pt).
      + apply expect_ok in Hnm. split; [auto|]. intros NT. apply NSp in NT. discriminate.
      + apply parent_name_ok in Hnm. split; [|auto]. intros TS. exfalso. apply NSp; auto. }
  split; [eapply attributes_ok; eauto|].
  eapply elements_inv in Hl; [|apply by_tag_one_of]; destruct Hl as [HC ->].
  rewrite (filter_tags_e _ content_tags) in H by reflexivity.
  assert (PL : forall r, bind (attribute_groups_to_aliases (n :: anc) (kids u n anc))
      (fun groups => Ok (EStruct {| st_name := nm; st_comment := get_documentation n; st_fields := A;
                                    st_groups := groups; st_subtypes := [] |})) = Ok r ->
      exists s, r = EStruct s /\ st_name s = nm /\ st_fields s = A /\ st_subtypes s = [] /\
         Forall2 group_ref (group_children n) (st_groups s) /\ comment_ok n (st_comment s)).
  { intros r Hr. bk Hr gs Hgs. injection Hr as <-. eexists. split; [reflexivity|]. cbn. repeat split; auto; [|apply doc_ok].
    eapply groups_ok; eauto. }
  destruct (last_opt _) as [k|] eqn:L.
  - apply last_kids in L as (c & Fc & ->). cbn [fst snd] in H. pose proof (has_elements_iff c) as HE.
    destruct (existsb is_element (children c)) eqn:X.
    + split; [intros N0; exfalso; eapply N0; [exact Fc|]; apply HE; auto|].
      intros c' Fc' _. rewrite (final_unique _ _ _ Fc' Fc) in *. bk H ec Hec. exists ec. split; auto.
      unfold finish_complex in H. unfold complex_result. destruct ec; try (injection H as <-; reflexivity).
      * injection H as <-. eexists. split; [reflexivity|]. cbn. repeat split; auto.
      * cbv zeta in H. bk H gs Hgs. injection H as <-. eexists _, _, _. split; [reflexivity|]. cbn.
        repeat (split; [solve [auto | reflexivity]|]). split; [unfold choice_field; cbn; repeat split; auto|].
        split; [eapply groups_ok; eauto|]. split; [apply doc_ok|auto].
    + split; [intros _; apply PL; auto|]. intros c' Fc' E. rewrite (final_unique _ _ _ Fc' Fc) in *. apply HE in E. discriminate.
  - apply final_none in L. rewrite L. split; [intros _; apply PL; auto|]. intros c (a & E). destruct a; discriminate.
Qed.

(** ** Derivations *)
Lemma base_ok n b : has n "base" b -> base_placeholder n (base_field n b).
Proof. intros H. unfold base_placeholder, base_field. cbn. repeat split; auto. apply doc_ok. Qed.

Lemma xsd_derivation n p anc (t : string) : In t ["extension"; "restriction"] -> tag t n ->
  xsd_type n (p :: anc) = Ok (if String.eqb t "extension" then extension_of (p :: anc) else restriction_of (p :: anc)).
Proof.
  intros [<-|[<-|[]]] T; unfold tag in T; unfold xsd_type; cbv zeta; rewrite T; reflexivity.
Qed.
Lemma step_derivation u n p anc (t : string) : In t ["extension"; "restriction"] -> tag t n -> tag "complexContent" p ->
  parse_node u n (p :: anc) = complex_derivation (if String.eqb t "extension" then extension_kinds else restriction_kinds)
    n (p :: anc) (kids u n (p :: anc)).
Proof.
  intros I T P. rewrite parse_node_eq. unfold parse_step. rewrite (xsd_derivation n p anc t I T).
  unfold tag in P. destruct I as [<-|[<-|[]]]; cbn [String.eqb Ascii.eqb Bool.eqb]; unfold extension_of, restriction_of; rewrite P; reflexivity.
Qed.
Lemma derivation_filter t n : In t ["extension"; "restriction"] ->
  filter (fun c => is_element c && (negb (tagb KAttribute c) && tags (if String.eqb t "extension" then extension_kinds else restriction_kinds) c)) (children n)
  = tagged_children (derivation_tags t) n.
Proof.
  intros I. 
  assert (E : exists ks, map tag_of ks = map lit (derivation_tags t) /\
     forall c, negb (tagb KAttribute c) && tags (if String.eqb t "extension" then extension_kinds else restriction_kinds) c = tags ks c).
  { assert (X : forall k c, k <> KAttribute -> tagb k c = true -> tagb KAttribute c = false).
    { intros k c N0 B. destruct (tagb_spec KAttribute c) as [E|]; auto. apply str_eqb_eq in B. rewrite E in B. apply tag_of_inj in B. congruence. }
    destruct I as [<-|[<-|[]]]; cbn [String.eqb Ascii.eqb Bool.eqb].
    - exists [KAll; KAttributeGroup; KChoice; KGroup; KSequence]. split; [reflexivity|]. intros c. unfold extension_kinds, tags. cbn [existsb].
      destruct (tagb KAttribute c) eqn:B; cbn [negb andb orb]; auto.
      symmetry. rewrite !orb_false_r. repeat (apply orb_false_iff; split); match goal with |- tagb ?k c = false => destruct (tagb k c) eqn:B'; auto; apply X in B'; [congruence|discriminate] end.
    - exists [KAll; KAnyAttribute; KAttributeGroup; KChoice; KGroup; KSequence]. split; [reflexivity|]. intros c. unfold restriction_kinds, tags. cbn [existsb].
      destruct (tagb KAttribute c) eqn:B; cbn [negb andb orb]; auto.
      symmetry. rewrite !orb_false_r. repeat (apply orb_false_iff; split); match goal with |- tagb ?k c = false => destruct (tagb k c) eqn:B'; auto; apply X in B'; [congruence|discriminate] end. }
  destruct E as (ks & E1 & E2). rewrite <- (filter_tags_e ks) by exact E1. apply filter_cong. intros x _. rewrite E2. auto.
Qed.

Lemma derivation_ok u n p anc e t : In t ["extension"; "restriction"] -> tag t n -> tag "complexContent" p ->
  parse_node u n (p :: anc) = Ok e ->
  exists s A b, e = EStruct s /\ Forall2 attribute_field (attribute_children n) A /\ base_placeholder n b /\
    st_subtypes s = [] /\ comment_ok n (st_comment s) /\
    (forall c, final (tagged_children (derivation_tags t) n) c -> one ["sequence"; "all"] c ->
       exists P F, enclosing (n :: p :: anc) P /\ st_fields s = F ++ A ++ [b] /\ st_groups s = [] /\
         Forall2 (fun x f => particle_field (fun t e => parse_node u t (x :: c :: n :: p :: anc) = Ok e) P x f) (particles c) F) /\
    ((forall c, final (tagged_children (derivation_tags t) n) c -> ~ one ["sequence"; "all"] c) ->
       st_fields s = A ++ [b] /\ Forall2 group_ref (group_children n) (st_groups s)).
Proof.
  intros I T Pc H. pose proof (parse_node_calm _ _ _ _ H) as C.
  assert (NS : ~ tag "schema" n) by (destruct I as [<-|[<-|[]]]; eapply tag_neq; try exact T; discriminate).
  rewrite (step_derivation u n p anc t I T Pc) in H. unfold complex_derivation in H. cbv zeta in H.
  bk H b Hb. bk H A HA. bk H l Hl. apply expect_ok in Hb.
  destruct (attributes_ok _ _ _ _ NS C HA) as [HA' HC].
  eapply elements_inv in Hl; [|apply by_tag_and; [apply by_tag_not, by_tag_kind|apply by_tag_one_of]]. destruct Hl as [_ ->].
  rewrite (derivation_filter t) in H by auto.
  assert (PL : forall r, bind (attribute_groups_to_aliases (n :: p :: anc) (kids u n (p :: anc)))
      (fun groups => Ok (EStruct {| st_name := []; st_comment := get_documentation n; st_fields := A ++ [base_field n b];
                                    st_groups := groups; st_subtypes := [] |})) = Ok r ->
      exists s, r = EStruct s /\ st_fields s = A ++ [base_field n b] /\ st_subtypes s = [] /\
         Forall2 group_ref (group_children n) (st_groups s) /\ comment_ok n (st_comment s)).
  { intros r Hr. bk Hr gs Hgs. injection Hr as <-. eexists. split; [reflexivity|]. cbn. repeat split; auto; [|apply doc_ok].
    eapply groups_ok; eauto. }
  destruct (last_opt _) as [k|] eqn:L.
  - apply last_kids in L as (c & Fc & ->). cbn [fst snd] in H. bk H ec Hec.
    assert (D : one ["sequence"; "all"] c \/ ~ one ["sequence"; "all"] c).
    { unfold one. destruct (str_eqb_spec (tag_name c) (lit "sequence")); [left; eexists; split; [left; reflexivity|auto]|].
      destruct (str_eqb_spec (tag_name c) (lit "all")); [left; eexists; split; [right; left; reflexivity|auto]|].
      right. intros (x & [<-|[<-|[]]] & E); contradiction. }
    destruct D as [D|D].
    + destruct (sequence_ok _ _ _ _ D Hec) as (P & s & -> & HP & Hn & Hg & Hs & _ & HF). injection H as <-.
      eexists _, A, (base_field n b). split; [reflexivity|]. split; auto. split; [apply base_ok; auto|]. cbn.
      split; auto. split; [apply doc_ok|]. split.
      * intros c' Fc' _. rewrite (final_unique _ _ _ Fc' Fc) in *. exists P, (st_fields s). repeat split; auto.
      * intros N0. exfalso. eapply N0; eauto.
    + assert (PS : exists s, e = EStruct s /\ st_fields s = A ++ [base_field n b] /\ st_subtypes s = [] /\
         Forall2 group_ref (group_children n) (st_groups s) /\ comment_ok n (st_comment s)).
      { destruct ec; try (apply PL; exact H). exfalso. apply final_in in Fc. apply in_tagged in Fc as [_ (x & Hx & Tx)].
        revert Hec. unfold derivation_tags in Hx.
        assert (Hx' : In x ["all"; "anyAttribute"; "attributeGroup"; "choice"; "group"; "sequence"]) by (destruct (String.eqb t "restriction"); cbn in *; tauto).
        clear Hx. unfold one in D. destruct Hx' as [<-|[<-|[<-|[<-|[<-|[<-|[]]]]]]].
        - exfalso; apply D; eexists; split; [right; left; reflexivity|exact Tx].
        - rewrite (step_kind u c _ KAnyAttribute) by exact Tx. discriminate.
        - rewrite (step_kind u c _ KAttributeGroup) by exact Tx. unfold parse_attribute_group, parent_type.
          destruct (C (p :: anc)) as [pt Hpt]. rewrite Hpt. cbn [bind]. rewrite (proj2 (not_schema _ _ _ Hpt) NS).
          destruct (attr_ref c); discriminate.
        - intros Hec. apply choice_ok in Hec; [|exact Tx]. destruct Hec as (? & ? & _). discriminate.
        - rewrite (step_kind u c _ KGroup) by exact Tx. discriminate.
        - exfalso; apply D; eexists; split; [left; reflexivity|exact Tx]. }
      destruct PS as (s & -> & H1 & H2 & H3 & H4). exists s, A, (base_field n b). repeat split; auto; try apply doc_ok.
      intros c' Fc' O. rewrite (final_unique _ _ _ Fc' Fc) in *. contradiction.
  - apply final_none in L. rewrite L. destruct (PL _ H) as (s & -> & H1 & H2 & H3 & H4).
    exists s, A, (base_field n b). repeat split; auto; try apply doc_ok. intros c (a & E). destruct a; discriminate.
Qed.

Lemma simple_extension_ok u n p anc e : tag "extension" n -> tag "simpleContent" p ->
  parse_node u n (p :: anc) = Ok e ->
  exists s A b, e = EStruct s /\ Forall2 attribute_field (attribute_children n) A /\ base_placeholder n b /\
    st_subtypes s = [] /\ comment_ok n (st_comment s) /\ st_fields s = A ++ [b] /\
    Forall2 group_ref (group_children n) (st_groups s).
Proof.
  intros T Pc H. pose proof (parse_node_calm _ _ _ _ H) as C.
  assert (NS : ~ tag "schema" n) by (eapply tag_neq; try exact T; discriminate).
  rewrite parse_node_eq in H. unfold parse_step in H. rewrite (xsd_derivation n p anc "extension") in H; [|left; auto|auto].
  cbn [String.eqb Ascii.eqb Bool.eqb] in H. unfold extension_of in H. unfold tag in Pc. rewrite Pc in H.
  change (simple_content_extension n (p :: anc) (kids u n (p :: anc)) = Ok e) in H. unfold simple_content_extension in H.
  bk H b Hb. bk H A HA. bk H gs Hg. injection H as <-. apply expect_ok in Hb.
  eexists _, A, (base_field n b). split; [reflexivity|]. cbn.
  split; [eapply attributes_ok; eauto|]. split; [apply base_ok; auto|]. split; auto. split; [apply doc_ok|]. split; auto. eapply groups_ok; eauto.
Qed.

(** the derivation is the last non-annotation child of the content *)
Lemma content_ok u n anc e : one ["complexContent"; "simpleContent"] n -> parse_node u n anc = Ok e ->
  exists c, final (particles n) c /\ parse_node u c (n :: anc) = Ok e.
Proof.
  intros T H. assert (H' : parse_content n anc (kids u n anc) = Ok e).
  { destruct T as (t & [<-|[<-|[]]] & T); [rewrite (step_kind u n _ KComplexContent) in H by exact T|rewrite (step_kind u n _ KSimpleContent) in H by exact T]; exact H. }
  unfold parse_content in H'. bk H' l Hl. eapply elements_inv in Hl; [|apply by_tag_not_annotation]. destruct Hl as [_ ->].
  rewrite filter_particles in H'. bk H' k Hk. apply expect_ok in Hk. apply last_kids in Hk as (c & Fc & ->). eauto.
Qed.

(** ** Restrictions of simple types *)
Lemma facet_of_type c f anc : facet_of c f -> xsd_type c anc = Ok (TFacet f).
Proof.
  intros H. unfold xsd_type, white_space_of, attr_value. cbv zeta.
  destruct H as [n v T V|n v T V|n v T V|n v T V|n v T V|n v T V|n v T V|n v T V|n v T V|n v T V|n v T V|n T V|n T V|n T V];
    unfold tag, has in *; rewrite T.
  all: try (change (attribute n (lit "value")) with (attribute n (lit "value")); cbv - [attribute lit]; fail).
  all: try (match goal with |- context [assoc (lit ?t) kind_tags] => change (assoc (lit t) kind_tags) with (@None kind) end; cbv iota beta;
    match goal with |- context [assoc (lit ?t) facet_tags] => 
      change (str_eqb (lit t) (lit "extension")) with false; change (str_eqb (lit t) (lit "restriction")) with false; change (str_eqb (lit t) (lit "whiteSpace")) with false end;
    cbv iota beta; rewrite V; reflexivity).
  all: change (assoc (lit "whiteSpace") kind_tags) with (@None kind); cbv iota beta;
    change (str_eqb (lit "whiteSpace") (lit "extension")) with false; change (str_eqb (lit "whiteSpace") (lit "restriction")) with false;
    change (str_eqb (lit "whiteSpace") (lit "whiteSpace")) with true; cbv iota beta; rewrite V; reflexivity.
Qed.
Lemma facet_type_of c f anc : xsd_type c anc = Ok (TFacet f) -> facet_of c f.
Proof.
  unfold xsd_type, attr_value. cbv zeta. destruct (assoc (tag_name c) kind_tags); [discriminate|].
  destruct (str_eqb (tag_name c) (lit "extension")); [unfold extension_of; destruct anc as [|p ?]; [discriminate|]; destruct (str_eqb (tag_name p) _); [discriminate|]; destruct (str_eqb (tag_name p) _); discriminate|].
  destruct (str_eqb (tag_name c) (lit "restriction")).
  { unfold restriction_of; destruct anc as [|p ?]; [discriminate|]; repeat (destruct (str_eqb (tag_name p) _); [discriminate|]); discriminate. }
  destruct (str_eqb_spec (tag_name c) (lit "whiteSpace")) as [T|_].
  - unfold white_space_of, attr_value. destruct (attribute c (lit "value")) as [v|] eqn:V; [|discriminate].
    destruct (str_eqb_spec v (lit "preserve")) as [->|]; [intros [= <-]; apply fo_ws_p; auto|].
    destruct (str_eqb_spec v (lit "replace")) as [->|]; [intros [= <-]; apply fo_ws_r; auto|].
    destruct (str_eqb_spec v (lit "collapse")) as [->|]; [intros [= <-]; apply fo_ws_c; auto|]. discriminate.
  - destruct (assoc (tag_name c) facet_tags) as [g|] eqn:A; [|discriminate]. apply assoc_In in A.
    destruct (attribute c (lit "value")) as [v|] eqn:V; [|discriminate]. intros [= <-].
    cbn in A. repeat (destruct A as [[= T <-]|A]; [symmetry in T; constructor; auto|]). destruct A.
Qed.
Lemma facet_tagged c f : facet_of c f -> one facet_names c.
Proof. intros H. destruct H; (eexists; split; [|eassumption]); cbn; tauto. Qed.
Lemma facet_tag_type c anc t : xsd_type c anc = Ok t -> one facet_names c -> exists f, t = TFacet f.
Proof.
  intros H (x & I & T). revert H. unfold xsd_type, attr_value. cbv zeta. unfold tag in T. rewrite T.
  destruct I as [<-|[<-|[<-|[<-|[<-|[<-|[<-|[<-|[<-|[<-|[<-|[<-|[]]]]]]]]]]]]].
  all: match goal with |- context [assoc (lit ?t) kind_tags] => change (assoc (lit t) kind_tags) with (@None kind) end; cbv iota beta;
    match goal with |- context [assoc (lit ?t) facet_tags] => 
      let r := eval vm_compute in (str_eqb (lit t) (lit "whiteSpace")) in
      change (str_eqb (lit t) (lit "extension")) with false; change (str_eqb (lit t) (lit "restriction")) with false; change (str_eqb (lit t) (lit "whiteSpace")) with r end;
    cbv iota beta.
  all: try (destruct (attribute c (lit "value")); [|discriminate]; intros [= <-]; cbn; eexists; reflexivity).
  all: try (cbn - [lit]; destruct (attribute c (lit "value")); [intros [= <-]; eexists; reflexivity|discriminate]).
  unfold white_space_of, attr_value. destruct (attribute c (lit "value")) as [v|]; [|discriminate].
  repeat (destruct (str_eqb v _); [intros [= <-]; eexists; reflexivity|]). discriminate.
Qed.
Lemma one_dec ts c : existsb (fun t => tagged t c) ts = true <-> one ts c.
Proof. rewrite existsb_exists. unfold one. split; intros (t & H & E); exists t; split; auto; apply tagged_iff; auto. Qed.

Lemma facets_ok u n anc cs fs : facets (n :: anc) (map (fun c => (c, parse_node u c (n :: anc))) cs) = Ok fs ->
  Forall2 facet_ok (filter (fun c => existsb (fun t => tagged t c) facet_names) cs) fs /\ Forall calm cs.
Proof.
  revert fs; induction cs as [|c cs IH]; intros fs H; cbn [facets map fst] in H.
  - injection H as <-. split; constructor.
  - bk H t Ht. bk H l Hl. injection H as <-. destruct (IH _ Hl) as [H1 H2]. split; [|constructor; auto; eapply calm_any; eauto].
    cbn [filter]. pose proof (one_dec facet_names c) as D. destruct (existsb _ facet_names).
    + destruct (facet_tag_type _ _ _ Ht (proj1 D eq_refl)) as (f & ->). constructor; auto.
      split; [eapply facet_type_of; eauto|apply doc_ok].
    + destruct t; auto. exfalso. apply facet_type_of in Ht. apply facet_tagged in Ht. apply D in Ht. discriminate.
Qed.

Lemma facet_enum c f : facet_of c f -> (exists v, f = FEnumeration v) <-> tag "enumeration" c.
Proof.
  intros H. split.
  - intros (v & ->). inversion H; auto.
  - intros T. destruct H; eauto; exfalso; unfold tag in *; match goal with H1 : tag_name ?m = _, H2 : tag_name ?m = _ |- _ => rewrite H1 in H2; discriminate H2 end.
Qed.
Lemma enum_value c v : facet_of c (FEnumeration v) -> has c "value" v.
Proof. intros H; inversion H; auto. Qed.

Lemma filter_filter {A} (p q : A -> bool) l : (forall x, q x = true -> p x = true) -> filter q (filter p l) = filter q l.
Proof.
  intros H. induction l as [|x l IH]; cbn; auto. destruct (p x) eqn:P; cbn.
  - rewrite IH; auto.
  - destruct (q x) eqn:Q; auto. apply H in Q. congruence.
Qed.
Lemma enumeration_children n : filter (tagged "enumeration") (tagged_children facet_names n) = tagged_children ["enumeration"] n.
Proof.
  unfold tagged_children. rewrite filter_filter.
  - apply filter_cong. intros x _. cbn. rewrite orb_false_r. auto.
  - intros x H. cbn. rewrite H. auto.
Qed.
Lemma cases_ok cs fs : Forall2 facet_ok cs fs -> Forall2 enum_of_value (filter (tagged "enumeration") cs) (cases fs).
Proof.
  induction 1 as [|c f cs fs [Hf Hc] _ IH]; cbn; [constructor|]. pose proof (facet_enum _ _ Hf) as E.
  pose proof (tagged_iff "enumeration" c) as T. destruct (tagged "enumeration" c).
  - destruct (proj2 E (proj1 T eq_refl)) as (v & Ev). rewrite Ev in *. constructor; auto.
    unfold enum_of_value. cbn. split; [apply enum_value; auto|]. repeat split; auto.
  - destruct (fa_type f) eqn:Ef; auto. exfalso. assert (tag "enumeration" c) by (apply E; eauto). apply T in H. discriminate.
Qed.
Lemma plain_value_iff u v : is_simple_enumeration u v = true <-> plain_value u v.
Proof.
  unfold is_simple_enumeration, plain_value. rewrite andb_true_iff, negb_true_iff, forallb_forall.
  split; intros [H1 H2]; split.
  - destruct v; [discriminate|congruence].
  - intros c Hc. specialize (H2 c Hc). apply orb_true_iff in H2 as [|H2]; auto. right. lia.
  - destruct v; [congruence|auto].
  - intros c Hc. apply orb_true_iff. destruct (H2 c Hc) as [|]; auto. right. lia.
Qed.
Lemma simple_enumerations_iff u cs fs : Forall2 facet_ok cs fs ->
  (is_simple_enumerations u fs = true <->
   forall c, In c (filter (tagged "enumeration") cs) -> exists v, has c "value" v /\ plain_value u v).
Proof.
  unfold is_simple_enumerations. induction 1 as [|c f cs fs [Hf Hc] _ IH]; cbn; [split; [tauto|auto]|].
  rewrite andb_true_iff, IH. clear IH. pose proof (facet_enum _ _ Hf) as E. pose proof (tagged_iff "enumeration" c) as T.
  destruct (tagged "enumeration" c).
  - destruct (proj2 E (proj1 T eq_refl)) as (v & Ev). rewrite Ev in *. pose proof (enum_value _ _ Hf) as HV. rewrite plain_value_iff. split.
    + intros [H1 H2] c' [<-|I]; eauto.
    + intros H. split; [|intros; apply H; right; auto]. destruct (H c (or_introl eq_refl)) as (v' & V & P). unfold has in *. congruence.
  - assert (match fa_type f with FEnumeration v => is_simple_enumeration u v | _ => true end = true) as ->.
    { destruct (fa_type f) eqn:Ef; auto. exfalso. assert (tag "enumeration" c) by (apply E; eauto). apply T in H. discriminate. }
    tauto.
Qed.

Lemma step_simple_restriction u n p anc : tag "restriction" n -> tag "simpleType" p ->
  parse_node u n (p :: anc) = simple_type_restriction u n (p :: anc) (kids u n (p :: anc)).
Proof.
  intros T P. rewrite parse_node_eq. unfold parse_step. rewrite (xsd_derivation n p anc "restriction"); [|right; left; auto|auto].
  cbn [String.eqb Ascii.eqb Bool.eqb]. unfold restriction_of. unfold tag in P. rewrite P. reflexivity.
Qed.
Lemma restriction_ok u n p anc e : tag "restriction" n -> tag "simpleType" p ->
  parse_node u n (p :: anc) = Ok e ->
  exists b, has n "base" b /\
    (plain_enumeration u n -> exists P en, e = EEnum en /\ enclosing (p :: anc) P /\ en_name en = P ++ lit "Enum" /\
       en_type en = b /\ en_source en = OfRestriction /\ en_subtypes en = [] /\
       Forall2 enum_of_value (tagged_children ["enumeration"] n) (en_cases en)) /\
    (~ plain_enumeration u n -> exists t, e = ETuple t /\ tu_type t = b /\ tu_mods t = [] /\ tu_subtypes t = [] /\
       Forall2 facet_ok (tagged_children facet_names n) (tu_facets t)).
Proof.
  intros T P H. rewrite step_simple_restriction in H by auto. unfold simple_type_restriction in H.
  bk H b Hb. bk H fs Hfs. cbv zeta in H. apply expect_ok in Hb. exists b. split; auto.
  unfold kids in Hfs. apply facets_ok in Hfs as [HF _]. change (Forall2 facet_ok (tagged_children facet_names n) fs) in HF.
  pose proof (cases_ok _ _ HF) as HC. rewrite enumeration_children in HC.
  pose proof (simple_enumerations_iff u _ _ HF) as HS. rewrite enumeration_children in HS.
  assert (X : is_simple_enumerations u fs && negb (is_empty (cases fs)) = true <-> plain_enumeration u n).
  { unfold plain_enumeration. rewrite andb_true_iff, HS.
    assert (Y : negb (is_empty (cases fs)) = true <-> exists c, In c (tagged_children ["enumeration"] n)).
    { inversion HC as [E1 E2|c k cs ks ? ? E1 E2]; cbn; split; try discriminate; eauto.
      - intros (c & []). }
    rewrite Y. tauto. }
  destruct (is_simple_enumerations u fs && negb (is_empty (cases fs))).
  - split; [|intros N0; exfalso; apply N0, X; auto]. intros _. bk H pn Hpn. injection H as <-.
    exists pn. eexists. split; [reflexivity|]. cbn. split; [apply parent_name_ok; auto|]. repeat split; auto.
  - injection H as <-. split; [intros Y; apply X in Y; discriminate|]. intros _. eexists. split; [reflexivity|]. cbn. auto.
Qed.

(** ** Lists and unions *)
Lemma blank_tokens_ok s : blank_tokens s (filter (fun t => negb (is_empty t)) (split_on 32 s)).
Proof.
  assert (G : forall k s, (List.length s <= k)%nat -> blank_tokens s (filter (fun t => negb (is_empty t)) (split_on 32 s))).
  { induction k as [|k IH]; intros w L.
    - destruct w; [|cbn in L; lia]. apply (bt_end []). intros [].
    - destruct (in_dec N.eq_dec 32 w) as [I|I].
      + apply in_split in I as (a & b & ->).
        assert (exists a' b', a ++ 32 :: b = a' ++ 32 :: b' /\ ~ In 32 a') as (a' & b' & E & N0).
        { clear. induction a as [|c a IH]; [exists [], b; split; [auto|intros []]|]. destruct (N.eq_dec c 32) as [->|Nc].
          - exists [], (a ++ 32 :: b). split; [auto|intros []].
          - destruct IH as (a' & b' & E & N0). exists (c :: a'), b'. split; [cbn; congruence|]. intros [|]; auto. }
        rewrite E in *. rewrite split_on_app by auto. 
        assert (B : blank_tokens b' (filter (fun t => negb (is_empty t)) (split_on 32 b'))).
        { apply IH. rewrite app_length in L. cbn in L. lia. }
        pose proof (bt_more a' b' _ N0 B) as R. destruct a'; exact R.
      + rewrite split_on_none by auto. pose proof (bt_end w I) as R. destruct w; exact R. }
  eapply G. reflexivity.
Qed.
Lemma blank_tokens_unique s a b : blank_tokens s a -> blank_tokens s b -> a = b.
Proof.
  intros H; revert b; induction H as [t Ht|t s ts Ht H IH]; intros b Hb.
  - remember t as w eqn:E. destruct Hb as [w Hw|w s' ts' Hw Hb]; auto. exfalso. subst t. apply Ht. apply in_or_app. right. left. auto.
  - remember (t ++ 32 :: s) as w eqn:E. destruct Hb as [w Hw|w s' ts' Hw Hb].
    + exfalso. subst w. apply Hw. apply in_or_app. right. left. auto.
    + assert (w = t /\ s' = s) as [-> ->].
      { revert t Ht E. clear - Hw. induction w as [|c w IH]; intros [|d t] Ht E; cbn in E.
        - injection E; auto.
        - injection E as <- _. exfalso. apply Ht. left; auto.
        - injection E as -> _. exfalso. apply Hw. left; auto.
        - injection E as -> E. destruct (IH (fun X => Hw (or_intror X)) t (fun X => Ht (or_intror X)) E). subst. auto. }
      rewrite (IH _ Hb). auto.
Qed.

Lemma index_text_dec k : index_text (dec k) k.
Proof.
  split; [apply num_dec|]. destruct (dec_spec k) as (_ & _ & _ & H1 & H2). split; [|auto]. intros ->. apply H2; auto.
Qed.

Lemma nested_ok u n anc cs i subs :
  union_subtypes i (map (fun c => (c, parse_node u c (n :: anc))) cs) = Ok subs ->
  nested (fun c e => parse_node u c (n :: anc) = Ok e) i cs (union_sub_cases i subs) subs.
Proof.
  revert i subs; induction cs as [|c cs IH]; intros i subs H; cbn [map union_subtypes snd] in H.
  - injection H as <-. constructor.
  - bk H e He. bk H l Hl. injection H as <-. cbn [union_sub_cases]. rewrite entity_name_set_name. constructor; auto.
    + apply index_text_dec.
    + unfold member_case, union_case. cbn. repeat split; auto.
Qed.
Lemma members_ok m : exists ts, blank_tokens m ts /\ Forall2 (fun t k => member_case t t k) ts (create_enum_cases m).
Proof.
  eexists. split; [apply blank_tokens_ok|]. unfold create_enum_cases. induction (filter _ _) as [|t ts IH]; cbn; constructor; auto.
  unfold member_case. cbn. repeat split; auto.
Qed.

Lemma union_ok u n anc e : tag "union" n -> parse_node u n anc = Ok e ->
  exists A, Forall2 attribute_field (attribute_children n) A /\
    (attribute_children n = [] -> exists en, e = EEnum en /\ en_name en = [] /\
       union_enum (fun c e => parse_node u c (n :: anc) = Ok e) n en) /\
    (attribute_children n <> [] -> exists s f P en, e = EStruct s /\ st_name s = [] /\ st_fields s = A ++ [f] /\
       enclosing anc P /\ fl_name f = P ++ lit "Choice" /\ fl_type f = P ++ lit "Choice" /\ fl_source f = FromElement /\
       fl_subtypes f = [EEnum en] /\ en_name en = P ++ lit "Choice" /\
       union_enum (fun c e => parse_node u c (n :: anc) = Ok e) n en).
Proof.
  intros T H. pose proof (parse_node_calm _ _ _ _ H) as C. assert (NS : ~ tag "schema" n) by (eapply tag_neq; try exact T; discriminate).
  rewrite (step_kind u n _ KUnion) in H by exact T. unfold parse_union in H. cbv zeta in H.
  bk H l Hl. eapply elements_inv in Hl; [|apply by_tag_kind]. destruct Hl as [_ ->].
  rewrite (filter_tagb_e _ "simpleType") in H by reflexivity. bk H subs Hs. apply nested_ok in Hs. bk H A HA.
  destruct (attributes_ok _ _ _ _ NS C HA) as [HA' _]. exists A. split; auto.
  assert (U : forall nm, union_enum (fun c e => parse_node u c (n :: anc) = Ok e) n
      {| en_name := nm; en_cases := match attribute n (lit "memberTypes") with Some m => create_enum_cases m | None => [] end ++ union_sub_cases 0 subs;
         en_comment := get_documentation n; en_type := lit "String"; en_subtypes := subs; en_source := OfUnion |}).
  { intros nm. unfold union_enum, member_tokens. cbn. split; auto. split; auto. split; [apply doc_ok|].
    destruct (attribute n (lit "memberTypes")) as [m|].
    - destruct (members_ok m) as (ts & B & F). exists ts, (create_enum_cases m), (union_sub_cases 0 subs). auto.
    - exists [], [], (union_sub_cases 0 subs). repeat split; auto. }
  destruct A as [|a A].
  - injection H as <-. inversion HA' as [E|]. split; [|congruence]. intros _. eexists. split; [reflexivity|]. split; [reflexivity|apply U].
  - bk H pn Hpn. injection H as <-. split; [intros E; rewrite E in HA'; inversion HA'|]. intros _.
    eexists _, _, pn, _. split; [reflexivity|]. cbn [st_name st_set_fields empty_struct st_fields]. split; auto. split; [reflexivity|].
    split; [apply parent_name_ok; auto|]. cbn [enum_to_field fl_name fl_type fl_source fl_subtypes en_name].
    repeat (split; [reflexivity|]). apply U.
Qed.

Lemma find_kids (f : node -> kid) (q : kid -> bool) (q' : node -> bool) l : (forall c, q (f c) = q' c) ->
  find q (map f l) = option_map f (find q' l).
Proof. intros E. induction l as [|c l IH]; cbn; auto. rewrite E. destruct (q' c); auto. Qed.
Lemma list_ok u n anc e : tag "list" n -> parse_node u n anc = Ok e ->
  exists t, e = ETuple t /\
    (forall it, has n "itemType" it -> tu_type t = it /\ tu_mods t = [MArray] /\ tu_subtypes t = [] /\ tu_facets t = []) /\
    (absent n "itemType" -> exists c ec, first_child n "simpleType" c /\ parse_node u c (n :: anc) = Ok ec /\
       ((exists en, ec = EEnum en /\ tu_type t = en_name en /\ tu_mods t = [MArray] /\ tu_subtypes t = [EEnum en] /\ tu_facets t = []) \/
        (exists t0, ec = ETuple t0 /\ tu_type t = tu_type t0 /\ tu_mods t = tu_mods t0 ++ [MArray] /\
           tu_subtypes t = tu_subtypes t0 /\ tu_facets t = tu_facets t0))).
Proof.
  intros T H. rewrite (step_kind u n _ KList) in H by exact T. unfold parse_list in H. bk H t Ht. injection H as <-.
  eexists. split; [reflexivity|]. cbn [tu_type tu_mods tu_subtypes tu_facets]. unfold has, absent.
  destruct (attribute n (lit "itemType")) as [it|] eqn:A.
  - injection Ht as <-. cbn. split; [|discriminate]. intros it' [= <-]. auto.
  - split; [discriminate|]. intros _. unfold kids in Ht.
    rewrite (find_kids _ _ (fun e => is_element e && str_eqb (tag_name e) (lit "simpleType"))) in Ht by auto.
    change (find (fun e => is_element e && str_eqb (tag_name e) (lit "simpleType")) (children n)) with (find_child n (lit "simpleType")) in Ht.
    destruct (find_child n (lit "simpleType")) as [c|] eqn:F; [|discriminate]. cbn [option_map expect bind snd] in Ht.
    apply find_child_iff in F; [|discriminate]. bk Ht ec He. exists c, ec. split; auto. split; auto.
    destruct ec; try discriminate; injection Ht as <-; [right|left]; eexists; (split; [reflexivity|]); cbn; auto.
Qed.

(** ** Simple types *)
Lemma simple_type_ok u n p anc e : tag "simpleType" n -> parse_node u n (p :: anc) = Ok e ->
  exists c e0, final (particles n) c /\ parse_node u c (n :: p :: anc) = Ok e0 /\
    ((tag "schema" p /\ exists nm, has n "name" nm /\ e = set_comment (get_documentation n) (set_name nm e0)) \/
     (~ tag "schema" p /\ absent n "name" /\ e = set_comment (get_documentation n) e0)).
Proof.
  intros T H. rewrite (step_kind u n _ KSimpleType) in H by exact T. unfold parse_simple_type in H. cbv zeta in H.
  bk H pt Hpt. cbn [parent_type] in Hpt. pose proof (not_schema _ _ _ Hpt) as NS. unfold attr_name in H.
  destruct (negb _) eqn:E; [discriminate|]. apply negb_false_iff, eqb_prop in E.
  bk H l Hl. eapply elements_inv in Hl; [|apply by_tag_not_annotation]. destruct Hl as [_ ->]. rewrite filter_particles in H.
  bk H k Hk. apply expect_ok in Hk. apply last_kids in Hk as (c & Fc & ->). cbn [snd] in H. bk H e0 He. injection H as <-.
  exists c, e0. split; auto. split; auto. unfold has, absent. destruct (attribute n (lit "name")) as [nm|].
  - left. split; [|eauto]. destruct (str_eqb_spec (tag_name p) (lit "schema")) as [Y|Y]; auto. apply NS in Y. congruence.
  - right. split; auto. apply NS; auto.
Qed.

(** ** The schema *)
Lemma simple_restriction_panics u n p anc : tag "restriction" n -> tag "simpleContent" p -> parse_node u n (p :: anc) = Panic.
Proof.
  intros T P. rewrite parse_node_eq. unfold parse_step. rewrite (xsd_derivation n p anc "restriction"); [|right; left; auto|auto].
  cbn [String.eqb Ascii.eqb Bool.eqb]. unfold restriction_of. unfold tag in P. rewrite P. reflexivity.
Qed.

Lemma complex_named u n anc e nm A : sane_content n -> tag "complexType" n -> parse_node u n anc = Ok e ->
  ((forall c, final (tagged_children content_tags n) c -> ~ has_elements c) ->
       exists s, e = EStruct s /\ st_name s = nm /\ st_fields s = A /\ st_subtypes s = [] /\
         Forall2 group_ref (group_children n) (st_groups s) /\ comment_ok n (st_comment s)) ->
  (forall c, final (tagged_children content_tags n) c -> has_elements c ->
       exists ec, parse_node u c (n :: anc) = Ok ec /\ complex_result u n anc nm A ec e) -> named nm e.
Proof.
  intros SC T H H1 H2. unfold named.
  assert (D : (exists c, final (tagged_children content_tags n) c /\ has_elements c) \/ forall c, final (tagged_children content_tags n) c -> ~ has_elements c).
  { destruct (last_opt (tagged_children content_tags n)) as [c|] eqn:L.
    - apply last_opt_final in L. pose proof (has_elements_iff c) as X. destruct (existsb is_element (children c)).
      + left. exists c. split; auto. apply X; auto.
      + right. intros c' F. rewrite (final_unique _ _ _ F L). intros Y. apply X in Y. discriminate.
    - apply last_opt_none in L. right. intros c (a & E). rewrite L in E. destruct a; discriminate. }
  destruct D as [(c & F & E)|D].
  - destruct (H2 c F E) as (ec & Hec & R).
    assert (K : (exists s, ec = EStruct s) \/ exists en, ec = EEnum en).
    { pose proof (final_in _ _ F) as I. apply in_tagged in I as [Ic (x & Hx & Tx)].
      assert (CC : forall d, In d (particles c) -> one ["complexContent"; "simpleContent"] c -> one ["extension"; "restriction"] d) by (intros; eapply SC; eauto).
      destruct Hx as [<-|[<-|[<-|[<-|[<-|[<-|[]]]]]]].
      - left. destruct (sequence_ok u c (n :: anc) ec) as (P & s & -> & _); auto; [|eauto]. eexists; split; [right; left; reflexivity|exact Tx].
      - right. destruct (choice_ok u c _ ec Tx Hec) as (en & -> & _); eauto.
      - left. assert (O : one ["complexContent"; "simpleContent"] c) by (eexists; split; [left; reflexivity|exact Tx]).
        destruct (content_ok u c _ ec O Hec) as (d & Fd & Hd). destruct (CC d (final_in _ _ Fd) O) as (t & It & Td).
        destruct (derivation_ok _ _ _ _ _ t It Td Tx Hd) as (s & _ & _ & -> & _). eauto.
      - rewrite (step_kind u c _ KGroup) in Hec by exact Tx. discriminate.
      - left. destruct (sequence_ok u c (n :: anc) ec) as (P & s & -> & _); auto; [|eauto]. eexists; split; [left; reflexivity|exact Tx].
      - left. assert (O : one ["complexContent"; "simpleContent"] c) by (eexists; split; [right; left; reflexivity|exact Tx]).
        destruct (content_ok u c _ ec O Hec) as (d & Fd & Hd). destruct (CC d (final_in _ _ Fd) O) as (t & [<-|[<-|[]]] & Td).
        + destruct (simple_extension_ok _ _ _ _ _ Td Tx Hd) as (s & _ & _ & -> & _). eauto.
        + rewrite simple_restriction_panics in Hd by auto. discriminate. }
    destruct K as [(s0 & ->)|(en0 & ->)]; cbn in R.
    + destruct R as (s & -> & R & _). left. auto.
    + destruct R as (en & s & f & -> & R1 & _ & _ & _ & _ & R2 & R3 & _). right. eauto 6.
  - destruct (H1 D) as (s & -> & R & _). left. auto.
Qed.

Lemma set_comment_name c e : entity_name (set_comment c e) = entity_name e.
Proof. destruct e; reflexivity. Qed.

Lemma declares_ok u n anc d e : tag "schema" n -> parse_node u d (n :: anc) = Ok e -> declares d e.
Proof.
  intros S H. assert (PT : parent_type (n :: anc) = Ok (TKind KSchema)) by (eapply parent_kind; eauto).
  assert (EL : tag "element" d -> parse_global_element d (n :: anc) (kids u d (n :: anc)) = Ok e).
  { intros T. rewrite (step_kind u d _ KElement) in H by exact T. unfold parse_element in H. rewrite PT in H. exact H. }
  unfold declares. split; [|split; [|split; [|split; [|split]]]].
  - intros T. assert (E : e = parse_import d).
    { destruct T as (t & [<-|[<-|[]]] & T); [rewrite (step_kind u d _ KImport) in H by exact T|rewrite (step_kind u d _ KInclude) in H by exact T]; congruence. }
    subst e. eexists. split; [reflexivity|]. cbn. destruct (attribute d (lit "namespace")), (attribute d (lit "schemaLocation")); auto.
  - intros (t & [<-|[<-|[]]] & T).
    + specialize (EL T). unfold parse_global_element in EL. bk EL nm Hn. apply expect_ok in Hn. unfold attr_name in Hn.
      destruct (attr_type d); [injection EL as <-; exact Hn|]. bk EL l Hl. destruct (last_opt l).
      * apply rmap_iff in EL as (e0 & _ & <-). rewrite entity_name_set_name. exact Hn.
      * injection EL as <-. exact Hn.
    + destruct (simple_type_ok _ _ _ _ _ T H) as (c & e0 & _ & _ & [(_ & nm & Hn & ->)|(N0 & _)]); [|contradiction].
      rewrite set_comment_name, entity_name_set_name. auto.
  - intros t T Ht. specialize (EL T). unfold parse_global_element, attr_type in EL. unfold has in Ht. rewrite Ht in EL. bk EL nm Hn. injection EL as <-.
    eexists. split; [reflexivity|]. cbn. repeat split; auto. apply doc_ok.
  - intros T A E. specialize (EL T). unfold parse_global_element, attr_type in EL. unfold absent in A. rewrite A in EL. bk EL nm Hn.
    bk EL l Hl. eapply nodes_inv in Hl; [|apply by_tag_one_of]. destruct Hl as [_ ->].
    rewrite (filter_tags _ ["simpleType"; "complexType"]), E in EL by reflexivity. cbn in EL. injection EL as <-.
    eexists. split; [reflexivity|]. split; [reflexivity|apply doc_ok].
  - intros T. rewrite (step_kind u d _ KAttribute) in H by exact T. unfold parse_attribute in H. rewrite PT in H. cbn [bind is_kind kind_beq] in H.
    unfold parse_global_attribute, attr_ref, attr_name in H. unfold has, absent. destruct (attribute d (lit "ref")) as [r|].
    + injection H as <-. left. reflexivity.
    + right. split; auto. bk H nm Hn. apply expect_ok in Hn. rewrite Hn. destruct (attr_type d); [injection H as <-; reflexivity|].
      bk H l Hl. destruct (last_opt l); [apply rmap_iff in H as (e0 & _ & <-); rewrite entity_name_set_name; auto|injection H as <-; reflexivity].
  - intros T. destruct (complex_ok _ _ _ _ T H) as (nm & A & HN & _ & H1 & H2). exists nm. split; [apply HN; auto|].
    intros SC. eapply complex_named; eauto.
Qed.

Lemma by_tag_declaration : by_tag (fun t => not_annotation t && negb (is_kind KAttributeGroup t))
  (fun n => negb (tagb KAnnotation n) && negb (tagb KAttributeGroup n)).
Proof. apply by_tag_and; [apply by_tag_not_annotation|apply by_tag_not, by_tag_kind]. Qed.
Lemma filter_declarations n :
  filter (fun c => is_element c && (negb (tagb KAnnotation c) && negb (tagb KAttributeGroup c))) (children n) = declarations n.
Proof.
  apply filter_cong. intros x _. rewrite (tagged_tagb KAnnotation "annotation" eq_refl), (tagged_tagb KAttributeGroup "attributeGroup" eq_refl).
  apply andb_assoc.
Qed.

Lemma schema_inv u n anc f : parse_schema u n anc = Ok f ->
  Forall calm (children n) /\
  Forall2 (fun d e => parse_node u d (n :: anc) = Ok e) (declarations n) (rf_types f) /\
  Forall2 (fun d e => parse_node u d (n :: anc) = Ok e) (tagged_children ["attributeGroup"] n) (rf_groups f) /\
  rf_target_ns f = target_namespace n /\ rf_xsd_ns f = xsd_namespace n.
Proof.
  intros H. unfold parse_schema in H. bk H l Hl. eapply elements_inv in Hl; [|apply by_tag_declaration]. destruct Hl as [HC ->].
  rewrite filter_declarations in H. bk H ts Hts. apply rmapm_kids in Hts.
  bk H l Hl. eapply elements_inv in Hl; [|apply by_tag_kind]. destruct Hl as [_ ->]. rewrite (filter_tagb_e _ "attributeGroup") in H by reflexivity.
  bk H gs Hgs. apply rmapm_kids in Hgs. injection H as <-. cbn. repeat split; auto.
Qed.
Lemma global_group_ok u n anc d e : tag "schema" n -> tag "attributeGroup" d -> parse_node u d (n :: anc) = Ok e -> declares_group d e.
Proof.
  intros S T H. pose proof (parse_node_calm _ _ _ _ H) as C. rewrite (step_kind u d _ KAttributeGroup) in H by exact T. unfold parse_attribute_group in H.
  rewrite (parent_kind _ n anc KSchema eq_refl S) in H. cbn [bind is_kind kind_beq] in H. bk H nm Hn. bk H fs Hf. injection H as <-.
  apply expect_ok in Hn. eexists. split; [reflexivity|]. split; [exact Hn|].
  eapply attributes_ok; eauto. eapply tag_neq; [|exact T]. discriminate.
Qed.
Lemma schema_ok u n anc f : tag "schema" n -> parse_schema u n anc = Ok f ->
  Forall2 declares (declarations n) (rf_types f) /\
  Forall2 declares_group (tagged_children ["attributeGroup"] n) (rf_groups f).
Proof.
  intros S H. destruct (schema_inv _ _ _ _ H) as (_ & H1 & H2 & _). split; (eapply Forall2_imp; [|eassumption]); intros d e Hd He.
  - cbn beta in He. eapply declares_ok; eauto.
  - apply in_tagged in Hd as [_ (t & [<-|[]] & T)]. cbn beta in He. eapply global_group_ok; eauto.
Qed.

(** ** Namespaces *)
Lemma find_is_first {A} (p : A -> bool) (P : A -> Prop) l : (forall x, p x = true <-> P x) -> is_first P l (find p l).
Proof.
  intros E. unfold is_first. induction l as [|x l IH]; cbn; [auto|]. destruct (p x) eqn:B.
  - constructor. apply E; auto.
  - assert (~ P x) by (rewrite <- E; congruence). destruct (find p l).
    + constructor; auto.
    + intros y [<-|I]; auto.
Qed.
Lemma find_filter {A} (p q : A -> bool) l : find q (filter p l) = find (fun x => p x && q x) l.
Proof. induction l as [|x l IH]; cbn; auto. destruct (p x); cbn; [destruct (q x); auto|auto]. Qed.
Lemma hd_filter {A} (p : A -> bool) l : hd_error (filter p l) = find p l.
Proof. induction l as [|x l IH]; cbn; auto. destruct (p x); auto. Qed.
Lemma target_ok n : match attribute n (lit "targetNamespace") with
  | Some tn => is_first (fun a => ns_uri a = tn) (namespaces n) (target_namespace n)
  | None => target_namespace n = None end.
Proof.
  unfold target_namespace. destruct (attribute n _); auto. apply find_is_first. intros x. apply str_eqb_eq.
Qed.
Lemma xsd_ns_ok n :
  let uri ns := ns_uri ns = lit "http://www.w3.org/2001/XMLSchema" in
  let named_uri ns := uri ns /\ ns_name ns <> None in
  (exists x, xsd_namespace n = Some x /\ first_such named_uri (namespaces n) x) \/
  ((forall x, In x (namespaces n) -> ~ named_uri x) /\ is_first uri (namespaces n) (xsd_namespace n)).
Proof.
  cbv zeta. unfold xsd_namespace. cbv zeta. rewrite find_filter, hd_filter.
  match goal with |- context [find ?p (namespaces n)] => 
    pose proof (find_is_first p (fun ns => ns_uri ns = lit "http://www.w3.org/2001/XMLSchema" /\ ns_name ns <> None) (namespaces n)) as F1 end.
  match type of F1 with ?A -> _ => assert (E : A) end.
  { intros x. rewrite andb_true_iff, str_eqb_eq. apply and_iff_compat_l. destruct (ns_name x); split; congruence. }
  specialize (F1 E). clear E. unfold is_first in F1. destruct (find _ (namespaces n)) as [x|] eqn:Fx.
  - left. exists x. auto.
  - right. split; auto. cbn [or_else]. apply find_is_first. intros x. apply str_eqb_eq.
Qed.

(** ** The supported part never panics *)
Definition role_tags (r : role) : list string :=
  match r with
  | GlobalSimple | LocalSimple => ["simpleType"] | SimpleRestriction => ["restriction"] | SimpleList => ["list"] | SimpleUnion => ["union"]
  | GlobalElement | LocalElement => ["element"] | GlobalComplex | LocalComplex => ["complexType"] | Sequence => ["sequence"; "all"]
  | Choice => ["choice"] | ComplexContent => ["complexContent"] | SimpleContent => ["simpleContent"]
  | ComplexDerivation => ["extension"; "restriction"] | SimpleExtension => ["extension"]
  | Attribute | GlobalAttribute => ["attribute"] | AnyAttribute => ["anyAttribute"] | GroupReference | GlobalGroup => ["attributeGroup"]
  | Any => ["any"] | Import => ["import"; "include"]
  end.
Lemma one1 t n : tag t n -> one [t] n.
Proof. intros H. exists t. split; [left; auto|auto]. Qed.
Lemma role_tag r n : ok r n -> one (role_tags r) n.
Proof. intros H. destruct H; cbn; auto using one1. Qed.
Lemma role_element r n : ok r n -> is_element n = true.
Proof.
  intros H. apply role_tag in H. destruct H as (t & I & T). eapply lit_nonempty_tag; [exact T|].
  destruct r; cbn in I; intuition (subst; discriminate).
Qed.
Lemma calm_derivation n : one ["extension"; "restriction"] n -> calm n.
Proof. intros (t & [<-|[<-|[]]] & T) anc; unfold tag in T; unfold xsd_type; cbv zeta; rewrite T; eexists; reflexivity. Qed.
Lemma one_incl ts ts' n : (forall t, In t ts -> In t ts') -> one ts n -> one ts' n.
Proof. intros H (t & I & T). exists t. auto. Qed.
Lemma calm_role r n : ok r n -> calm n.
Proof.
  intros H. apply role_tag in H.
  destruct r; cbn in H; try (apply calm_derivation; eapply one_incl; [|exact H]; cbn; tauto);
    destruct H as (t & I & T); repeat (destruct I as [<-|I]; [solve [
      eapply (calm_kind n KSimpleType); exact T | eapply (calm_kind n KList); exact T | eapply (calm_kind n KUnion); exact T | eapply (calm_kind n KElement); exact T
      | eapply (calm_kind n KComplexType); exact T | eapply (calm_kind n KSequence); exact T | eapply (calm_kind n KAll); exact T | eapply (calm_kind n KChoice); exact T
      | eapply (calm_kind n KComplexContent); exact T | eapply (calm_kind n KSimpleContent); exact T | eapply (calm_kind n KAttribute); exact T
      | eapply (calm_kind n KAnyAttribute); exact T | eapply (calm_kind n KAttributeGroup); exact T | eapply (calm_kind n KAny); exact T
      | eapply (calm_kind n KImport); exact T | eapply (calm_kind n KInclude); exact T ]|]); destruct I.
Qed.
Lemma calm_ignorable n : ignorable n -> calm n.
Proof. intros [H|H]; [apply calm_text; auto|eapply (calm_kind n KAnnotation); exact H]. Qed.
Lemma calm_identity n : one ["key"; "keyref"; "unique"] n -> calm n.
Proof.
  intros (t & [<-|[<-|[<-|[]]]] & T); [eapply (calm_kind n KKey); exact T| |eapply (calm_kind n KUnique); exact T].
  intros anc. unfold tag in T. unfold xsd_type. cbv zeta. rewrite T. eexists; reflexivity.
Qed.
Lemma calm_particle n : one ["element"; "any"; "sequence"; "choice"; "group"] n -> calm n.
Proof.
  intros (t & [<-|[<-|[<-|[<-|[<-|[]]]]]] & T); [eapply (calm_kind n KElement)|eapply (calm_kind n KAny)|eapply (calm_kind n KSequence)|eapply (calm_kind n KChoice)|eapply (calm_kind n KGroup)]; exact T.
Qed.
Lemma calm_facet n f : facet_of n f -> calm n.
Proof. intros H anc. eexists. apply facet_of_type; eauto. Qed.

(** totality of the iterators *)
Lemma rmapm_total {A B} (f : A -> res B) l : (forall x, In x l -> exists y, f x = Ok y) -> exists r, rmapm f l = Ok r.
Proof.
  intros H. induction l as [|x l IH]; cbn; [eauto|]. destruct (H x (or_introl eq_refl)) as (y & ->).
  destruct IH as (r & ->); [intros; apply H; right; auto|]. cbn. eauto.
Qed.
Lemma elements_total p q u n anc : by_tag p q -> Forall calm (children n) ->
  elements_where p (n :: anc) (kids u n anc) =
  Ok (map (fun c => (c, parse_node u c (n :: anc))) (filter (fun c => is_element c && q c) (children n))).
Proof. intros B C. apply (elements_where_ok p q); auto. split; auto. apply calm_elements; auto. Qed.
Lemma nodes_total p q u n anc : by_tag p q -> Forall calm (children n) ->
  nodes_where p (n :: anc) (kids u n anc) = Ok (map (fun c => (c, parse_node u c (n :: anc))) (filter q (children n))).
Proof. intros B C. apply (nodes_where_ok p q); auto. Qed.
Lemma attributes_total u n anc : Forall calm (children n) ->
  (forall c, In c (attribute_children n) -> exists f, parse_node u c (n :: anc) = Ok (EField f)) ->
  exists fs, attributes_to_fields (n :: anc) (kids u n anc) = Ok fs.
Proof.
  intros C H. unfold attributes_to_fields. erewrite nodes_total; [|apply by_tag_one_of|auto]. cbn [bind].
  rewrite (filter_tags _ ["attribute"; "anyAttribute"]) by reflexivity. apply rmapm_total. intros k I. apply in_map_iff in I as (c & <- & I).
  destruct (H c I) as (f & E). cbn [snd]. rewrite E. cbn. eauto.
Qed.
Lemma groups_total u n anc : Forall calm (children n) ->
  (forall c, In c (group_children n) -> exists a, parse_node u c (n :: anc) = Ok (EAlias a)) ->
  exists fs, attribute_groups_to_aliases (n :: anc) (kids u n anc) = Ok fs.
Proof.
  intros C H. unfold attribute_groups_to_aliases. erewrite nodes_total; [|apply by_tag_kind|auto]. cbn [bind].
  rewrite (filter_tagb _ "attributeGroup") by reflexivity. apply rmapm_total. intros k I. apply in_map_iff in I as (c & <- & I).
  destruct (H c I) as (f & E). cbn [snd]. rewrite E. cbn. eauto.
Qed.

(** contexts and outcomes of the roles *)
Definition under (t : string) (anc : list node) : Prop := match anc with p :: _ => tag t p | [] => False end.
Definition inside (anc : list node) : Prop := match anc with p :: _ => ~ tag "schema" p | [] => False end.
Definition pre (r : role) (anc : list node) : Prop :=
  match r with
  | GlobalSimple | GlobalElement | GlobalComplex | GlobalAttribute | GlobalGroup => under "schema" anc
  | LocalSimple | LocalComplex | Attribute | GroupReference => inside anc
  | SimpleRestriction => under "simpleType" anc
  | LocalElement => under "sequence" anc \/ under "all" anc
  | ComplexDerivation => under "complexContent" anc
  | SimpleExtension => under "simpleContent" anc
  | _ => True
  end.
Definition post (r : role) (e : entity) : Prop :=
  match r with
  | LocalSimple | SimpleRestriction | SimpleList | SimpleUnion => (exists en, e = EEnum en) \/ (exists t, e = ETuple t)
  | Attribute | AnyAttribute | LocalElement | Any => exists f, e = EField f
  | GroupReference => exists a, e = EAlias a
  | Choice => exists en, e = EEnum en
  | _ => True
  end.

Fixpoint size (n : node) : nat := match n with Elem _ _ _ cs => S (list_sum (map size cs)) | _ => 0 end%nat.
Lemma size_child n c : In c (children n) -> (size c < size n)%nat.
Proof.
  destruct n as [t a ns cs| |]; cbn; try tauto. intros H. induction cs as [|x cs IH]; [destruct H|]. cbn. destruct H as [->|H]; [lia|].
  apply IH in H. unfold list_sum in H. lia.
Qed.

Lemma only_final n c : only n c -> particles n = [c].
Proof.
  intros (a & b & E & I & NA & Fa & Fb). unfold particles. rewrite E, filter_app. cbn [filter].
  assert (Z : forall l, Forall ignorable l -> filter (fun c => is_element c && negb (tagged "annotation" c)) l = []).
  { induction 1 as [|x l [H|H] _ IH]; cbn; auto; rewrite IH.
    - rewrite H. auto.
    - apply tagged_iff in H. rewrite H, andb_false_r. auto. }
  rewrite !Z by auto. rewrite I. destruct (tagged "annotation" c) eqn:B; [apply tagged_iff in B; contradiction|]. auto.
Qed.
Lemma only_calm n c : only n c -> calm c -> Forall calm (children n).
Proof.
  intros (a & b & -> & _ & _ & Fa & Fb) C. apply Forall_app. split; [|constructor; auto];
    (eapply Forall_impl; [|eassumption]); intros; apply calm_ignorable; auto.
Qed.
Lemma only_in n c : only n c -> In c (children n).
Proof. intros (a & b & -> & _). apply in_or_app. right. left. auto. Qed.

(** no node has two tags *)
Ltac clash :=
  exfalso; unfold one, ignorable, tag in *;
  repeat match goal with
  | H : ok ?r ?c |- _ => apply role_tag in H; unfold one, role_tags, tag in H
  | H : exists t, In t _ /\ _ |- _ => destruct H as (? & ? & ?)
  | H : In _ (_ :: _) |- _ => destruct H as [<-|H]
  | H : In _ [] |- _ => destruct H
  | H : _ \/ _ |- _ => destruct H
  end;
  match goal with
  | H1 : tag_name ?c = lit _, H2 : tag_name ?c = lit _ |- _ => rewrite H1 in H2; discriminate H2
  | H1 : is_element ?c = false, H2 : tag_name ?c = lit _ |- _ => destruct c; [discriminate H1|discriminate H2|discriminate H2]
  end.

Lemma inv_choice n : ok Choice n -> tag "choice" n /\
  Forall (fun c => ignorable c \/ one ["element"; "any"; "sequence"; "choice"; "group"] c) (children n).
Proof. intros O; inversion O; auto. Qed.
Lemma inv_sequence n : ok Sequence n -> one ["sequence"; "all"] n /\
  Forall (fun c => ignorable c \/ ok LocalElement c \/ ok Any c \/ ok Choice c) (children n).
Proof. intros O; inversion O; auto. Qed.

Section Supported.
Context (u : uni) (k : nat).
Context (IH : forall n, (size n < k)%nat -> forall r anc, ok r n -> pre r anc -> Forall calm anc ->
  exists e, parse_node u n anc = Ok e /\ post r e).

Lemma child n c r anc : (size n <= k)%nat -> In c (children n) -> ok r c -> pre r (n :: anc) -> calm n -> Forall calm anc ->
  exists e, parse_node u c (n :: anc) = Ok e /\ post r e.
Proof. intros S I O P C F. apply IH; auto. apply size_child in I. lia. Qed.

Lemma attrs_supported n anc : (size n <= k)%nat -> calm n -> Forall calm anc -> ~ tag "schema" n -> Forall calm (children n) ->
  (forall c, In c (children n) -> one ["attribute"; "anyAttribute"] c -> ok Attribute c \/ ok AnyAttribute c) ->
  exists fs, attributes_to_fields (n :: anc) (kids u n anc) = Ok fs.
Proof.
  intros S C F NS CC H. apply attributes_total; auto. intros c I. apply in_tagged in I as [I O].
  destruct (H c I O) as [R|R]; (destruct (child n c _ anc S I R) as (e & E & (f & ->)); cbn; auto; eauto).
Qed.
Lemma groups_supported n anc : (size n <= k)%nat -> calm n -> Forall calm anc -> ~ tag "schema" n -> Forall calm (children n) ->
  (forall c, In c (children n) -> one ["attributeGroup"] c -> ok GroupReference c) ->
  exists fs, attribute_groups_to_aliases (n :: anc) (kids u n anc) = Ok fs.
Proof.
  intros S C F NS CC H. apply groups_total; auto. intros c I. apply in_tagged in I as [I O].
  destruct (child n c _ anc S I (H c I O)) as (e & E & (f & ->)); cbn; auto; eauto.
Qed.

Lemma simple_supported r n p anc nm c : (size n <= k)%nat -> tag "simpleType" n -> calm p -> Forall calm anc ->
  (r = GlobalSimple /\ tag "schema" p /\ attribute n (lit "name") = Some nm \/ r = LocalSimple /\ ~ tag "schema" p /\ attribute n (lit "name") = None) ->
  only n c -> ok SimpleRestriction c \/ ok SimpleList c \/ ok SimpleUnion c ->
  exists e, parse_node u n (p :: anc) = Ok e /\ ((exists en, e = EEnum en) \/ (exists t, e = ETuple t)).
Proof.
  intros S T Cp Ca Hr O Hc. assert (Cn : calm n) by (eapply (calm_kind n KSimpleType); exact T).
  rewrite (step_kind u n _ KSimpleType) by exact T. unfold parse_simple_type. cbn [parent_type].
  destruct (Cp anc) as (pt & Hpt). rewrite Hpt. cbn [bind]. unfold attr_name.
  assert (X : exists e0, parse_node u c (n :: p :: anc) = Ok e0 /\ ((exists en, e0 = EEnum en) \/ (exists t, e0 = ETuple t))).
  { destruct Hc as [R|[R|R]]; apply (child n c _ (p :: anc) S (only_in _ _ O) R); cbn; auto. }
  destruct X as (e0 & E0 & P0). assert (CC : calm c) by (eapply parse_node_calm; eauto).
  assert (B : Bool.eqb (is_kind KSchema pt) match attribute n (lit "name") with Some _ => true | None => false end = true).
  { pose proof (not_schema _ _ _ Hpt) as N0. destruct Hr as [(_ & Tp & ->)|(_ & Tp & ->)].
    - destruct (is_kind KSchema pt); auto. exfalso. apply N0; auto.
    - apply N0 in Tp. rewrite Tp. auto. }
  rewrite B. cbn [negb]. erewrite elements_total; [|apply by_tag_not_annotation|eapply only_calm; eauto]. rewrite filter_particles, (only_final _ _ O).
  cbn [bind map last_opt expect snd]. rewrite E0. cbn [bind]. eexists. split; [reflexivity|].
  destruct (attribute n (lit "name")); destruct P0 as [(en & ->)|(t & ->)]; cbn; eauto.
Qed.

Lemma children_calm (n : node) (Q : node -> Prop) : Forall (fun c => ignorable c \/ Q c) (children n) ->
  (forall c, Q c -> calm c) -> Forall calm (children n).
Proof. intros F H. eapply Forall_impl; [|exact F]. intros c [I|I]; auto. apply calm_ignorable; auto. Qed.

Lemma choice_supported n anc : (size n <= k)%nat -> ok Choice n -> exists en, parse_node u n anc = Ok (EEnum en).
Proof.
  intros S O. destruct (inv_choice _ O) as [T F].
  rewrite (step_kind u n _ KChoice) by exact T. unfold parse_choice.
  assert (CC : Forall calm (children n)) by (eapply children_calm; [exact F|]; intros; apply calm_particle; auto).
  erewrite elements_total; [|apply by_tag_kind|auto]. rewrite (filter_tagb_e _ "element") by reflexivity. cbn [bind].
  match goal with |- context [rmapm ?f ?l] => destruct (rmapm_total f l) as (r & ->) end; [|cbn; eauto].
  intros x I. apply in_map_iff in I as (c & <- & I). apply in_tagged in I as [I (t & [<-|[]] & Tc)]. cbn [snd].
  rewrite (step_kind u c _ KElement) by exact Tc. unfold parse_element. rewrite (parent_kind _ n anc KChoice eq_refl T). cbn [bind].
  destruct (case_ok c) as (kk & -> & _). cbn. eauto.
Qed.

Lemma to_field_total P e : (exists f, e = EField f) \/ (exists en, e = EEnum en) -> exists f, to_field P e = Ok f.
Proof. intros [(f & ->)|(en & ->)]; cbn; eauto. Qed.
Lemma sequence_supported n anc : (size n <= k)%nat -> ok Sequence n -> Forall calm anc -> exists s, parse_node u n anc = Ok (EStruct s).
Proof.
  intros S O Ca. destruct (inv_sequence _ O) as [T F].
  assert (Cn : calm n) by (eapply calm_role; eauto).
  assert (PR : pre LocalElement (n :: anc)) by (destruct T as (t & [<-|[<-|[]]] & T); cbn; auto).
  assert (E : parse_node u n anc = parse_sequence n anc (kids u n anc)).
  { destruct T as (t & [<-|[<-|[]]] & T); [rewrite (step_kind u n _ KSequence) by exact T|rewrite (step_kind u n _ KAll) by exact T]; auto. }
  rewrite E. unfold parse_sequence. destruct (parent_name_total anc Ca) as (P & ->). cbn [bind]. unfold elements_to_fields.
  assert (CC : Forall calm (children n)).
  { eapply children_calm; [exact F|]. intros c [H|[H|H]]; eapply calm_role; eauto. }
  erewrite elements_total; [|apply by_tag_not_annotation|auto]. rewrite filter_particles. cbn [bind].
  match goal with |- context [rmapm ?f ?l] => destruct (rmapm_total f l) as (r & ->) end; [|cbn; eauto].
  intros x I. apply in_map_iff in I as (c & <- & I). apply in_particles in I as (I & Ie & NA). cbn [snd].
  rewrite Forall_forall in F. destruct (F c I) as [[X|X]|[R|[R|R]]]; [congruence|contradiction| | |].
  - destruct (child n c _ anc S I R PR Cn Ca) as (e & -> & H). cbn [bind]. apply to_field_total. auto.
  - destruct (child n c _ anc S I R (Logic.I) Cn Ca) as (e & -> & H). cbn [bind]. apply to_field_total. auto.
  - destruct (child n c _ anc S I R (Logic.I) Cn Ca) as (e & -> & H). cbn [bind]. apply to_field_total. auto.
Qed.

Lemma facets_total n anc cs : Forall calm cs -> exists fs, facets (n :: anc) (map (fun c => (c, parse_node u c (n :: anc))) cs) = Ok fs.
Proof.
  induction 1 as [|c cs C _ IHc]; cbn [map facets fst]; [eauto|]. destruct (C (n :: anc)) as (t & ->). destruct IHc as (fs & ->). cbn. eauto.
Qed.
Lemma restriction_supported n p anc : tag "restriction" n -> present n "base" -> tag "simpleType" p ->
  Forall (fun c => ignorable c \/ exists f, facet_of c f) (children n) -> calm p -> Forall calm anc ->
  exists e, parse_node u n (p :: anc) = Ok e /\ ((exists en, e = EEnum en) \/ (exists t, e = ETuple t)).
Proof.
  intros T (b & B) P F Cp Ca. rewrite step_simple_restriction by auto. unfold simple_type_restriction, get_base. rewrite B. cbn [expect bind].
  destruct (facets_total n (p :: anc) (children n)) as (fs & Hf).
  { eapply children_calm; [exact F|]. intros c (f & H). eapply calm_facet; eauto. }
  unfold kids. rewrite Hf. cbn [bind]. cbv zeta. destruct (_ && _).
  - destruct (parent_name_total (p :: anc)) as (P' & ->); [constructor; auto|]. cbn. eauto.
  - eauto.
Qed.
Lemma list_supported n anc : (size n <= k)%nat -> ok SimpleList n -> Forall calm anc ->
  exists t, parse_node u n anc = Ok (ETuple t).
Proof.
  intros S O Ca. assert (Cn : calm n) by (eapply calm_role; eauto). assert (T : tag "list" n) by (inversion O; auto).
  rewrite (step_kind u n _ KList) by exact T. unfold parse_list.
  destruct (attribute n (lit "itemType")) as [it|] eqn:A; [cbn; eauto|].
  assert (X : exists c, only n c /\ ok LocalSimple c).
  { inversion O; subst; eauto. match goal with H : present n "itemType" |- _ => destruct H as (v & H); unfold has in H; congruence end. }
  destruct X as (c & Oc & R). unfold kids.
  rewrite (find_kids _ _ (fun e => is_element e && str_eqb (tag_name e) (lit "simpleType"))) by auto.
  assert (Tc : tag "simpleType" c) by (inversion R; auto).
  assert (Fc : find_child n (lit "simpleType") = Some c).
  { apply find_child_iff; [discriminate|]. destruct Oc as (a & b & E & _ & _ & Fa & _). exists a, b. split; auto. split; auto.
    intros y Hy Ty. rewrite Forall_forall in Fa. specialize (Fa y Hy). clash. }
  unfold find_child in Fc. rewrite Fc. cbn [option_map expect bind snd].
  destruct (child n c _ anc S (only_in _ _ Oc) R) as (e & -> & [(en & ->)|(t & ->)]); cbn; auto; [|eauto|eauto].
  eapply tag_neq; [|exact T]. discriminate.
Qed.
Lemma union_supported n anc : (size n <= k)%nat -> ok SimpleUnion n -> Forall calm anc ->
  exists en, parse_node u n anc = Ok (EEnum en).
Proof.
  intros S O Ca. assert (Cn : calm n) by (eapply calm_role; eauto). assert (T : tag "union" n) by (inversion O; auto).
  assert (F : Forall (fun c => ignorable c \/ ok LocalSimple c) (children n)) by (inversion O; auto).
  assert (NS : ~ tag "schema" n) by (eapply tag_neq; [|exact T]; discriminate).
  rewrite (step_kind u n _ KUnion) by exact T. unfold parse_union. cbv zeta.
  assert (CC : Forall calm (children n)) by (eapply children_calm; [exact F|]; intros; eapply calm_role; eauto).
  rewrite Forall_forall in F.
  erewrite elements_total; [|apply by_tag_kind|auto]. rewrite (filter_tagb_e _ "simpleType") by reflexivity. cbn [bind].
  assert (U : forall cs i, (forall c, In c cs -> In c (children n) /\ tag "simpleType" c) ->
     exists subs, union_subtypes i (map (fun c => (c, parse_node u c (n :: anc))) cs) = Ok subs).
  { induction cs as [|c cs IHc]; intros i H; cbn [map union_subtypes snd]; [eauto|].
    destruct (H c (or_introl eq_refl)) as [I Tc]. destruct (F c I) as [X|R]; [clash|].
    destruct (child n c _ anc S I R) as (e & -> & _); auto. destruct (IHc (i + 1)) as (subs & ->); [intros; apply H; right; auto|]. cbn. eauto. }
  destruct (U (tagged_children ["simpleType"] n) 0) as (subs & ->).
  { intros c I. apply in_tagged in I as [I (t & [<-|[]] & Tc)]. auto. }
  cbn [bind]. assert (Z : attribute_children n = []).
  { unfold attribute_children. destruct (tagged_children _ n) as [|c l] eqn:E; auto. exfalso.
    assert (I : In c (tagged_children ["attribute"; "anyAttribute"] n)) by (rewrite E; left; auto).
    apply in_tagged in I as [I Oc]. specialize (F c I). clash. }
  destruct (attrs_supported n anc) as (fs & Hfs); auto.
  { intros c I Oc. specialize (F c I). clash. }
  rewrite Hfs. cbn [bind]. destruct (attributes_ok _ _ _ _ NS Cn Hfs) as [HF _]. rewrite Z in HF. inversion HF. eauto.
Qed.

Lemma derivation_supported n p anc : (size n <= k)%nat -> ok ComplexDerivation n -> tag "complexContent" p ->
  calm p -> Forall calm anc -> exists e, parse_node u n (p :: anc) = Ok e.
Proof.
  intros S O Pc Cp Ca. assert (Cn : calm n) by (eapply calm_role; eauto).
  assert (X : one ["extension"; "restriction"] n /\ present n "base" /\
    Forall (fun c => ignorable c \/ ok Attribute c \/ ok AnyAttribute c \/ ok GroupReference c \/ ok Sequence c \/ ok Choice c) (children n)) by (inversion O; auto).
  destruct X as ((t & It & T) & (b & B) & F).
  assert (NS : ~ tag "schema" n) by (destruct It as [<-|[<-|[]]]; eapply tag_neq; try exact T; discriminate).
  assert (CC : Forall calm (children n)).
  { eapply children_calm; [exact F|]. intros c H. repeat (destruct H as [H|H]; [eapply calm_role; exact H|]); eapply calm_role; exact H. }
  rewrite Forall_forall in F.
  rewrite (step_derivation u n p anc t It T Pc). unfold complex_derivation, get_base. rewrite B. cbn [expect bind]. cbv zeta.
  destruct (attrs_supported n (p :: anc)) as (A & ->); auto.
  { intros c I Oc. destruct (F c I) as [X|[X|[X|X]]]; auto; clash. }
  destruct (groups_supported n (p :: anc)) as (G & HG); auto.
  { intros c I Oc. destruct (F c I) as [X|[X|[X|[X|X]]]]; auto; clash. }
  cbn [bind]. rewrite HG. cbn [bind].
  erewrite elements_total; [|apply by_tag_and; [apply by_tag_not, by_tag_kind|apply by_tag_one_of]|auto]. rewrite (derivation_filter t) by auto. cbn [bind].
  destruct (last_opt _) as [kk|] eqn:L; [|eauto]. apply last_kids in L as (c & Fc & ->). cbn [snd].
  apply final_in, in_tagged in Fc as [I Oc].
  assert (E : exists e, parse_node u c (n :: p :: anc) = Ok e).
  { destruct (F c I) as [X|[X|[X|[X|[X|X]]]]].
    - exfalso. assert (Oc' : one ["all"; "anyAttribute"; "attributeGroup"; "choice"; "group"; "sequence"] c).
      { eapply one_incl; [|exact Oc]. intros x. unfold derivation_tags. destruct (String.eqb t "restriction"); cbn; tauto. }
      clear Oc. clash.
    - destruct (child n c _ (p :: anc) S I X) as (e & E & _); cbn; eauto.
    - destruct (child n c _ (p :: anc) S I X) as (e & E & _); cbn; eauto.
    - destruct (child n c _ (p :: anc) S I X) as (e & E & _); cbn; eauto.
    - destruct (child n c _ (p :: anc) S I X) as (e & E & _); cbn; eauto.
    - destruct (child n c _ (p :: anc) S I X) as (e & E & _); cbn; eauto. }
  destruct E as (e & ->). cbn [bind]. destruct e; eauto.
Qed.
Lemma simple_extension_supported n p anc : (size n <= k)%nat -> ok SimpleExtension n -> tag "simpleContent" p ->
  calm p -> Forall calm anc -> exists e, parse_node u n (p :: anc) = Ok e.
Proof.
  intros S O Pc Cp Ca. assert (Cn : calm n) by (eapply calm_role; eauto).
  assert (X : tag "extension" n /\ present n "base" /\
    Forall (fun c => ignorable c \/ ok Attribute c \/ ok AnyAttribute c \/ ok GroupReference c) (children n)) by (inversion O; auto).
  destruct X as (T & (b & B) & F).
  assert (NS : ~ tag "schema" n) by (eapply tag_neq; try exact T; discriminate).
  assert (CC : Forall calm (children n)).
  { eapply children_calm; [exact F|]. intros c H. repeat (destruct H as [H|H]; [eapply calm_role; exact H|]); eapply calm_role; exact H. }
  rewrite Forall_forall in F.
  rewrite parse_node_eq. unfold parse_step. rewrite (xsd_derivation n p anc "extension"); [|left; auto|auto].
  cbn [String.eqb Ascii.eqb Bool.eqb]. unfold extension_of. unfold tag in Pc. rewrite Pc.
  change (exists e, simple_content_extension n (p :: anc) (kids u n (p :: anc)) = Ok e). unfold simple_content_extension, get_base. rewrite B. cbn [expect bind].
  destruct (attrs_supported n (p :: anc)) as (A & ->); auto.
  { intros c I Oc. destruct (F c I) as [X|[X|[X|X]]]; auto; clash. }
  destruct (groups_supported n (p :: anc)) as (G & HG); auto.
  { intros c I Oc. destruct (F c I) as [X|[X|[X|X]]]; auto; clash. }
  cbn [bind]. rewrite HG. cbn [bind]. eauto.
Qed.
Lemma content_supported n c r anc : (size n <= k)%nat -> one ["complexContent"; "simpleContent"] n -> only n c -> ok r c ->
  pre r (n :: anc) -> Forall calm anc -> exists e, parse_node u n anc = Ok e.
Proof.
  intros S T O R P Ca.
  assert (Cn : calm n) by (destruct T as (t & [<-|[<-|[]]] & T); [eapply (calm_kind n KComplexContent)|eapply (calm_kind n KSimpleContent)]; exact T).
  assert (E : parse_node u n anc = parse_content n anc (kids u n anc)).
  { destruct T as (t & [<-|[<-|[]]] & T); [rewrite (step_kind u n _ KComplexContent) by exact T|rewrite (step_kind u n _ KSimpleContent) by exact T]; auto. }
  rewrite E. unfold parse_content. erewrite elements_total; [|apply by_tag_not_annotation|eapply only_calm; eauto; eapply calm_role; eauto].
  rewrite filter_particles, (only_final _ _ O). cbn. destruct (child n c r anc S (only_in _ _ O) R P Cn Ca) as (e & -> & _). eauto.
Qed.

Lemma complex_type_supported n p anc : (size n <= k)%nat -> tag "complexType" n -> (tag "schema" p -> present n "name") ->
  Forall (fun c => ignorable c \/ ok Attribute c \/ ok AnyAttribute c \/ ok GroupReference c \/
      ok Sequence c \/ ok Choice c \/ ok ComplexContent c \/ ok SimpleContent c) (children n) ->
  calm p -> Forall calm anc -> exists e, parse_node u n (p :: anc) = Ok e.
Proof.
  intros S T Hn F Cp Ca. assert (Cn : calm n) by (eapply (calm_kind n KComplexType); exact T).
  assert (NS : ~ tag "schema" n) by (eapply tag_neq; try exact T; discriminate).
  assert (CC : Forall calm (children n)).
  { eapply children_calm; [exact F|]. intros c H. repeat (destruct H as [H|H]; [eapply calm_role; exact H|]); eapply calm_role; exact H. }
  rewrite Forall_forall in F.
  rewrite (step_kind u n _ KComplexType) by exact T. unfold parse_complex_type. cbn [parent_type].
  destruct (Cp anc) as (pt & Hpt). rewrite Hpt. cbn [bind].
  assert (NM : exists nm, (if is_kind KSchema pt then expect (attr_name n) else get_parent_name (p :: anc)) = Ok nm).
  { pose proof (not_schema _ _ _ Hpt) as N0. destruct (is_kind KSchema pt).
    - destruct (str_eqb_spec (tag_name p) (lit "schema")) as [E|E]; [|apply N0 in E; discriminate].
      destruct (Hn E) as (nm & H). exists nm. apply expect_ok. exact H.
    - apply parent_name_total. constructor; auto. }
  destruct NM as (nm & ->). cbn [bind].
  destruct (attrs_supported n (p :: anc)) as (A & ->); auto.
  { intros c I Oc. destruct (F c I) as [X|[X|[X|X]]]; auto; clash. }
  destruct (groups_supported n (p :: anc)) as (G & HG); auto.
  { intros c I Oc. destruct (F c I) as [X|[X|[X|[X|X]]]]; auto; clash. }
  cbn [bind]. erewrite elements_total; [|apply by_tag_one_of|auto]. rewrite (filter_tags_e _ content_tags) by reflexivity. cbn [bind]. cbv zeta.
  rewrite HG. cbn [bind]. destruct (last_opt _) as [kk|] eqn:L; [|eauto]. apply last_kids in L as (c & Fc & ->). cbn [fst snd].
  destruct (existsb _ _); [|eauto]. apply final_in, in_tagged in Fc as [I Oc].
  assert (E : exists e, parse_node u c (n :: p :: anc) = Ok e).
  { destruct (F c I) as [X|[X|[X|[X|[X|[X|[X|X]]]]]]].
    - exfalso. unfold content_tags in Oc. clash.
    - destruct (child n c _ (p :: anc) S I X) as (e & E & _); cbn; eauto.
    - destruct (child n c _ (p :: anc) S I X) as (e & E & _); cbn; eauto.
    - destruct (child n c _ (p :: anc) S I X) as (e & E & _); cbn; eauto.
    - destruct (child n c _ (p :: anc) S I X) as (e & E & _); cbn; eauto.
    - destruct (child n c _ (p :: anc) S I X) as (e & E & _); cbn; eauto.
    - destruct (child n c _ (p :: anc) S I X) as (e & E & _); cbn; eauto.
    - destruct (child n c _ (p :: anc) S I X) as (e & E & _); cbn; eauto. }
  destruct E as (e & ->). cbn [bind]. unfold finish_complex. destruct e; eauto. rewrite HG. cbn. eauto.
Qed.

(** elements with an anonymous type *)
Lemma last_content n c : final (tagged_children ["simpleType"; "complexType"] n) c -> In c (children n) /\ one ["simpleType"; "complexType"] c.
Proof. intros F. apply final_in in F. apply in_tagged; auto. Qed.
Lemma anonymous_supported n anc c : (size n <= k)%nat -> tag "element" n -> Forall calm anc -> In c (children n) ->
  ok LocalSimple c \/ ok LocalComplex c -> exists e, parse_node u c (n :: anc) = Ok e.
Proof.
  intros S T Ca I R. assert (Cn : calm n) by (eapply (calm_kind n KElement); exact T).
  assert (NS : ~ tag "schema" n) by (eapply tag_neq; try exact T; discriminate).
  destruct R as [R|R]; destruct (child n c _ anc S I R NS Cn Ca) as (e & E & _); eauto.
Qed.
Lemma local_element_supported n anc : (size n <= k)%nat -> ok LocalElement n -> under "sequence" anc \/ under "all" anc -> Forall calm anc ->
  exists f, parse_node u n anc = Ok (EField f).
Proof.
  intros S O P Ca. assert (T : tag "element" n) by (inversion O; auto). rewrite (step_kind u n _ KElement) by exact T. unfold parse_element.
  destruct anc as [|p anc]; [destruct P as [[]|[]]|]. cbn [under] in P.
  assert (E : parse_element n (p :: anc) (kids u n (p :: anc)) = parse_field_of_sequence n (p :: anc) (kids u n (p :: anc))).
  { unfold parse_element. destruct P as [Tp|Tp]; [rewrite (parent_kind _ p anc KSequence eq_refl Tp)|rewrite (parent_kind _ p anc KAll eq_refl Tp)]; auto. }
  unfold parse_element in E. rewrite E. unfold parse_field_of_sequence. cbv zeta. unfold has_attribute.
  destruct (attribute n (lit "type")) eqn:At; [eexists; reflexivity|]. destruct (attribute n (lit "ref")) eqn:Ar; [eexists; reflexivity|]. cbn [orb].
  assert (X : exists a c b, children n = a ++ c :: b /\ Forall (fun c => ignorable c \/ one ["key"; "keyref"; "unique"] c) (a ++ b) /\ (ok LocalSimple c \/ ok LocalComplex c)).
  { inversion O; subst; eauto 7. match goal with H : present n _ \/ present n _ |- _ => destruct H as [(v & H)|(v & H)]; unfold has in H; congruence end. }
  destruct X as (a & c & b & Ec & Fab & R).
  assert (CC : Forall calm (children n)).
  { rewrite Ec. rewrite Forall_app in Fab. destruct Fab as [Fa Fb]. apply Forall_app. split; [|constructor].
    - eapply Forall_impl; [|exact Fa]. intros x [H|H]; [apply calm_ignorable|apply calm_identity]; auto.
    - destruct R as [R|R]; eapply calm_role; eauto.
    - eapply Forall_impl; [|exact Fb]. intros x [H|H]; [apply calm_ignorable|apply calm_identity]; auto. }
  erewrite nodes_total; [|apply by_tag_one_of|auto]. rewrite (filter_tags _ ["simpleType"; "complexType"]) by reflexivity. cbn [bind].
  destruct (last_opt _) as [kk|] eqn:L.
  - apply last_kids in L as (c' & Fc & ->). cbn [expect bind snd]. apply last_content in Fc as [I Oc].
    assert (R' : ok LocalSimple c' \/ ok LocalComplex c').
    { rewrite Ec in I. apply in_app_or in I. rewrite Forall_forall in Fab. destruct I as [I|[<-|I]]; auto;
        (assert (I' : In c' (a ++ b)) by (apply in_or_app; auto)); specialize (Fab c' I'); clear - Fab Oc; clash. }
    destruct (anonymous_supported n (p :: anc) c' S T Ca) as (e & ->); auto. cbn; eauto.
  - exfalso. apply final_none in L. assert (I : In c (tagged_children ["simpleType"; "complexType"] n)).
    { apply in_tagged. split; [rewrite Ec; apply in_or_app; right; left; auto|].
      destruct R as [R|R]; apply role_tag in R; (eapply one_incl; [|exact R]); cbn; tauto. }
    rewrite L in I. destruct I.
Qed.

Lemma role_supported n r anc : (size n <= k)%nat -> ok r n -> pre r anc -> Forall calm anc ->
  exists e, parse_node u n anc = Ok e /\ post r e.
Proof.
  intros S O P Ca. destruct r.
  - (* GlobalSimple *) destruct anc as [|p anc]; [destruct P|]. inversion Ca; subst.
    assert (X : exists c nm, tag "simpleType" n /\ has n "name" nm /\ only n c /\ (ok SimpleRestriction c \/ ok SimpleList c \/ ok SimpleUnion c)).
    { inversion O; subst. match goal with H : present _ _ |- _ => destruct H end. eauto 8. }
    destruct X as (c & nm & T & N0 & Oc & Hc). destruct (simple_supported GlobalSimple n p anc nm c) as (e & E & H); auto.
    exists e. split; auto. exact Logic.I.
  - (* LocalSimple *) destruct anc as [|p anc]; [destruct P|]. inversion Ca; subst.
    assert (X : exists c, tag "simpleType" n /\ absent n "name" /\ only n c /\ (ok SimpleRestriction c \/ ok SimpleList c \/ ok SimpleUnion c)).
    { inversion O; subst. eauto 8. }
    destruct X as (c & T & N0 & Oc & Hc). destruct (simple_supported LocalSimple n p anc [] c) as (e & E & H); auto. eauto.
  - (* SimpleRestriction *) destruct anc as [|p anc]; [destruct P|]. inversion Ca; subst. inversion O; subst. eapply restriction_supported; eauto.
  - destruct (list_supported n anc S O Ca) as (t & E). exists (ETuple t). cbn. eauto.
  - destruct (union_supported n anc S O Ca) as (t & E). exists (EEnum t). cbn. eauto.
  - (* GlobalElement *) destruct anc as [|p anc]; [destruct P|]. cbn in P.
    assert (X : tag "element" n /\ present n "name" /\ Forall (fun c => ignorable c \/ one ["key"; "keyref"; "unique"] c \/ ok LocalSimple c \/ ok LocalComplex c) (children n)) by (inversion O; auto).
    destruct X as (T & (nm & N0) & F). rewrite (step_kind u n _ KElement) by exact T. unfold parse_element.
    rewrite (parent_kind _ p anc KSchema eq_refl P). cbn [bind]. unfold parse_global_element, attr_name. rewrite N0. cbn [expect bind].
    destruct (attr_type n); [eexists; split; [reflexivity|exact Logic.I]|].
    assert (CC : Forall calm (children n)).
    { eapply children_calm; [exact F|]. intros c [H|[H|H]]; [apply calm_identity; auto|eapply calm_role; eauto|eapply calm_role; eauto]. }
    erewrite nodes_total; [|apply by_tag_one_of|auto]. rewrite (filter_tags _ ["simpleType"; "complexType"]) by reflexivity. cbn [bind].
    destruct (last_opt _) as [kk|] eqn:L; [|eexists; split; [reflexivity|exact Logic.I]]. apply last_kids in L as (c & Fc & ->). cbn [snd].
    apply last_content in Fc as [I Oc]. rewrite Forall_forall in F.
    assert (R : ok LocalSimple c \/ ok LocalComplex c) by (destruct (F c I) as [X|[X|X]]; auto; clear - X Oc; clash).
    destruct (anonymous_supported n (p :: anc) c S T Ca I R) as (e & ->). eexists; split; [reflexivity|exact Logic.I].
  - (* LocalElement *) destruct (local_element_supported n anc S O P Ca) as (f & E). exists (EField f). cbn; eauto.
  - (* GlobalComplex *) destruct anc as [|p anc]; [destruct P|]. inversion Ca; subst. inversion O; subst.
    destruct (complex_type_supported n p anc) as (e & E); auto. exists e. cbn; auto.
  - (* LocalComplex *) destruct anc as [|p anc]; [destruct P|]. inversion Ca; subst. inversion O; subst.
    destruct (complex_type_supported n p anc) as (e & E); auto; [intros X; contradiction|]. exists e; cbn; auto.
  - destruct (sequence_supported n anc S O Ca) as (s & E). exists (EStruct s). cbn; auto.
  - destruct (choice_supported n anc S O) as (s & E). exists (EEnum s). cbn; eauto.
  - (* ComplexContent *) assert (X : exists c, tag "complexContent" n /\ only n c /\ ok ComplexDerivation c) by (inversion O; eauto).
    destruct X as (c & T & Oc & R). destruct (content_supported n c ComplexDerivation anc) as (e & E); auto; [eexists; split; [left; reflexivity|exact T]|]. exists e; cbn; auto.
  - (* SimpleContent *) assert (X : exists c, tag "simpleContent" n /\ only n c /\ ok SimpleExtension c) by (inversion O; eauto).
    destruct X as (c & T & Oc & R). destruct (content_supported n c SimpleExtension anc) as (e & E); auto; [eexists; split; [right; left; reflexivity|exact T]|]. exists e; cbn; auto.
  - destruct anc as [|p anc]; [destruct P|]. inversion Ca; subst. destruct (derivation_supported n p anc) as (e & E); auto. exists e; cbn; auto.
  - destruct anc as [|p anc]; [destruct P|]. inversion Ca; subst. destruct (simple_extension_supported n p anc) as (e & E); auto. exists e; cbn; auto.
  - (* Attribute *) destruct anc as [|p anc]; [destruct P|]. inversion Ca; subst.
    assert (X : tag "attribute" n /\ (present n "name" \/ present n "ref") /\ exists m, use_means n m) by (inversion O; auto).
    destruct X as (T & N0 & (m & U)). rewrite (step_kind u n _ KAttribute) by exact T.
    assert (Y : exists nm, has n "name" nm \/ absent n "name" /\ has n "ref" nm).
    { unfold present, has, absent in *. destruct (attribute n (lit "name")); [eauto|]. destruct N0 as [(v & ?)|(v & ?)]; [discriminate|]. eauto. }
    destruct Y as (nm & Y).
    exists (EField {| fl_name := nm; fl_type := pick (attribute n (lit "type")) (attribute n (lit "ref")) (lit "String"); fl_comment := get_documentation n;
                      fl_subtypes := []; fl_source := FromAttribute; fl_mods := [m] |}). split; [|eexists; reflexivity].
    apply parse_attribute_iff; auto. eexists. split; [reflexivity|]. cbn. repeat split; auto. exists m. auto.
  - assert (T : tag "anyAttribute" n) by (inversion O; auto). rewrite (step_kind u n _ KAnyAttribute) by exact T. eexists; split; [reflexivity|eexists; reflexivity].
  - (* GroupReference *) destruct anc as [|p anc]; [destruct P|]. inversion Ca as [|? ? Cp Ca']; subst.
    assert (X : tag "attributeGroup" n /\ present n "ref") by (inversion O; auto). destruct X as (T & (r & R)).
    rewrite (step_kind u n _ KAttributeGroup) by exact T. unfold parse_attribute_group. cbn [parent_type]. destruct (Cp anc) as (pt & Hpt). rewrite Hpt. cbn [bind].
    cbn in P. apply (not_schema _ _ _ Hpt) in P. rewrite P. unfold attr_ref. rewrite R. cbn. eexists; split; [reflexivity|eexists; reflexivity].
  - (* GlobalAttribute *) destruct anc as [|p anc]; [destruct P|]. cbn in P.
    assert (X : tag "attribute" n /\ present n "name" /\ Forall (fun c => ignorable c \/ ok LocalSimple c) (children n)) by (inversion O; auto).
    destruct X as (T & (nm & N0) & F). assert (Cn : calm n) by (eapply calm_role; eauto). rewrite (step_kind u n _ KAttribute) by exact T. unfold parse_attribute.
    rewrite (parent_kind _ p anc KSchema eq_refl P). cbn [bind is_kind kind_beq]. unfold parse_global_attribute, attr_name. rewrite N0. cbn [expect bind].
    destruct (attr_ref n); [eexists; split; [reflexivity|exact Logic.I]|]. destruct (attr_type n); [eexists; split; [reflexivity|exact Logic.I]|].
    assert (CC : Forall calm (children n)) by (eapply children_calm; [exact F|]; intros; eapply calm_role; eauto).
    erewrite elements_total; [|apply by_tag_kind|auto]. rewrite (filter_tagb_e _ "simpleType") by reflexivity. cbn [bind].
    destruct (last_opt _) as [kk|] eqn:L; [|eexists; split; [reflexivity|exact Logic.I]]. apply last_kids in L as (c & Fc & ->). cbn [snd].
    apply final_in, in_tagged in Fc as [I Oc]. rewrite Forall_forall in F. destruct (F c I) as [X|R]; [clear - X Oc; clash|].
    assert (NS : ~ tag "schema" n) by (eapply tag_neq; try exact T; discriminate).
    destruct (child n c _ (p :: anc) S I R NS Cn Ca) as (e & -> & _). eexists; split; [reflexivity|exact Logic.I].
  - (* GlobalGroup *) destruct anc as [|p anc]; [destruct P|]. cbn in P.
    assert (X : tag "attributeGroup" n /\ present n "name" /\ Forall (fun c => ignorable c \/ ok Attribute c \/ ok AnyAttribute c \/ ok GroupReference c) (children n)) by (inversion O; auto).
    destruct X as (T & (nm & N0) & F). assert (Cn : calm n) by (eapply calm_role; eauto). rewrite (step_kind u n _ KAttributeGroup) by exact T. unfold parse_attribute_group.
    assert (NS : ~ tag "schema" n) by (eapply tag_neq; try exact T; discriminate).
    rewrite (parent_kind _ p anc KSchema eq_refl P). cbn [bind is_kind kind_beq]. unfold attr_name. rewrite N0. cbn [expect bind].
    assert (CC : Forall calm (children n)).
    { eapply children_calm; [exact F|]. intros c H. repeat (destruct H as [H|H]; [eapply calm_role; exact H|]); eapply calm_role; exact H. }
    rewrite Forall_forall in F. destruct (attrs_supported n (p :: anc)) as (A & ->); auto; [|eexists; split; [reflexivity|exact Logic.I]].
    intros c I Oc. destruct (F c I) as [X|[X|[X|X]]]; auto; clear - X Oc; clash.
  - assert (T : tag "any" n) by (inversion O; auto). rewrite (step_kind u n _ KAny) by exact T. eexists; split; [reflexivity|eexists; reflexivity].
  - assert (T : one ["import"; "include"] n) by (inversion O; auto). destruct T as (t & [<-|[<-|[]]] & T).
    + rewrite (step_kind u n _ KImport) by exact T. eexists; split; [reflexivity|exact Logic.I].
    + rewrite (step_kind u n _ KInclude) by exact T. eexists; split; [reflexivity|exact Logic.I].
Qed.
End Supported.

Lemma node_supported u n r anc : ok r n -> pre r anc -> Forall calm anc -> exists e, parse_node u n anc = Ok e /\ post r e.
Proof.
  assert (G : forall k n, (size n < k)%nat -> forall r anc, ok r n -> pre r anc -> Forall calm anc -> exists e, parse_node u n anc = Ok e /\ post r e).
  { induction k as [|k IH]; intros m S; [lia|]. intros r' anc'. apply (role_supported u k IH). lia. }
  apply (G (S (size n)) n). lia.
Qed.

Lemma schema_supported u n anc : ok_schema n -> Forall calm anc -> exists f, parse_schema u n anc = Ok f.
Proof.
  intros [T F] Ca. assert (Cn : calm n) by (eapply (calm_kind n KSchema); exact T).
  assert (CC : Forall calm (children n)).
  { eapply children_calm; [exact F|]. intros c H. repeat (destruct H as [H|H]; [eapply calm_role; exact H|]); eapply calm_role; exact H. }
  assert (X : forall c, In c (children n) -> is_element c = true -> ~ tag "annotation" c -> exists e, parse_node u c (n :: anc) = Ok e).
  { intros c I E NA. rewrite Forall_forall in F. destruct (F c I) as [[H|H]|H]; [congruence|contradiction|].
    assert (Y : exists r, ok r c /\ pre r (n :: anc)) by (destruct H as [H|[H|[H|[H|[H|H]]]]]; eexists; split; try exact H; cbn; auto).
    destruct Y as (r & R & P). destruct (node_supported u c r (n :: anc)) as (e & E' & _); eauto. }
  unfold parse_schema. erewrite elements_total; [|apply by_tag_declaration|auto]. rewrite filter_declarations. cbn [bind].
  match goal with |- context [rmapm ?f ?l] => destruct (rmapm_total f l) as (ts & ->) end.
  { intros x I. apply in_map_iff in I as (c & <- & I). unfold declarations in I. apply filter_In in I as [I B].
    apply andb_true_iff in B as [B B2]. apply andb_true_iff in B as [B1 B]. apply X; auto. rewrite <- tagged_iff. destruct (tagged _ c); [discriminate|congruence]. }
  cbn [bind]. erewrite elements_total; [|apply by_tag_kind|auto]. rewrite (filter_tagb_e _ "attributeGroup") by reflexivity. cbn [bind].
  match goal with |- context [rmapm ?f ?l] => destruct (rmapm_total f l) as (gs & ->) end; [|cbn; eauto].
  intros x I. apply in_map_iff in I as (c & <- & I). apply in_tagged in I as [I (t & [<-|[]] & Tc)]. apply X; auto.
  - eapply lit_nonempty_tag; [exact Tc|discriminate].
  - eapply tag_neq; [|exact Tc]. discriminate.
Qed.

(** ** Occurrences: where the code departs from the natural container *)
Lemma xsd_min_is n a : xsd_min n a -> min_is n a.
Proof.
  intros [[H ->]|(s & H & C)]; [right|left; eauto]. split; auto. intros s j Hs. unfold has, absent in *. congruence.
Qed.
Lemma count_unique s a b : count_text s a -> count_text s b -> a = b.
Proof. rewrite <- !count_text_iff. congruence. Qed.
Lemma natural_iff n a b : xsd_min n a -> xsd_max n b -> at_most a b ->
  (natural a b (element_modifier n) <-> ~ (a = 0 /\ present n "maxOccurs" /\ (b = Some 0 \/ b = Some 1))) /\
  (~ natural a b (element_modifier n) -> element_modifier n = MNone).
Proof.
  intros A B L. apply xsd_min_is in A. pose proof (element_modifier_cases n) as C.
  assert (K : max_known n <-> present n "maxOccurs").
  { destruct B as [[B _]|[[B _]|(s & k & B & Ck & _)]].
    - unfold max_known, present, has, absent in *. split; [intros [H|(s & k & H & _)]; congruence|intros (v & H); congruence].
    - split; [intros _; exists (lit "unbounded"); auto|intros _; left; auto].
    - split; [intros _; exists s; auto|intros _; right; eauto]. }
  assert (M : max_many n <-> match b with None => True | Some k => 1 < k end).
  { destruct B as [[B ->]|[[B ->]|(s & k & B & Ck & ->)]]; unfold max_many.
    - split; [intros [H|(s & k & H & _)]; unfold has, absent in *; congruence|lia].
    - tauto.
    - split; [intros [H|(s' & k' & H & C' & G)]|intros G; right; eauto].
      + exfalso. unfold has in *. rewrite H in B. injection B as <-. eapply not_unbounded; eauto.
      + unfold has in *. rewrite H in B. injection B as <-. rewrite (count_unique _ _ _ Ck C'). auto. }
  remember (element_modifier n) as m eqn:Em. clear Em. unfold natural.
  destruct C as [C|C C'|C C'].
  - assert (X : match b with None => True | Some k => 1 < k end).
    { destruct C as [(j & Hj & G)|C]; [|apply M; auto]. rewrite (min_unique _ _ _ A Hj) in *. destruct b; cbn in L; lia. }
    destruct b as [k|]; [|split; [|congruence]; split; [intros _ (_ & _ & [|]); discriminate|auto]].
    split; [split; [intros _ (_ & _ & [[= ->]|[= ->]]); lia|intros _; repeat split; lia]|]. intros N0. exfalso. apply N0. repeat split; lia.
  - rewrite (min_unique _ _ _ A C) in *. assert (b = Some 1) as ->.
    { destruct B as [[_ ->]|[[B _]|(s & k & B & Ck & _)]]; auto; exfalso; apply C', K; eexists; eauto. }
    split; [split; [intros _ (_ & P & _); apply C', K; auto|intros _; repeat split; auto; lia]|]. intros N0. exfalso. apply N0. repeat split; auto; lia.
  - destruct b as [k|]; [|exfalso; apply C, M; auto]. assert (k <= 1) by (rewrite M in C; lia).
    split; [|auto]. destruct C' as [C'|[C' Kn]]; rewrite (min_unique _ _ _ A C') in *.
    + split; [intros _ (E & _); discriminate|]. intros _. repeat split; auto; lia.
    + split; [intros (_ & H1 & _); specialize (H1 H eq_refl); discriminate|]. intros N0. exfalso. apply N0. split; auto. split; [apply K; auto|].
      assert (k = 0 \/ k = 1) as [->| ->] by lia; auto.
Qed.

(** ** Local attributes, both directions *)
Lemma attribute_iff u n p anc e : calm p -> ~ tag "schema" p -> tag "attribute" n ->
  (parse_node u n (p :: anc) = Ok e <-> exists f, e = EField f /\ attribute_field n f).
Proof.
  intros C S T. rewrite (step_kind u n _ KAttribute) by exact T. rewrite (parse_attribute_iff n p anc _ e C S). unfold attribute_field.
  split; intros (f & -> & H); exists f; (split; [auto|]).
  - destruct H as (H1 & H2 & H3 & H4 & H5 & H6). split; auto. split; auto. split; [rewrite H3; apply doc_ok|]. split; auto.
    intros T'. exfalso. eapply tag_neq; [|exact T|exact T']. discriminate.
  - destruct H as (H1 & H2 & H3 & H4 & _). destruct (H4 T) as (H5 & H6 & H7). apply doc_unique in H3. auto 8.
Qed.
Lemma attribute_total u n p anc : calm p -> ~ tag "schema" p -> tag "attribute" n ->
  ((exists e, parse_node u n (p :: anc) = Ok e) <-> (present n "name" \/ present n "ref") /\ exists m, use_means n m).
Proof.
  intros C S T. split.
  - intros (e & H). apply attribute_iff in H; auto. destruct H as (f & _ & _ & _ & _ & H & _). destruct (H T) as (N0 & _ & m & U & _).
    split; [|eauto]. destruct N0 as [N0|[_ N0]]; [left|right]; eexists; eauto.
  - intros (N0 & m & U).
    assert (Y : exists nm, has n "name" nm \/ absent n "name" /\ has n "ref" nm).
    { unfold present, has, absent in *. destruct (attribute n (lit "name")); [eauto|]. destruct N0 as [(v & ?)|(v & ?)]; [discriminate|]. eauto. }
    destruct Y as (nm & Y). 
    exists (EField {| fl_name := nm; fl_type := pick (attribute n (lit "type")) (attribute n (lit "ref")) (lit "String"); fl_comment := get_documentation n;
                      fl_subtypes := []; fl_source := FromAttribute; fl_mods := [m] |}). apply attribute_iff; auto. eexists. split; [reflexivity|].
    unfold attribute_field. cbn. split; auto. split; auto. split; [apply doc_ok|]. split; [intros _; split; auto; split; eauto|].
    intros T'. exfalso. eapply tag_neq; [|exact T|exact T']. discriminate.
Qed.

(** ** Nested model groups in a sequence *)
Lemma nested_group_fails u n anc c e : one ["sequence"; "all"] n -> In c (children n) -> one ["sequence"; "all"; "group"] c ->
  parse_node u n anc <> Ok e.
Proof.
  intros T I O H. assert (H' : parse_sequence n anc (kids u n anc) = Ok e).
  { destruct T as (t & [<-|[<-|[]]] & T); [rewrite (step_kind u n _ KSequence) in H by exact T|rewrite (step_kind u n _ KAll) in H by exact T]; exact H. }
  unfold parse_sequence in H'. bk H' P HP. bk H' fs Hfs. unfold elements_to_fields in Hfs. bk Hfs l Hl.
  eapply elements_inv in Hl; [|apply by_tag_not_annotation]. destruct Hl as [_ ->].
  rewrite filter_particles in Hfs. apply rmapm_kids in Hfs.
  assert (I' : In c (particles n)).
  { apply in_particles. split; auto. destruct O as (t & [<-|[<-|[<-|[]]]] & Tc); (split; [eapply lit_nonempty_tag; [exact Tc|discriminate]|eapply tag_neq; [|exact Tc]; discriminate]). }
  destruct (Forall2_in_l _ _ _ _ Hfs I') as (f & _ & Hf). cbn in Hf. bk Hf e' He.
  destruct O as (t & [<-|[<-|[<-|[]]]] & Tc).
  - destruct (sequence_ok u c (n :: anc) e') as (P' & s & -> & _); auto; [eexists; split; [left; reflexivity|exact Tc]|discriminate].
  - destruct (sequence_ok u c (n :: anc) e') as (P' & s & -> & _); auto; [eexists; split; [right; left; reflexivity|exact Tc]|discriminate].
  - rewrite (step_kind u c _ KGroup) in He by exact Tc. discriminate.
Qed.
(** Top-level declarations without a parser *)
Lemma top_level_fails u n anc c f : tag "schema" n -> In c (children n) ->
  one ["group"; "notation"; "redefine"; "key"; "keyRef"; "unique"; "field"; "selector"; "appInfo"; "documentation"; "schema"; "extension"; "restriction"] c ->
  parse_schema u n anc <> Ok f.
Proof.
  intros S I O H. destruct (schema_inv _ _ _ _ H) as (_ & H1 & _).
  assert (I' : In c (declarations n)).
  { unfold declarations. apply filter_In. split; auto. destruct O as (t & Ht & Tc).
    assert (is_element c = true) as ->. { eapply lit_nonempty_tag; [exact Tc|]. cbn in Ht. repeat (destruct Ht as [<-|Ht]; [discriminate|]). destruct Ht. }
    unfold tagged. rewrite Tc. cbn in Ht. repeat (destruct Ht as [<-|Ht]; [reflexivity|]). destruct Ht. }
  destruct (Forall2_in_l _ _ _ _ H1 I') as (e & _ & He). cbn in He. destruct O as (t & Ht & Tc). cbn in Ht.
  repeat (destruct Ht as [<-|Ht]; [first [
     rewrite (step_kind u c _ KGroup) in He by exact Tc | rewrite (step_kind u c _ KNotation) in He by exact Tc | rewrite (step_kind u c _ KRedefine) in He by exact Tc
   | rewrite (step_kind u c _ KKey) in He by exact Tc | rewrite (step_kind u c _ KKeyRef) in He by exact Tc | rewrite (step_kind u c _ KUnique) in He by exact Tc
   | rewrite (step_kind u c _ KField) in He by exact Tc | rewrite (step_kind u c _ KSelector) in He by exact Tc | rewrite (step_kind u c _ KAppInfo) in He by exact Tc
   | rewrite (step_kind u c _ KDocumentation) in He by exact Tc | rewrite (step_kind u c _ KSchema) in He by exact Tc
   | rewrite parse_node_eq in He; unfold parse_step in He; rewrite (xsd_derivation c n anc "extension") in He by (cbn; auto); cbn [String.eqb Ascii.eqb Bool.eqb] in He; unfold extension_of in He; unfold tag in S; rewrite S in He
   | rewrite parse_node_eq in He; unfold parse_step in He; rewrite (xsd_derivation c n anc "restriction") in He by (cbn; auto); cbn [String.eqb Ascii.eqb Bool.eqb] in He; unfold restriction_of in He; unfold tag in S; rewrite S in He ]; discriminate|]).
  destruct Ht.
Qed.

(** ** Recursive types *)
Lemma recursive_ok u n anc s : one ["sequence"; "all"] n -> parse_node u n anc = Ok (EStruct s) ->
  Forall2 (fun c f => tag "element" c ->
    (suffix (st_name s) (fl_type f) -> forall t, modify_type t (fl_mods f) = lit "Vec<" ++ t ++ lit ">") /\
    (~ suffix (st_name s) (fl_type f) -> exists m, container c m /\ fl_mods f = [m])) (particles n) (st_fields s).
Proof.
  intros T H. destruct (sequence_ok _ _ _ _ T H) as (P & s' & [= <-] & _ & <- & _ & _ & _ & F).
  eapply Forall2_imp; [|exact F]. cbn beta. intros c f _ [HE _] Tc. destruct (HE Tc) as (_ & _ & _ & (m & r & Cm & Em & R1 & R2) & _).
  rewrite Em. split.
  - intros Sx. rewrite (R1 Sx). intros t. apply modify_recursive.
    + intros [E|[E|[]]]; [subst m; inversion Cm|discriminate].
    + right. left. auto.
  - intros Sx. exists m. split; auto. rewrite (R2 Sx). auto.
Qed.
Lemma namespaces_ok u n anc f : parse_schema u n anc = Ok f ->
  match attribute n (lit "targetNamespace") with
  | Some tn => is_first (fun a => ns_uri a = tn) (namespaces n) (rf_target_ns f)
  | None => rf_target_ns f = None
  end /\
  (let uri ns := ns_uri ns = lit "http://www.w3.org/2001/XMLSchema" in
   let named_uri ns := uri ns /\ ns_name ns <> None in
   (exists x, rf_xsd_ns f = Some x /\ first_such named_uri (namespaces n) x) \/
   ((forall x, In x (namespaces n) -> ~ named_uri x) /\ is_first uri (namespaces n) (rf_xsd_ns f))).
Proof.
  intros H. destruct (schema_inv _ _ _ _ H) as (_ & _ & _ & -> & ->). split; [apply target_ok|apply xsd_ns_ok].
Qed.

(** ** Composition of complex types *)
Lemma complex_sequence u n anc e c : tag "complexType" n -> parse_node u n anc = Ok e ->
  final (tagged_children content_tags n) c -> one ["sequence"; "all"] c -> has_elements c ->
  exists nm P s F A, e = EStruct s /\ type_name n anc nm /\ enclosing (n :: anc) P /\ st_name s = nm /\
    st_fields s = F ++ A /\ Forall2 attribute_field (attribute_children n) A /\
    Forall2 (fun x f => particle_field (fun t e => parse_node u t (x :: c :: n :: anc) = Ok e) P x f) (particles c) F /\
    comment_ok n (st_comment s) /\ st_groups s = [].
Proof.
  intros T H Fc O E. destruct (complex_ok _ _ _ _ T H) as (nm & A & HN & HA & _ & H2). destruct (H2 c Fc E) as (ec & Hec & R).
  destruct (sequence_ok _ _ _ _ O Hec) as (P & s0 & -> & HP & _ & Hg & _ & Hc & HF). cbn in R.
  destruct R as (s & -> & R1 & R2 & R3 & R4 & R5). exists nm, P, s, (st_fields s0), A. rewrite R5, R3. repeat split; auto. eapply Hc; eauto.
Qed.
Lemma complex_choice u n anc e c : tag "complexType" n -> parse_node u n anc = Ok e ->
  final (tagged_children content_tags n) c -> tag "choice" c -> has_elements c ->
  exists nm en s A f, e = EEnum en /\ type_name n anc nm /\ en_name en = nm ++ lit "Choice" /\ en_source en = OfChoice /\
    Forall2 choice_case (tagged_children ["element"] c) (en_cases en) /\ en_subtypes en = [EStruct s] /\
    st_name s = nm /\ st_fields s = A ++ [f] /\ choice_field nm f /\
    Forall2 attribute_field (attribute_children n) A /\ Forall2 group_ref (group_children n) (st_groups s) /\
    comment_ok n (st_comment s).
Proof.
  intros T H Fc O E. destruct (complex_ok _ _ _ _ T H) as (nm & A & HN & HA & _ & H2). destruct (H2 c Fc E) as (ec & Hec & R).
  destruct (choice_ok _ _ _ _ O Hec) as (en0 & -> & _ & _ & (K1 & _ & _ & K2)). cbn in R.
  destruct R as (en & s & f & -> & R1 & R2 & R3 & _ & _ & R4 & R5 & R6 & R7 & R8 & R9 & _). exists nm, en, s, A, f.
  rewrite R2, R3. repeat split; auto; apply R7.
Qed.
Lemma complex_plain u n anc e : tag "complexType" n -> parse_node u n anc = Ok e ->
  (forall c, final (tagged_children content_tags n) c -> ~ has_elements c) ->
  exists nm s, e = EStruct s /\ type_name n anc nm /\ st_name s = nm /\ comment_ok n (st_comment s) /\
    Forall2 attribute_field (attribute_children n) (st_fields s) /\ Forall2 group_ref (group_children n) (st_groups s).
Proof.
  intros T H E. destruct (complex_ok _ _ _ _ T H) as (nm & A & HN & HA & H1 & _). destruct (H1 E) as (s & -> & R1 & R2 & R3 & R4 & R5).
  exists nm, s. rewrite R2. auto 8.
Qed.
Lemma content_has_elements c d : final (particles c) d -> has_elements c.
Proof. intros F. apply final_in, in_particles in F as (I & E & _). exists d. auto. Qed.
Lemma complex_derived u n anc e c d t : tag "complexType" n -> parse_node u n anc = Ok e ->
  final (tagged_children content_tags n) c -> tag "complexContent" c -> final (particles c) d ->
  In t ["extension"; "restriction"] -> tag t d ->
  exists nm s B A b, e = EStruct s /\ type_name n anc nm /\ st_name s = nm /\ base_placeholder d b /\
    Forall2 attribute_field (attribute_children d) A /\ Forall2 attribute_field (attribute_children n) B /\
    comment_ok d (st_comment s) /\
    (forall q, final (tagged_children (derivation_tags t) d) q -> one ["sequence"; "all"] q ->
       exists P F, enclosing (d :: c :: n :: anc) P /\ st_fields s = F ++ A ++ [b] ++ B /\ st_groups s = [] /\
         Forall2 (fun x f => particle_field (fun t e => parse_node u t (x :: q :: d :: c :: n :: anc) = Ok e) P x f) (particles q) F) /\
    ((forall q, final (tagged_children (derivation_tags t) d) q -> ~ one ["sequence"; "all"] q) ->
       st_fields s = A ++ [b] ++ B /\ Forall2 group_ref (group_children d) (st_groups s)).
Proof.
  intros T H Fc O Fd It Td. destruct (complex_ok _ _ _ _ T H) as (nm & B & HN & HB & _ & H2).
  destruct (H2 c Fc (content_has_elements _ _ Fd)) as (ec & Hec & R).
  destruct (content_ok u c (n :: anc) ec) as (d' & Fd' & Hd); auto; [eexists; split; [left; reflexivity|exact O]|].
  rewrite (final_unique _ _ _ Fd' Fd) in *. destruct (derivation_ok _ _ _ _ _ t It Td O Hd) as (s0 & A & b & -> & HA & Hb & _ & Hc & D1 & D2).
  cbn in R. destruct R as (s & -> & R1 & R2 & R3 & R4 & R5). exists nm, s, B, A, b. rewrite R5. do 7 (split; [auto|]). split.
  - intros q Fq Oq. destruct (D1 q Fq Oq) as (P & F & HP & HF & Hg & HFF). exists P, F. rewrite R2, R3, HF, <- !app_assoc. auto.
  - intros Nq. destruct (D2 Nq) as (HF & Hg). rewrite R2, R3, HF, <- !app_assoc. auto.
Qed.
Lemma complex_simple u n anc e c d : tag "complexType" n -> parse_node u n anc = Ok e ->
  final (tagged_children content_tags n) c -> tag "simpleContent" c -> final (particles c) d -> tag "extension" d ->
  exists nm s B A b, e = EStruct s /\ type_name n anc nm /\ st_name s = nm /\ base_placeholder d b /\
    Forall2 attribute_field (attribute_children d) A /\ Forall2 attribute_field (attribute_children n) B /\
    comment_ok d (st_comment s) /\ st_fields s = A ++ [b] ++ B /\ Forall2 group_ref (group_children d) (st_groups s).
Proof.
  intros T H Fc O Fd Td. destruct (complex_ok _ _ _ _ T H) as (nm & B & HN & HB & _ & H2).
  destruct (H2 c Fc (content_has_elements _ _ Fd)) as (ec & Hec & R).
  destruct (content_ok u c (n :: anc) ec) as (d' & Fd' & Hd); auto; [eexists; split; [right; left; reflexivity|exact O]|].
  rewrite (final_unique _ _ _ Fd' Fd) in *. destruct (simple_extension_ok _ _ _ _ _ Td O Hd) as (s0 & A & b & -> & HA & Hb & _ & Hc & D1 & D2).
  cbn in R. destruct R as (s & -> & R1 & R2 & R3 & R4 & R5). exists nm, s, B, A, b. rewrite R5, R2, R3, D1, <- !app_assoc. auto 12.
Qed.
