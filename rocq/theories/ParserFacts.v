(** Basic lemmas about the parser model: tags, filters over children, unfolding. *)
From Coq Require Import Arith NArith ZArith Bool Ascii String List Lia.
From Coq Require Import ZifyBool ZifyNat ZifyN.
From Verif Require Import Str StrFacts Xml Names Entity Parser.
Import ListNotations.
Arguments lit : simpl never.

(** ** The result monad *)
Lemma bind_ok {A B} (r : res A) (f : A -> res B) b : bind r f = Ok b <-> exists a, r = Ok a /\ f a = Ok b.
Proof.
  destruct r; cbn; split; try discriminate; eauto; try (intros (x & E & H); congruence).
Qed.
Lemma rmap_iff {A B} (f : A -> B) r b : rmap f r = Ok b <-> exists a, r = Ok a /\ f a = b.
Proof.
  destruct r; cbn; split; try discriminate; try (intros (x & E & H); congruence). intros [= <-]; eauto.
Qed.
Lemma expect_ok {A} (o : option A) a : expect o = Ok a <-> o = Some a.
Proof. destruct o; cbn; split; congruence. Qed.

Lemma rmapm_ok {A B} (f : A -> res B) l r : rmapm f l = Ok r <-> Forall2 (fun x y => f x = Ok y) l r.
Proof.
  revert r; induction l as [|x l IH]; intros r; cbn.
  - split; [intros [= <-]; constructor|]. intros H; inversion H; auto.
  - rewrite bind_ok. split.
    + intros (y & Hy & H). apply bind_ok in H as (r' & Hr & [= <-]). constructor; auto. apply IH; auto.
    + intros H. inversion H; subst. eexists; split; eauto. apply bind_ok. eexists; split; [apply IH; eauto|auto].
Qed.

Lemma rfilter_ok {A} (p : A -> res bool) (q : A -> bool) l r :
  (forall x b, In x l -> p x = Ok b -> b = q x) ->
  (rfilter p l = Ok r <-> Forall (fun x => exists b, p x = Ok b) l /\ r = filter q l).
Proof.
  revert r; induction l as [|x l IH]; intros r Hq; cbn.
  - split; [intros [= <-]; auto|intros [_ ->]; auto].
  - rewrite bind_ok. assert (IH' := fun r => IH r (fun y b Hy => Hq y b (or_intror Hy))). split.
    + intros (b & Hb & H). apply bind_ok in H as (r' & Hr & [= <-]). apply IH' in Hr as [Hl ->].
      split; [constructor; eauto|]. rewrite <- (Hq x b (or_introl eq_refl) Hb). auto.
    + intros [Hl ->]. inversion Hl as [|? ? [b Hb] Hl']; subst. exists b; split; auto.
      apply bind_ok. exists (filter q l). split; [apply IH'; auto|]. rewrite <- (Hq x b (or_introl eq_refl) Hb). auto.
Qed.

Lemma last_opt_in {A} (l : list A) x : last_opt l = Some x -> In x l.
Proof.
  induction l as [|y l IH]; cbn; [discriminate|]. destruct l as [|z l]; [intros [= ->]; auto|]. intros H; right; auto.
Qed.
Lemma last_opt_none {A} (l : list A) : last_opt l = None <-> l = [].
Proof. induction l as [|y l IH]; cbn; [tauto|]. destruct l; split; try discriminate. intros H. apply IH in H. discriminate. Qed.
Lemma last_opt_app {A} (l : list A) x : last_opt (l ++ [x]) = Some x.
Proof. induction l as [|y l IH]; auto. cbn. rewrite IH. destruct (l ++ [x]) eqn:E; auto. destruct l; discriminate. Qed.
Lemma last_opt_map {A B} (f : A -> B) l : last_opt (map f l) = option_map f (last_opt l).
Proof. induction l as [|x l IH]; auto. destruct l; auto. Qed.

Lemma Forall2_map_l {A B C} (g : A -> C) (P : C -> B -> Prop) l r : Forall2 P (map g l) r <-> Forall2 (fun x y => P (g x) y) l r.
Proof.
  revert r; induction l as [|x l IH]; intros r; cbn; split; intros H; inversion H; subst; constructor; auto; apply IH; auto.
Qed.
Lemma Forall2_imp {A B} (P Q : A -> B -> Prop) l r : (forall x y, In x l -> P x y -> Q x y) -> Forall2 P l r -> Forall2 Q l r.
Proof. intros H F; induction F; constructor; auto. - apply H; cbn; auto. - apply IHF. intros; apply H; cbn; auto. Qed.
Lemma Forall2_in_r {A B} (P : A -> B -> Prop) l r y : Forall2 P l r -> In y r -> exists x, In x l /\ P x y.
Proof. induction 1; cbn; [tauto|]. intros [<-|H']; eauto. destruct (IHForall2 H') as (z & Hz & Pz). eauto. Qed.
Lemma Forall2_in_l {A B} (P : A -> B -> Prop) l r x : Forall2 P l r -> In x l -> exists y, In y r /\ P x y.
Proof. induction 1; cbn; [tauto|]. intros [<-|H']; eauto. destruct (IHForall2 H') as (z & Hz & Pz). eauto. Qed.

Lemma filter_map {A B} (g : A -> B) p l : filter p (map g l) = map g (filter (fun x => p (g x)) l).
Proof. induction l as [|x l IH]; cbn; auto. destruct (p (g x)); cbn; rewrite IH; auto. Qed.

Lemma assoc_In {A} k (l : list (str * A)) v : assoc k l = Some v -> In (k, v) l.
Proof.
  induction l as [|[k' w] l IH]; cbn; [discriminate|]. destruct (str_eqb_spec k k') as [->|].
  - intros [= ->]; auto.
  - auto.
Qed.
Lemma assoc_None {A} k (l : list (str * A)) : assoc k l = None <-> ~ In k (map fst l).
Proof.
  induction l as [|[k' w] l IH]; cbn; [tauto|]. destruct (str_eqb_spec k k') as [->|Hne].
  - split; [discriminate|]. intros H; exfalso; auto.
  - rewrite IH. split; [intros H [E|E]; congruence|tauto].
Qed.

(** ** Tags *)
Definition tag_of (k : kind) : str :=
  match k with
  | KAll => lit "all" | KAnnotation => lit "annotation" | KAny => lit "any" | KAnyAttribute => lit "anyAttribute"
  | KAppInfo => lit "appInfo" | KAttribute => lit "attribute" | KAttributeGroup => lit "attributeGroup"
  | KChoice => lit "choice" | KComplexContent => lit "complexContent" | KComplexType => lit "complexType"
  | KDocumentation => lit "documentation" | KElement => lit "element" | KField => lit "field" | KGroup => lit "group"
  | KImport => lit "import" | KInclude => lit "include" | KKey => lit "key" | KKeyRef => lit "keyRef"
  | KList => lit "list" | KNotation => lit "notation" | KRedefine => lit "redefine" | KSchema => lit "schema"
  | KSelector => lit "selector" | KSequence => lit "sequence" | KSimpleContent => lit "simpleContent"
  | KSimpleType => lit "simpleType" | KUnion => lit "union" | KUnique => lit "unique"
  end.

Lemma kind_tag_in t k : In (t, k) kind_tags -> t = tag_of k.
Proof. unfold kind_tags. cbn. intros H. repeat (destruct H as [[= <- <-]|H]; [reflexivity|]). destruct H. Qed.
Lemma kind_tag_assoc k : assoc (tag_of k) kind_tags = Some k.
Proof. destruct k; reflexivity. Qed.

Lemma kind_beq_eq a b : kind_beq a b = true <-> a = b.
Proof. split; [apply internal_kind_dec_bl|apply internal_kind_dec_lb]. Qed.

Lemma xsd_kind n anc k : tag_name n = tag_of k -> xsd_type n anc = Ok (TKind k).
Proof. unfold xsd_type. intros ->. rewrite kind_tag_assoc. auto. Qed.

Lemma xsd_kind_inv n anc k : xsd_type n anc = Ok (TKind k) -> tag_name n = tag_of k.
Proof.
  unfold xsd_type, white_space_of, attr_value. destruct (assoc (tag_name n) kind_tags) eqn:E.
  - intros [= ->]. apply assoc_In in E. apply kind_tag_in in E. auto.
  - destruct (str_eqb _ _); [unfold extension_of; destruct anc; try discriminate; repeat destruct (str_eqb _ _); discriminate|].
    destruct (str_eqb _ _); [unfold restriction_of; destruct anc; try discriminate; repeat destruct (str_eqb _ _); discriminate|].
    destruct (str_eqb _ _).
    + unfold white_space_of. destruct (attribute _ _); try discriminate. repeat destruct (str_eqb _ _); discriminate.
    + destruct (assoc _ facet_tags); [destruct (attribute _ _)|]; discriminate.
Qed.

Definition tagb (k : kind) (n : node) : bool := str_eqb (tag_name n) (tag_of k).

Lemma is_kind_tag n anc t k : xsd_type n anc = Ok t -> is_kind k t = tagb k n.
Proof.
  intros H. unfold tagb. destruct (str_eqb_spec (tag_name n) (tag_of k)) as [E|E].
  - rewrite (xsd_kind n anc k E) in H. injection H as <-. cbn. apply kind_beq_eq. auto.
  - destruct t as [k'| | | | |]; auto. cbn. destruct (kind_beq k k') eqn:B; auto. apply kind_beq_eq in B. subst.
    apply xsd_kind_inv in H. contradiction.
Qed.
Lemma one_of_tag n anc t ks : xsd_type n anc = Ok t -> one_of ks t = existsb (fun k => tagb k n) ks.
Proof. intros H. unfold one_of. induction ks as [|k ks IH]; cbn; auto. rewrite IH. erewrite is_kind_tag; eauto. Qed.

Lemma tagb_spec k n : reflect (tag_name n = tag_of k) (tagb k n).
Proof. apply str_eqb_spec. Qed.

Lemma tag_of_inj a b : tag_of a = tag_of b -> a = b.
Proof. intros H. assert (Some a = Some b) by (rewrite <- !kind_tag_assoc, H; auto). congruence. Qed.

Lemma tag_of_nonempty k : tag_of k <> [].
Proof. destruct k; discriminate. Qed.

(** does [xsd_type] of the node panic: a facet without a proper value *)
Definition calm (n : node) : Prop := forall anc, exists t, xsd_type n anc = Ok t.
Lemma calm_any n anc t : xsd_type n anc = Ok t -> calm n.
Proof.
  intros H anc'. revert H. unfold xsd_type, attr_value. cbv zeta. destruct (assoc (tag_name n) kind_tags); [intros; eexists; reflexivity|].
  destruct (str_eqb (tag_name n) (lit "extension")); [intros; eexists; reflexivity|].
  destruct (str_eqb (tag_name n) (lit "restriction")); [intros; eexists; reflexivity|].
  destruct (str_eqb (tag_name n) (lit "whiteSpace")); eauto.
Qed.
Lemma calm_kind n k : tag_name n = tag_of k -> calm n.
Proof. intros H anc. exists (TKind k). apply xsd_kind; auto. Qed.
Lemma calm_text n : is_element n = false -> calm n.
Proof. destruct n; try discriminate; intros _ anc; exists TUnknown; reflexivity. Qed.

(** ** Children filters *)
Lemma kids_def u n anc : kids u n anc = map (fun c => (c, parse_node u c (n :: anc))) (children n).
Proof. reflexivity. Qed.
Lemma parse_node_eq u n anc : parse_node u n anc = parse_step u n anc (kids u n anc).
Proof. destruct n; reflexivity. Qed.

Definition tags (ks : list kind) (n : node) : bool := existsb (fun k => tagb k n) ks.

(** predicates on element types which only look at the tag *)
Definition by_tag (p : etype -> bool) (q : node -> bool) : Prop :=
  forall n anc t, xsd_type n anc = Ok t -> p t = q n.
Lemma by_tag_kind k : by_tag (is_kind k) (tagb k).
Proof. intros n anc t H. eapply is_kind_tag; eauto. Qed.
Lemma by_tag_one_of ks : by_tag (one_of ks) (tags ks).
Proof. intros n anc t H. eapply one_of_tag; eauto. Qed.
Lemma by_tag_not p q : by_tag p q -> by_tag (fun t => negb (p t)) (fun n => negb (q n)).
Proof. intros H n anc t E. rewrite (H n anc t E). auto. Qed.
Lemma by_tag_and p q p' q' : by_tag p q -> by_tag p' q' -> by_tag (fun t => p t && p' t) (fun n => q n && q' n).
Proof. intros H H' n anc t E. rewrite (H n anc t E), (H' n anc t E). auto. Qed.

Lemma elements_where_ok p q u n anc l : by_tag p q ->
  (elements_where p (n :: anc) (kids u n anc) = Ok l <->
   Forall (fun c => is_element c = true -> calm c) (children n) /\
   l = map (fun c => (c, parse_node u c (n :: anc))) (filter (fun c => is_element c && q c) (children n))).
Proof.
  intros Hq. unfold elements_where, kids.
  etransitivity; [apply (rfilter_ok _ (fun k : kid => is_element (fst k) && q (fst k)))|].
  - intros x b _ Hb. destruct (is_element (fst x)) eqn:E; cbn.
    + apply rmap_iff in Hb as (t & Ht & <-). eapply Hq; eauto.
    + congruence.
  - rewrite filter_map. cbn [fst]. rewrite Forall_map. cbn [fst]. apply and_iff_compat_r.
    split; apply Forall_impl; intros c.
    + intros [b Hb] E. rewrite E in Hb. apply rmap_iff in Hb as (t & Ht & _). eapply calm_any; eauto.
    + intros Hc. destruct (is_element c) eqn:E; [|eauto]. destruct (Hc eq_refl (n :: anc)) as [t Ht]. rewrite Ht. cbn. eauto.
Qed.

Lemma nodes_where_ok p q u n anc l : by_tag p q ->
  (nodes_where p (n :: anc) (kids u n anc) = Ok l <->
   Forall calm (children n) /\
   l = map (fun c => (c, parse_node u c (n :: anc))) (filter q (children n))).
Proof.
  intros Hq. unfold nodes_where, kids.
  etransitivity; [apply (rfilter_ok _ (fun k : kid => q (fst k)))|].
  - intros x b _ Hb. apply rmap_iff in Hb as (t & Ht & <-). eapply Hq; eauto.
  - rewrite filter_map. cbn [fst]. rewrite Forall_map. cbn [fst]. apply and_iff_compat_r.
    split; apply Forall_impl; intros c.
    + intros [b Hb]. apply rmap_iff in Hb as (t & Ht & _). eapply calm_any; eauto.
    + intros Hc. destruct (Hc (n :: anc)) as [t Ht]. rewrite Ht. cbn. eauto.
Qed.

Lemma calm_elements cs : Forall (fun c => is_element c = true -> calm c) cs <-> Forall calm cs.
Proof.
  split; apply Forall_impl; intros c H; auto. destruct (is_element c) eqn:E; auto. apply calm_text; auto.
Qed.

(** an element with the tag of a kind is an element *)
Lemma tagb_element k n : tagb k n = true -> is_element n = true.
Proof. unfold tagb. intros H. apply str_eqb_eq in H. destruct n; auto; symmetry in H; exfalso; eapply tag_of_nonempty; eauto. Qed.
Lemma tags_element ks n : tags ks n = true -> is_element n = true.
Proof. unfold tags. intros H. apply existsb_exists in H as (k & _ & H). eapply tagb_element; eauto. Qed.
