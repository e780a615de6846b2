(** Proofs about distinct members and variants. *)
From Coq Require Import Arith NArith ZArith Bool Ascii String List Lia Permutation.
From Verif Require Import Str StrFacts SpecLex SpecNames SpecBuiltin Xml Comment CommentProofs Names NamesProofs Entity Parser ParserFacts SpecSchema ParserProofs Link SpecLink LinkProofs Gen SpecRust SpecGen RustFacts GenProofs GenProofs2 SpecDoc DocProofs SpecScope ScopeProofs SpecTraits TraitProofs SpecSize SizeProofs ShapeProofs SpecDistinct DistinctProofs DistinctProofs2.
Import ListNotations.
Local Open Scope string_scope.
Local Open Scope list_scope.
Local Open Scope N_scope.
Notation concat := List.concat.
Arguments lit : simpl never.

(** ** Counting *)
Definition str_dec : forall a b : str, {a = b} + {a <> b} := list_eq_dec N.eq_dec.
Notation count := (count_occ str_dec).
Lemma count_app x a b : count (a ++ b) x = (count a x + count b x)%nat.
Proof. apply count_occ_app. Qed.
Lemma sub_count a b : sub a b -> forall x, (count a x <= count b x)%nat.
Proof. intros (r & P) x. rewrite (proj1 (Permutation_count_occ str_dec _ _) P x), count_app. lia. Qed.
Lemma count_sub a : forall b, (forall x, (count a x <= count b x)%nat) -> sub a b.
Proof.
  induction a as [|y a IH]; intros b H; [apply sub_nil|]. assert (I : In y b).
  { apply (count_occ_In str_dec). specialize (H y). cbn in H. destruct (str_dec y y); [lia|congruence]. }
  apply in_split in I as (p & q & ->). eapply sub_trans; [apply sub_cons, (IH (p ++ q))|apply sub_perm, Permutation_middle].
  intros x. specialize (H x). rewrite count_app in *. cbn in H. destruct (str_dec y x); lia.
Qed.
Lemma count_filter p l x : count (filter p l) x = if p x then count l x else 0%nat.
Proof.
  induction l as [|y l IH]; cbn; [destruct (p x); auto|]. destruct (p y) eqn:E; cbn; destruct (str_dec y x) as [->|]; rewrite ?IH; try rewrite E; auto.
Qed.
Lemma existsb_in x l : existsb (str_eqb x) l = true <-> In x l.
Proof. rewrite existsb_exists. split; [intros (y & I & E); apply str_eqb_eq in E; subst; auto|intros I; exists x; split; auto; apply str_eqb_eq; auto]. Qed.
Lemma merge_sub E own own' a a' g g' : sub own' own -> incl own' E -> sub a' a -> NoDup a -> sub g' g ->
  sub (own' ++ filter (fun x => negb (existsb (str_eqb x) E)) a' ++ g') (merge own a g).
Proof.
  intros O I A N G. apply count_sub. intros x. unfold merge, unlisted. rewrite !count_app, !count_filter.
  pose proof (sub_count _ _ O x). pose proof (sub_count _ _ A x). pose proof (sub_count _ _ G x). pose proof (proj1 (NoDup_count_occ str_dec a) N x).
  destruct (existsb (str_eqb x) own) eqn:Xo; cbn [negb].
  - apply existsb_in, (count_occ_In str_dec) in Xo. destruct (existsb (str_eqb x) E) eqn:Xe; cbn [negb]; [lia|].
    assert (count own' x = 0%nat); [|lia]. apply count_occ_not_In. intros J. apply I, existsb_in in J. congruence.
  - assert (count own' x = 0%nat). { apply count_occ_not_In. intros J. eapply sub_incl, existsb_in in J; [|exact O]. congruence. }
    destruct (negb _); lia.
Qed.

(** ** Fields *)
Definition shown (f : field entity) : bool := negb (existsb (modifier_eqb MEmpty) (fl_mods f)).
(** The members a list of fields gives; without those that stand for bases. *)
Definition kept (fs : list (field entity)) : list str := map fl_name (filter shown fs).
Definition pk (fs : list (field entity)) : list str := kept (proper fs).
Lemma kept_app a b : kept (a ++ b) = kept a ++ kept b.
Proof. unfold kept. rewrite filter_app, map_app. auto. Qed.
Lemma pk_app a b : pk (a ++ b) = pk a ++ pk b.
Proof. unfold pk, proper. rewrite filter_app. apply kept_app. Qed.
Lemma pk_concat l : pk (concat l) = concat (map pk l).
Proof. induction l as [|x l IH]; auto. cbn [List.concat map]. rewrite pk_app, IH. auto. Qed.
Lemma pk_kept fs : placeholders fs = [] -> pk fs = kept fs.
Proof.
  intros P. unfold pk. f_equal. unfold placeholders, proper in *. induction fs as [|f fs IH]; auto. cbn in *. destruct (str_eqb (fl_name f) (lit "__base__")); [discriminate|]. cbn. rewrite IH; auto.
Qed.
Lemma kept_marked fs : sub (kept fs) (map fl_name (placeholders fs) ++ pk fs).
Proof.
  unfold pk, kept, placeholders, proper. induction fs as [|f fs IH]; [apply sub_nil|]. cbn. destruct (str_eqb (fl_name f) (lit "__base__")) eqn:E; cbn; destruct (shown f); cbn; auto.
  - apply sub_cons. auto.
  - apply sub_skip. auto.
  - eapply sub_trans; [apply sub_cons; exact IH|]. apply sub_perm, Permutation_middle.
Qed.
Lemma placeholders_named fs : map fl_name (placeholders fs) = map (fun _ => lit "__base__") (map fl_type (placeholders fs)).
Proof.
  unfold placeholders. induction fs as [|f fs IH]; auto. cbn. destruct (str_eqb (fl_name f) (lit "__base__")) eqn:E; cbn; auto. apply str_eqb_eq in E. congruence.
Qed.
Lemma pk_same R fs own : Forall2 (same_field R) fs own -> pk own = pk fs /\ map fl_name own = map fl_name fs.
Proof.
  intros F. unfold pk, kept, proper. induction F as [|f g fs own (E1 & _ & _ & _ & E2 & _) F [IH1 IH2]]; auto. cbn. rewrite E1.
  destruct (str_eqb (fl_name f) (lit "__base__")); cbn; [split; congruence|]. assert (Es : shown g = shown f) by (unfold shown; rewrite E2; auto). rewrite Es. destruct (shown f); cbn; rewrite ?E1; split; congruence.
Qed.
Lemma pk_filtered own l : pk (not_redeclared own l) = filter (fun x => negb (existsb (str_eqb x) (map fl_name own))) (pk l).
Proof.
  unfold pk, kept, not_redeclared, proper.
  assert (X : forall g : field entity, existsb (fun f => str_eqb (fl_name f) (fl_name g)) own = existsb (str_eqb (fl_name g)) (map fl_name own)).
  { intros g. induction own as [|f own IH]; auto. cbn. rewrite IH. f_equal. destruct (str_eqb (fl_name f) (fl_name g)) eqn:E; symmetry.
    - apply str_eqb_eq in E. rewrite E. apply str_eqb_eq. auto.
    - destruct (str_eqb (fl_name g) (fl_name f)) eqn:E'; auto. apply str_eqb_eq in E'. rewrite E', str_eqb_refl in E. discriminate. }
  induction l as [|g l IH]; auto. cbn. rewrite X. destruct (str_eqb (fl_name g) (lit "__base__")) eqn:Eb, (existsb (str_eqb (fl_name g)) (map fl_name own)) eqn:Er; cbn; rewrite ?Eb; cbn; auto;
    destruct (shown g); cbn; auto; rewrite Er; cbn; auto. f_equal. auto.
Qed.
Lemma pk_incl fs : incl (pk fs) (map fl_name fs).
Proof. intros x I. unfold pk, kept, proper in I. apply in_map_iff in I as (f & <- & I). apply filter_In in I as [I _]. apply filter_In in I as [I _]. apply in_map. auto. Qed.
(** What a type is made of. *)
Lemma assembled_pk src own out : assembled src own out ->
  exists cs, Forall2 (fun b c => src (fl_type b) c) (placeholders own) cs /\ placeholders out = [] /\
    pk out = pk own ++ filter (fun x => negb (existsb (str_eqb x) (map fl_name own))) (concat (map pk cs)).
Proof.
  intros (cs & F & ->). exists cs. split; auto. split.
  - unfold placeholders. rewrite filter_app. assert (X : filter (fun f => str_eqb (fl_name f) (lit "__base__")) (proper own) = []).
    { unfold proper. induction own as [|f own IH]; auto. clear - own. induction (f :: own) as [|g l IH]; auto. cbn. destruct (str_eqb (fl_name g) (lit "__base__")) eqn:E; cbn; auto. rewrite E. auto. }
    rewrite X. cbn. destruct (filter _ (not_redeclared own (concat cs))) as [|b l] eqn:E; auto. exfalso.
    assert (I : In b (filter (fun f => str_eqb (fl_name f) (lit "__base__")) (not_redeclared own (concat cs)))) by (rewrite E; left; auto).
    apply filter_In in I as [I B]. apply in_not_redeclared in I as [I NR]. destruct (in_concat_2 _ _ _ _ F I) as (b0 & c & Ib & _). apply filter_In in Ib as [Ib Hb].
    apply str_eqb_eq in Hb, B. apply (NR b0 Ib). congruence.
  - rewrite pk_app, pk_filtered, pk_concat. f_equal. unfold pk. f_equal. unfold proper. clear. induction own as [|f own IH]; auto. cbn. destruct (str_eqb (fl_name f) (lit "__base__")) eqn:E; cbn; auto. rewrite E. cbn. f_equal. auto.
Qed.

(** ** Slots *)
Section Slots.
Definition passed : list string := ["complexType"; "sequence"; "all"; "complexContent"; "simpleContent"; "extension"; "restriction"; "attributeGroup"].
Lemma slots_down anc n : one passed n -> slots anc n = concat (map (slots (n :: anc)) (children n)).
Proof.
  intros (t & I & T). assert (X : tagged "attribute" n = false /\ tagged "element" n = false /\ tagged "choice" n = false).
  { cbn in I. repeat destruct I as [<-|I]; try destruct I; rewrite ?(tagged_not _ "attribute" _ T), ?(tagged_not _ "element" _ T), ?(tagged_not _ "choice" _ T); auto. }
  destruct X as (X1 & X2 & X3). assert (Y : among ["complexType"; "element"; "sequence"; "all"; "complexContent"; "simpleContent"; "extension"; "restriction"; "attributeGroup"] n = true).
  { apply among_iff. exists t. split; auto. cbn in *. tauto. }
  destruct n as [t0 a ns cs| |]; cbn [slots children]; rewrite X1, X2, X3, Y; auto.
Qed.
Lemma slots_tag t anc n : tag t n -> In t passed -> slots anc n = concat (map (slots (n :: anc)) (children n)).
Proof. intros T I. apply slots_down. exists t. auto. Qed.
Lemma slots_element p anc n : tag "element" n -> tag "schema" p -> slots (p :: anc) n = concat (map (slots (n :: p :: anc)) (children n)).
Proof.
  intros T S. assert (Y : among ["complexType"; "element"; "sequence"; "all"; "complexContent"; "simpleContent"; "extension"; "restriction"; "attributeGroup"] n = true).
  { apply among_iff. exists "element"%string. split; [cbn; tauto|auto]. }
  destruct n as [t0 a ns cs| |]; cbn [slots children]; rewrite (tagged_not _ "attribute" _ T), (tagged_is _ _ T), (tagged_not _ "choice" _ T), Y by reflexivity; unfold inside, among; cbn [existsb]; rewrite (tagged_is _ _ S); auto.
Qed.
Notation joined anc n := (apart anc n = false).
Lemma bases_children anc n : joined anc n -> sub (base_here anc n ++ concat (map (bases (n :: anc)) (children n))) (bases anc n).
Proof. intros O. destruct n as [t a ns cs| |]; cbn [bases children]; rewrite O; apply sub_refl. Qed.
Lemma bases_kid anc n c : joined anc n -> In c (children n) -> sub (bases (n :: anc) c) (bases anc n).
Proof. intros O I. eapply sub_trans; [|apply bases_children; auto]. eapply sub_trans; [|apply sub_r]. apply sub_in; auto. Qed.
Lemma groups_children anc n : joined anc n -> sub (concat (map (groups (n :: anc)) (children n))) (groups anc n).
Proof. intros O. destruct n as [t a ns cs| |]; cbn [groups children]; rewrite O; apply sub_r. Qed.
Lemma groups_kid anc n c : joined anc n -> In c (children n) -> sub (groups (n :: anc) c) (groups anc n).
Proof. intros O I. eapply sub_trans; [|apply groups_children; auto]. apply sub_in; auto. Qed.
Lemma joined_tag t anc n : tag t n -> In t passed -> joined anc n.
Proof.
  intros T I. unfold apart, among. cbn [existsb]. cbn in I. repeat destruct I as [<-|I]; try destruct I;
    rewrite (tagged_not _ "choice" _ T), (tagged_not _ "annotation" _ T), (tagged_not _ "attribute" _ T), (tagged_not _ "element" _ T); auto.
Qed.
Lemma joined_one ts anc n : one ts n -> incl ts passed -> joined anc n.
Proof. intros (t & I & T) S. eapply joined_tag; eauto. Qed.
Lemma slots_one ts anc n : one ts n -> incl ts passed -> slots anc n = concat (map (slots (n :: anc)) (children n)).
Proof. intros (t & I & T) S. eapply slots_tag; eauto. Qed.
Lemma joined_element p anc n : tag "element" n -> tag "schema" p -> joined (p :: anc) n.
Proof.
  intros T S. unfold apart, among. cbn [existsb]. rewrite (tagged_not _ "choice" _ T), (tagged_not _ "annotation" _ T), (tagged_not _ "attribute" _ T), (tagged_is _ _ T) by reflexivity.
  unfold inside, among. cbn [existsb]. rewrite (tagged_is _ _ S). auto.
Qed.
Lemma attribute_slots c n anc f : ~ tag "schema" n -> one ["attribute"; "anyAttribute"] c -> attribute_field c f -> sub (kept [f]) (slots (n :: anc) c).
Proof.
  intros N (t & [<-|[<-|[]]] & T) (_ & _ & _ & H1 & H2).
  - destruct (H1 T) as (Nm & _ & m & U & Ms). assert (E : slots (n :: anc) c = attribute_slot c).
    { assert (X : inside ["schema"] (n :: anc) = false) by (unfold inside, among; cbn [existsb]; destruct (tagged "schema" n) eqn:Y; auto; apply tagged_iff in Y; contradiction).
      destruct c; cbn [slots]; rewrite (tagged_is _ _ T), X; auto. }
    rewrite E. assert (P : pick (attribute c (lit "name")) (attribute c (lit "ref")) [] = fl_name f).
    { unfold has, absent in Nm. destruct Nm as [Nm|[A Nm]]; [rewrite Nm; auto|rewrite A, Nm; auto]. }
    unfold kept, attribute_slot. rewrite P. cbn [filter]. unfold shown. rewrite Ms. destruct U as [A|A|A|A]; unfold absent, has in A; rewrite A; cbn; try apply sub_refl; apply sub_nil.
  - destruct (H2 T) as (_ & _ & Ms). unfold kept, shown. cbn [filter]. rewrite Ms. cbn. apply sub_nil.
Qed.
Lemma pk_one f : sub (pk [f]) (kept [f]).
Proof. unfold pk, proper. cbn. destruct (str_eqb (fl_name f) (lit "__base__")); cbn; [apply sub_nil|apply sub_refl]. Qed.
Lemma attributes_slots n anc A : ~ tag "schema" n -> Forall2 attribute_field (attribute_children n) A -> sub (pk A) (concat (map (slots (n :: anc)) (attribute_children n))).
Proof.
  intros N F. assert (Q : forall l, Forall2 attribute_field l A -> (forall c, In c l -> one ["attribute"; "anyAttribute"] c) -> sub (pk A) (concat (map (slots (n :: anc)) l))).
  { clear F. intros l F. induction F as [|c f l A H F IH]; intros T; [apply sub_nil|]. cbn [map List.concat]. change (f :: A) with ([f] ++ A). rewrite pk_app. apply sub_app; [|apply IH; intros; apply T; right; auto].
    eapply sub_trans; [apply pk_one|]. apply attribute_slots; auto. apply T. left. auto. }
  apply Q; auto. intros c I. apply in_tagged in I as [_ I]. auto.
Qed.
Lemma groups_listed n anc gs : ~ tag "schema" n -> type_groups n gs -> sub (map al_original gs) (concat (map (groups (n :: anc)) (children n))).
Proof.
  intros N [->|H]; [apply sub_nil|]. eapply sub_trans; [|apply sub_filter with (p := fun c => existsb (fun t => tagged t c) ["attributeGroup"])].
  assert (Q : forall l, Forall2 group_ref l gs -> (forall c, In c l -> tag "attributeGroup" c) -> sub (map al_original gs) (concat (map (groups (n :: anc)) l))).
  { clear H. intros l F. induction F as [|c a l gs (R & _) F IH]; intros T; [apply sub_nil|]. cbn [map List.concat].
    apply (sub_app [al_original a]); [|apply IH; intros; apply T; right; auto].
    assert (Tc := T c (or_introl eq_refl)). eapply sub_trans; [|destruct c; cbn [groups]; apply sub_l].
    unfold group_here. rewrite (tagged_is _ _ Tc). unfold inside, among. cbn [existsb]. destruct (tagged "schema" n) eqn:X; [apply tagged_iff in X; contradiction|]. cbn.
    unfold has in R. rewrite R. apply sub_refl. }
  apply Q; auto. intros c I. apply in_tagged in I as [_ (t & [<-|[]] & T)]. auto.
Qed.
Lemma outside_attributes (l : list string) x : one l x -> forallb (fun t => negb (String.eqb t "attribute") && negb (String.eqb t "anyAttribute")) l = true ->
  existsb (fun t => tagged t x) ["attribute"; "anyAttribute"] = false.
Proof.
  intros (t & I & T) F. rewrite forallb_forall in F. specialize (F t I). apply andb_true_iff in F as [F1 F2]. apply negb_true_iff in F1, F2. cbn [existsb].
  rewrite (tagged_not _ _ _ T F1), (tagged_not _ _ _ T F2). auto.
Qed.
End Slots.

(** ** The parser *)
Section Raw.
Context (u : uni) (schema : node) (ident variant : str -> str) (SM : separate_members schema u ident variant).
Notation located := (located schema).
Definition variants_apart (en : enum entity) : Prop := NoDup (lit "__Unknown__" :: map variant (map ec_name (en_cases en))).
Definition drawn (anc : list node) (x : node) (s : strukt entity) : Prop :=
  located anc x /\ tag "complexType" x /\ sub (pk (st_fields s)) (slots anc x) /\ sub (map fl_type (placeholders (st_fields s))) (bases anc x) /\
  sub (map al_original (st_groups s)) (groups anc x) /\ st_subtypes s = [] /\ (List.length (placeholders (st_fields s)) <= 1)%nat.
Definition anonymous (anc : list node) : bool := negb (inside ["schema"] anc || inside ["schema"] (tl anc)).
Inductive raw : entity -> Prop :=
| raw_struct s anc x : drawn anc x s -> placeholders (st_fields s) = [] \/ anonymous anc = true ->
    Forall (fun f => Forall raw (fl_subtypes f)) (st_fields s) -> raw (EStruct s)
| raw_tuple t : Forall raw (tu_subtypes t) -> raw (ETuple t)
| raw_enum n : variants_apart n -> Forall raw (en_subtypes n) -> raw (EEnum n)
| raw_alias a : raw (EAlias a)
| raw_import i : raw (EImport i).
Notation raw_field f := (Forall raw (fl_subtypes f)).
Lemma raw_set nm e : raw e -> raw (set_name nm e).
Proof.
  intros R. inversion R as [s anc x D P F|t F|n V F|a|i]; subst; cbn; try (constructor; auto; fail).
  apply (raw_struct _ anc x); auto.
Qed.

Lemma simple_raw k : forall n p anc e, (size n < k)%nat -> ok GlobalSimple n \/ ok LocalSimple n -> located (p :: anc) n -> parse_node u n (p :: anc) = Ok e -> raw e.
Proof.
  induction k as [|k IH]; intros n p anc e S O Lo H; [lia|].
  assert (T : tag "simpleType" n) by (apply simple_kids in O; tauto).
  assert (LC : forall c, In c (children n) -> ~ tag "annotation" c -> located (n :: p :: anc) c) by (intros; constructor; auto).
  destruct (simple_shape u n p anc e O H) as [(t & -> & Es)|[(r & en & Or & Tr & PE & -> & Es & _ & Ec & _)|[X|X]]].
  - constructor. rewrite Es. constructor.
  - constructor; [|rewrite Es; constructor]. assert (Ir := only_in _ _ Or).
    destruct (SM (n :: p :: anc) r (LC r Ir ltac:(eapply not_note_tag; [exact Tr|reflexivity]))) as (_ & X & _). specialize (X Tr PE). unfold variants_apart.
    replace (map ec_name (en_cases en)) with (map value_of (tagged_children ["enumeration"] r)); auto.
    clear - Ec. induction Ec as [|c x l l' (V & N & _) F IHF]; auto. cbn. rewrite IHF. f_equal. unfold value_of. unfold has in V. rewrite V. cbn. auto.
  - destruct X as (l & c & ec & t & Ol & Tl & Al & Ic & Oc & Hc & -> & Y). assert (Il := only_in _ _ Ol).
    assert (Tc : tag "simpleType" c) by (inversion Oc; auto).
    assert (Sc : (size c < k)%nat). { pose proof (size_child _ _ Il). pose proof (size_child _ _ Ic). lia. }
    assert (R : raw ec).
    { apply (IH c l (n :: p :: anc)); auto. constructor; auto; [apply LC; auto; eapply not_note_tag; [exact Tl|reflexivity]|eapply not_note_tag; [exact Tc|reflexivity]]. }
    destruct Y as [(en & -> & Es)|(t0 & -> & Es)]; constructor; rewrite Es; [constructor; auto|]. inversion R; auto.
  - destruct X as (r & en & Or & Kr & Tr & -> & _ & ts & K1 & K2 & Mt & M1 & Ee & Nst). assert (Ir := only_in _ _ Or).
    assert (Lr : located (n :: p :: anc) r) by (apply LC; auto; eapply not_note_tag; [exact Tr|reflexivity]).
    assert (Kc : Forall (fun c => ignorable c \/ ok LocalSimple c) (children r)) by (inversion Kr; auto).
    assert (Q : forall i cs ks es, SpecSchema.nested (fun c e => parse_node u c (r :: n :: p :: anc) = Ok e) i cs ks es -> (forall c, In c cs -> In c (children r) /\ tag "simpleType" c) ->
      Forall raw es /\ map ec_name ks = member_cases i cs).
    { intros i cs ks es N. induction N as [i|i d c cs k0 ks e es He Hd Mk N IHN]; intros Hcs; [split; constructor|].
      destruct (Hcs c (or_introl eq_refl)) as [Ic Tc]. assert (Oc : ok LocalSimple c).
      { rewrite Forall_forall in Kc. destruct (Kc c Ic) as [X|X]; auto. clear - X Tc. clash. }
      assert (Sc : (size c < k)%nat). { pose proof (size_child _ _ Ir). pose proof (size_child _ _ Ic). lia. }
      destruct (IHN (fun x I => Hcs x (or_intror I))) as [Ps Gs]. split.
      - constructor; auto. apply raw_set. eapply IH; eauto. constructor; auto. eapply not_note_tag; [exact Tc|reflexivity].
      - cbn. rewrite Gs. f_equal. destruct Mk as (-> & _). rewrite (index_dec _ _ Hd). auto. }
    destruct (Q _ _ _ _ Nst) as [Q1 Q2].
    { intros c I. apply in_tagged in I as [I (t & [<-|[]] & Tc)]. auto. }
    constructor; auto. destruct (SM _ r Lr) as (_ & _ & _ & X & _). specialize (X Tr ts Mt). unfold variants_apart. rewrite Ee, map_app, Q2.
    replace (map ec_name K1) with ts; auto. clear - M1. induction M1 as [|t k l l' (E & _) F IHF]; auto. cbn. congruence.
Qed.

Definition struct_raw (n : node) (anc : list node) (e : entity) : Prop :=
  exists s, e = EStruct s /\ drawn anc n s /\ Forall (fun f => raw_field f) (st_fields s) /\ type_name n anc (st_name s).
Lemma attrs_raw l A : Forall2 attribute_field l A -> Forall (fun f => raw_field f) A.
Proof. intros F. induction F as [|c f l A (_ & E & _) F IH]; constructor; auto. rewrite E. constructor. Qed.
Lemma choice_apart anc c cs : located anc c -> tag "choice" c -> Forall2 choice_case (tagged_children ["element"] c) cs ->
  NoDup (lit "__Unknown__" :: map variant (map ec_name cs)).
Proof.
  intros Lo T F. destruct (SM anc c Lo) as (_ & _ & X & _). specialize (X T). replace (map ec_name cs) with (map case_name (tagged_children ["element"] c)); auto.
  clear - F. induction F as [|x k l l' (_ & _ & _ & _ & H) F IH]; auto. cbn. rewrite IH. f_equal. unfold case_name, pick in *.
  destruct (attribute x (lit "ref")); destruct H as [-> _]; auto.
Qed.
Section Step.
Context (k : nat) (IH : forall n p anc e, (size n < k)%nat -> ok GlobalComplex n \/ ok LocalComplex n -> all_fine n -> located (p :: anc) n -> parse_node u n (p :: anc) = Ok e ->
  choice_type n (p :: anc) e \/ struct_raw n (p :: anc) e).
Lemma anonymous_raw x p anc t e : (size t < k)%nat -> In t (children x) -> tag "element" x -> ~ tag "schema" p -> all_fine x -> located (p :: anc) x ->
  ok LocalSimple t \/ ok LocalComplex t -> parse_node u t (x :: p :: anc) = Ok e -> raw e.
Proof.
  intros S I T Np F Lo O H. assert (Nt : ~ tag "annotation" t).
  { destruct O as [O|O]; apply role_tag in O; eapply not_note; try exact O; reflexivity. }
  assert (Ft : all_fine t) by (eapply fine_child; eauto). assert (Lt : located (x :: p :: anc) t) by (constructor; auto).
  destruct O as [O|O]; [eapply (simple_raw k); eauto|].
  destruct (IH t x (p :: anc) e S (or_intror O) Ft Lt H) as [C|(s & -> & D & R & HN)].
  - exfalso. destruct C as (c & nm & en & s & A & f & Fc & Tc & He & _). destruct (F x (part_self x)) as (_ & _ & X).
    apply (X ltac:(eapply tag_neq; [|exact T]; discriminate) t c I); auto. inversion O; auto.
  - eapply raw_struct; eauto. right. unfold anonymous, inside, among. cbn [existsb tl]. rewrite (tagged_not _ "schema" _ T) by reflexivity.
    destruct (tagged "schema" p) eqn:X; auto. apply tagged_iff in X. contradiction.
Qed.
Lemma content_raw n anc F : (size n < S k)%nat -> all_fine n -> located anc n -> content_fields u n anc F ->
  Forall (fun f => raw_field f) F /\ (F = [] \/ exists q, In q (children n) /\ one ["sequence"; "all"] q /\ placeholders F = [] /\ sub (pk F) (slots (n :: anc) q)).
Proof.
  intros S Fn Ln [->|(q & P & Iq & Oq & Tq & HP & HF)]; [split; [constructor|left; auto]|].
  assert (Nq : ~ tag "annotation" q) by (eapply not_note; [exact Tq|reflexivity]). assert (Fq : all_fine q) by (eapply fine_child; eauto).
  assert (Lq : located (n :: anc) q) by (constructor; auto).
  apply inv_sequence in Oq as [_ Kq]. rewrite Forall_forall in Kq.
  assert (Kx : forall x, In x (particles q) -> In x (children q) /\ ~ tag "annotation" x /\ all_fine x /\ (ok LocalElement x \/ ok Any x \/ ok Choice x)).
  { intros x I. apply in_particles in I as (I & E & N). split; auto. split; auto. split; [eapply fine_child; eauto|]. destruct (Kq x I) as [[X|X]|X]; [congruence|contradiction|auto]. }
  assert (Nsq : ~ tag "schema" q) by (destruct Tq as (t & [<-|[<-|[]]] & X); eapply tag_neq; try exact X; discriminate).
  assert (Q : forall x f, In x (particles q) -> particle_field (fun t e => parse_node u t (x :: q :: n :: anc) = Ok e) P x f ->
    raw_field f /\ sub (kept [f]) (slots (q :: n :: anc) x)).
  { intros x f Ix (Hx & Hc). destruct (Kx x Ix) as (Icx & Nx & Fx & Ox). assert (Lx : located (q :: n :: anc) x) by (constructor; auto).
    destruct Ox as [Ox|[Ox|Ox]].
    + assert (Tx : tag "element" x) by (inversion Ox; auto). destruct (Hx Tx) as (Nm & _ & _ & _ & Y). split.
      * destruct (attribute x (lit "type")) as [ty|] eqn:At; [destruct Y as [_ ->]; constructor|].
        destruct (attribute x (lit "ref")) as [rf|] eqn:Ar; [destruct Y as [_ ->]; constructor|].
        destruct Y as (t & e & Ft & He & _ & ->). constructor; [|constructor]. apply raw_set.
        apply final_tagged in Ft as [It Ot]. assert (Okt : ok LocalSimple t \/ ok LocalComplex t).
        { inversion Ox as [| | | | | | | | | | | |? ? [(v & V)|(v & V)]|? a c b ? Ec Kab Kc| | | | | | | | | |]; subst; [unfold has in V; congruence|unfold has in V; congruence|].
          rewrite Ec in It. apply in_app_or in It as [It|[<-|It]]; auto; exfalso.
          - rewrite Forall_forall in Kab. specialize (Kab t ltac:(apply in_or_app; auto)). clear - Kab Ot. clash.
          - rewrite Forall_forall in Kab. specialize (Kab t ltac:(apply in_or_app; auto)). clear - Kab Ot. clash. }
        assert (St : (size t < k)%nat). { pose proof (size_child _ _ Iq). pose proof (size_child _ _ Icx). pose proof (size_child _ _ It). lia. }
        eapply (anonymous_raw x q (n :: anc)); eauto.
      * assert (E : slots (q :: n :: anc) x = [element_name x]).
        { assert (X : inside ["schema"] (q :: n :: anc) = false) by (unfold inside, among; cbn [existsb]; destruct (tagged "schema" q) eqn:Y'; auto; apply tagged_iff in Y'; contradiction).
          destruct x; cbn [slots]; rewrite (tagged_not _ "attribute" _ Tx), (tagged_is _ _ Tx), X by reflexivity; auto. }
        rewrite E, <- Nm. unfold kept. cbn [filter]. destruct (shown f); [apply sub_refl|apply sub_nil].
    + assert (Tx : tag "any" x) by (inversion Ox; auto). destruct Hc as [Hc _]. destruct (Hc Tx) as (_ & _ & _ & -> & M & _). split; [constructor|].
      unfold kept, shown. cbn [filter]. destruct (fl_mods f) as [|m ms]; [discriminate|]. injection M as ->. cbn. apply sub_nil.
    + apply inv_choice in Ox as [Tx _]. destruct Hc as [_ Hc]. destruct (Hc Tx) as (Nm & _ & _ & _ & en & -> & En & _ & _ & Es & Ec). split.
      * constructor; [|constructor]. constructor; [|rewrite Es; constructor]. eapply choice_apart; eauto.
      * assert (E : slots (q :: n :: anc) x = [outer (n :: anc) ++ lit "Choice"]).
        { destruct x; cbn [slots]; rewrite (tagged_not _ "attribute" _ Tx), (tagged_not _ "element" _ Tx), (tagged_is _ _ Tx) by reflexivity; cbn [andb]; unfold inside at 1; rewrite (proj2 (among_iff _ _) Tq); auto. }
        rewrite E, (outer_enclosing _ _ HP), <- Nm. unfold kept. cbn [filter]. destruct (shown f); [apply sub_refl|apply sub_nil]. }
  split.
  - apply Forall_forall. intros f I. destruct (Forall2_in_r _ _ _ _ HF I) as (x & Ix & Hx). apply (Q x f Ix Hx).
  - right. exists q. split; auto. split; auto. split.
    + apply no_placeholders. intros f I. destruct (Forall2_in_r _ _ _ _ HF I) as (x & Ix & Hx). destruct (Kx x Ix) as (_ & _ & Fx & Ox). eapply particle_name; [apply Fx; constructor|exact Ox|exact Hx].
    + rewrite (slots_one _ (n :: anc) q Tq) by (intros t [<-|[<-|[]]]; cbn; tauto). eapply sub_trans; [|apply sub_filter with (p := fun c => is_element c && negb (tagged "annotation" c))].
      fold (particles q). assert (QQ : Forall2 (fun x f => sub (kept [f]) (slots (q :: n :: anc) x)) (particles q) F).
      { eapply Forall2_imp; [|exact HF]. intros x f Ix Hx. apply (Q x f Ix Hx). }
      clear - QQ. induction QQ as [|x f l F H G IHG]; [apply sub_nil|]. change (f :: F) with ([f] ++ F). rewrite pk_app. cbn [map List.concat]. apply sub_app; auto. eapply sub_trans; [apply pk_one|exact H].
Qed.
Lemma content_slots n anc F A : (size n < S k)%nat -> all_fine n -> ~ tag "schema" n -> located anc n -> slots anc n = concat (map (slots (n :: anc)) (children n)) -> content_fields u n anc F ->
  Forall2 attribute_field (attribute_children n) A -> placeholders (F ++ A) = [] /\ sub (pk (F ++ A)) (slots anc n) /\ Forall (fun f => raw_field f) (F ++ A).
Proof.
  intros S Fn N Lo E HF HA. destruct (content_raw n anc F S Fn Lo HF) as [R C]. assert (PA := attrs_proper n A Fn HA). assert (RA := attrs_raw _ _ HA).
  assert (SA := attributes_slots n anc A N HA). unfold placeholders in *. rewrite filter_app, PA, pk_app, E. destruct C as [->|(q & Iq & Oq & P & Sq)].
  - split; auto. split; [|apply Forall_app; auto]. cbn. eapply sub_trans; [exact SA|]. apply sub_filter.
  - rewrite P. split; auto. split; [|apply Forall_app; auto]. eapply sub_trans; [apply sub_perm, Permutation_app_comm|]. eapply sub_trans; [apply sub_app; [exact SA|exact Sq]|].
    apply sub_filter_in; auto. apply (outside_attributes _ _ Oq). reflexivity.
Qed.
Lemma raw_step n p anc e : (size n < S k)%nat -> ok GlobalComplex n \/ ok LocalComplex n -> all_fine n -> located (p :: anc) n -> parse_node u n (p :: anc) = Ok e ->
  choice_type n (p :: anc) e \/ struct_raw n (p :: anc) e.
Proof.
  intros S O F Lo H. destruct (complex_kids n O) as [T _]. destruct (complex_shape u n (p :: anc) e O H) as [C|[C|C]]; [left; auto|right|right].
  - destruct C as (nm & s & Fs & A & -> & HN & <- & Es & Ef & HF & HA & HG).
    assert (Nn : ~ tag "schema" n) by (eapply tag_neq; [|exact T]; discriminate).
    destruct (content_slots n (p :: anc) Fs A S F Nn Lo (slots_tag _ _ _ T ltac:(cbn; tauto)) HF HA) as (P & Sl & R). exists s. split; auto. rewrite <- Ef in *. split; [|split; auto].
    split; auto. split; auto. split; auto. rewrite P. split; [apply sub_nil|]. split; [|split; [auto|cbn; lia]].
    eapply sub_trans; [apply (groups_listed n (p :: anc) _ Nn HG)|]. apply groups_children. eapply joined_tag; [exact T|cbn; tauto].
  - destruct C as (c & d & nm & s & Fs & A & b & B & Ic & Oc & Od & Td & -> & HN & <- & Es & Ef & (Hb & Nb & _ & _ & Sb & _) & HF & HA & HB & HG).
    assert (Id := only_in _ _ Od).
    assert (Nc : ~ tag "annotation" c) by (eapply not_note; [exact Oc|reflexivity]). assert (Nd : ~ tag "annotation" d) by (eapply not_note; [exact Td|reflexivity]).
    assert (Fc : all_fine c) by (eapply fine_child; eauto). assert (Fd : all_fine d) by (eapply fine_child; eauto).
    assert (Lc : located (n :: p :: anc) c) by (constructor; auto). assert (Ld : located (c :: n :: p :: anc) d) by (constructor; auto).
    assert (Nn : ~ tag "schema" n) by (eapply tag_neq; [|exact T]; discriminate).
    assert (Nsd : ~ tag "schema" d) by (destruct Td as (t & [<-|[<-|[]]] & X); eapply tag_neq; try exact X; discriminate).
    assert (Sd : (size d < Datatypes.S k)%nat). { pose proof (size_child _ _ Ic). pose proof (size_child _ _ Id). lia. }
    assert (Jn : forall a, apart a n = false) by (intros a; eapply joined_tag; [exact T|cbn; tauto]).
    assert (Jc : forall a, apart a c = false) by (intros a; eapply joined_one; [exact Oc|intros t [<-|[<-|[]]]; cbn; tauto]).
    assert (Jd : forall a, apart a d = false) by (intros a; eapply joined_one; [exact Td|intros t [<-|[<-|[]]]; cbn; tauto]).
    destruct (content_slots d (c :: n :: p :: anc) Fs A Sd Fd Nsd Ld) as (P & Sl & R); auto.
    { eapply slots_one; [exact Td|intros t [<-|[<-|[]]]; cbn; tauto]. }
    assert (SB := attributes_slots n (p :: anc) B Nn HB). assert (PB := attrs_proper n B F HB). assert (RB := attrs_raw _ _ HB).
    assert (Pb : placeholders (st_fields s) = [b]).
    { rewrite Ef, app_assoc. unfold placeholders in *. rewrite filter_app, P. cbn [app filter]. rewrite Nb, str_eqb_refl, PB. auto. }
    exists s. split; auto. split; [|split; auto].
    + split; auto. split; auto. split; [|split; [|split; [|split; [auto|rewrite Pb; cbn; lia]]]].
      * rewrite Ef, app_assoc, (pk_app (Fs ++ A)), (pk_app [b]). assert (Eb : pk [b] = []) by (unfold pk, proper; cbn; rewrite Nb, str_eqb_refl; auto). rewrite Eb. cbn [app].
        rewrite (slots_tag _ (p :: anc) n T) by (cbn; tauto). eapply sub_trans; [apply sub_perm, Permutation_app_comm|].
        eapply sub_trans; [apply sub_app; [exact SB|]|apply (sub_filter_in (slots (n :: p :: anc)) _ (children n) c Ic); apply (outside_attributes _ _ Oc); reflexivity].
        rewrite (slots_one _ (n :: p :: anc) c Oc) by (intros t [<-|[<-|[]]]; cbn; tauto). eapply sub_trans; [exact Sl|]. apply sub_in; auto.
      * rewrite Pb. cbn [map]. eapply sub_trans; [|apply bases_kid; [auto|exact Ic]]. eapply sub_trans; [|apply bases_kid; [auto|exact Id]]. eapply sub_trans; [|apply bases_children; auto].
        eapply sub_trans; [|apply sub_l]. unfold base_here. rewrite (proj2 (among_iff _ _) Td). unfold inside. rewrite (proj2 (among_iff _ _) Oc). cbn [andb]. unfold has in Hb. rewrite Hb. apply sub_refl.
      * eapply sub_trans; [apply (groups_listed d (c :: n :: p :: anc) _ Nsd HG)|]. eapply sub_trans; [apply groups_children; auto|]. eapply sub_trans; [apply groups_kid; [auto|exact Id]|]. apply groups_kid; auto.
    + rewrite Ef, app_assoc. apply Forall_app. split; auto. cbn [app]. constructor; auto. rewrite Sb. constructor.
Qed.
End Step.
Lemma complex_raw k : forall n p anc e, (size n < k)%nat -> ok GlobalComplex n \/ ok LocalComplex n -> all_fine n -> located (p :: anc) n -> parse_node u n (p :: anc) = Ok e ->
  choice_type n (p :: anc) e \/ struct_raw n (p :: anc) e.
Proof. induction k as [|k IH]; intros n p anc e S O F Lo H; [lia|]. eapply raw_step; eauto. Qed.

(** *** Declarations *)
Definition origin_of (s : strukt entity) (d : node) : Prop :=
  has d "name" (st_name s) /\ In d (children schema) /\ sub (pk (st_fields s)) (slots [schema] d) /\ Forall (fun f => raw_field f) (st_fields s).
Definition declared_raw (d : node) (e : entity) : Prop :=
  (exists s, e = EStruct s /\ origin_of s d /\
     ((exists anc x, drawn anc x s /\ sub (slots anc x) (slots [schema] d) /\ sub (bases anc x) (bases [schema] d) /\ sub (groups anc x) (groups [schema] d)) \/
      st_fields s = [] /\ st_groups s = [] /\ st_subtypes s = [])) \/
  (forall s, e <> EStruct s) /\ raw e.
Lemma declaration_raw d e : ok_schema schema -> all_fine schema -> In d (declarations schema) -> parse_node u d [schema] = Ok e -> declared_raw d e.
Proof.
  intros (Ts & Ks) F Id H. apply in_declarations in Id as (I & E & N & NG). rewrite Forall_forall in Ks.
  assert (Fd : all_fine d) by (eapply fine_child; eauto). assert (Ld : located [schema] d) by (constructor; auto; constructor).
  destruct (Ks d I) as [[X|X]|[O|[O|[O|[O|[O|O]]]]]]; [congruence|contradiction| | | | | |].
  - right. apply role_tag in O. cbn in O. assert (He : e = parse_import d).
    { destruct O as (t & [<-|[<-|[]]] & T); [rewrite (step_kind u d _ KImport) in H by exact T|rewrite (step_kind u d _ KInclude) in H by exact T]; congruence. }
    subst e. split; [discriminate|apply raw_import].
  - right. assert (R := simple_raw (S (size d)) d schema [] e (Nat.lt_succ_diag_r _) (or_introl O) Ld H). split; auto. intros s ->.
    destruct (simple_shape u d schema [] _ (or_introl O) H) as [(t & X & _)|[(r & en & _ & _ & _ & X & _)|[(l & c & ec & t & _ & _ & _ & _ & _ & _ & X & _)|(r & en & _ & _ & _ & X & _)]]]; discriminate.
  - assert (T : tag "element" d) by (inversion O; auto). destruct (global_element_shape u schema [] d e Ts T H) as (nm & Hn & Y).
    destruct (attribute d (lit "type")) as [q|] eqn:At.
    + subst e. right. split; [discriminate|apply raw_alias].
    + destruct Y as [[Nil ->]|(t & e0 & Ft & He & ->)].
      * left. eexists. split; [reflexivity|]. split; [|right; auto]. split; auto. split; auto. split; [apply sub_nil|constructor].
      * apply final_tagged in Ft as [It Ot].
        assert (Okt : ok LocalSimple t \/ ok LocalComplex t).
        { assert (Kd : Forall (fun c => ignorable c \/ one ["key"; "keyref"; "unique"] c \/ ok LocalSimple c \/ ok LocalComplex c) (children d)) by (inversion O; auto).
          rewrite Forall_forall in Kd. specialize (Kd t It). destruct Kd as [Kd|[Kd|Kd]]; auto; clear - Kd Ot; clash. }
        assert (Nt : ~ tag "annotation" t) by (eapply not_note; [exact Ot|reflexivity]).
        assert (Lt : located [d; schema] t) by (constructor; auto).
        destruct Okt as [Okt|Okt].
        -- right. assert (R := simple_raw (S (size t)) t d [schema] e0 (Nat.lt_succ_diag_r _) (or_intror Okt) Lt He). split; [|apply raw_set; auto].
           intros s X. destruct e0; try discriminate.
           destruct (simple_shape u t d [schema] _ (or_intror Okt) He) as [(t' & X' & _)|[(r & en & _ & _ & _ & X' & _)|[(l & c & ec & t' & _ & _ & _ & _ & _ & _ & X' & _)|(r & en & _ & _ & _ & X' & _)]]]; discriminate.
        -- left. assert (Tt : tag "complexType" t) by (inversion Okt; auto).
           assert (Ft : all_fine t) by (eapply fine_child; [exact Fd|exact It|auto]).
           destruct (complex_raw (S (size t)) t d [schema] e0 (Nat.lt_succ_diag_r _) (or_intror Okt) Ft Lt He) as [C|(s & -> & D & R & HN)].
           { exfalso. destruct C as (c & nm' & en & s & A & f & Fc & Tc & Hec & _). destruct (Fd d (part_self d)) as (_ & _ & X).
             apply (X ltac:(eapply tag_neq; [|exact T]; discriminate) t c It); auto. }
           assert (S1 : sub (slots [d; schema] t) (slots [schema] d)) by (rewrite (slots_element schema [] d T Ts); apply sub_in; auto).
           exists (st_set_name nm s). split; [reflexivity|]. split.
           ++ split; auto. split; auto. split; [|exact R]. eapply sub_trans; [apply D|auto].
           ++ left. exists [d; schema], t. split; [exact D|]. split; auto. split; [apply bases_kid; auto|apply groups_kid; auto]; apply joined_element; auto.
  - assert (T : tag "complexType" d) by (inversion O; auto).
    assert (TN : forall nm, type_name d [schema] nm -> has d "name" nm) by (intros nm (X & _); auto).
    destruct (complex_raw (S (size d)) d schema [] e (Nat.lt_succ_diag_r _) (or_introl O) Fd Ld H) as [C|(s & -> & D & R & HN)].
    + right. destruct C as (c & nm & en & s & A & f & Fc & Tc & He & -> & HN & En & _ & Ec & Esub & Sn & Sf & (Fn & _ & _ & Fm & Cf & _) & Ss & HA & HG). split; [discriminate|].
      destruct (final_tagged _ _ _ Fc) as [Ic _]. assert (Nc : ~ tag "annotation" c) by (eapply not_note_tag; [exact Tc|reflexivity]).
      assert (Lc : located [d; schema] c) by (constructor; auto). assert (Nn : ~ tag "schema" d) by (eapply tag_neq; [|exact T]; discriminate).
      assert (PA := attrs_proper d A Fd HA).
      assert (P : placeholders (st_fields s) = []).
      { rewrite Sf. unfold placeholders in *. rewrite filter_app, PA. cbn. rewrite Fn. destruct (str_eqb (nm ++ lit "Choice") (lit "__base__")) eqn:X; auto. exfalso. apply str_eqb_eq in X.
        apply (f_equal (@rev _)) in X. rewrite rev_app_distr in X. discriminate. }
      constructor; [eapply choice_apart; eauto|]. rewrite Esub. constructor; [|constructor]. apply (raw_struct s [schema] d); auto.
      * split; auto. split; auto. split; [|rewrite P; split; [apply sub_nil|]; split; [|split; [auto|cbn; lia]]].
        -- rewrite Sf, pk_app, (slots_tag _ [schema] d T) by (cbn; tauto).
           eapply sub_trans; [apply sub_app; [apply (attributes_slots d [schema] A Nn HA)|]|apply (sub_filter_in (slots [d; schema]) _ (children d) c Ic); eapply (outside_attributes ["choice"]); [exists "choice"%string; split; [left; auto|auto]|reflexivity]].
           eapply sub_trans; [apply pk_one|].
           assert (Ec' : slots [d; schema] c = [outer [d; schema] ++ lit "Choice"]).
           { destruct c; cbn [slots]; rewrite (tagged_not _ "attribute" _ Tc), (tagged_not _ "element" _ Tc), (tagged_is _ _ Tc) by reflexivity; cbn [andb]; unfold inside, among; cbn [existsb];
             rewrite (tagged_not _ "sequence" _ T), (tagged_not _ "all" _ T) by reflexivity; auto. }
           rewrite Ec'. specialize (TN _ HN). unfold has in TN. cbn [outer]. rewrite (tagged_not _ "schema" _ T), TN by reflexivity. rewrite <- Fn. unfold kept. cbn [filter]. destruct (shown f); [apply sub_refl|apply sub_nil].
        -- eapply sub_trans; [apply (groups_listed d [schema] _ Nn (or_intror HG))|]. apply groups_children. eapply joined_tag; [exact T|cbn; tauto].
      * rewrite Sf. apply Forall_app. split; [apply (attrs_raw _ _ HA)|]. constructor; [rewrite Cf; constructor|constructor].
    + left. exists s. split; auto. split; [|left; exists [schema], d; split; [exact D|split; [apply sub_refl|split; apply sub_refl]]].
      split; auto. split; auto. split; [apply D|auto].
  - assert (T : tag "attribute" d) by (inversion O; auto). pose proof (global_attribute_shape u schema [] d e Ts T H) as Y.
    destruct (attribute d (lit "ref")) as [r|]; [right; subst e; split; [discriminate|apply raw_alias]|].
    destruct Y as (nm & Hn & Y). destruct (attribute d (lit "type")) as [q|] eqn:At; [subst e; right; split; [discriminate|apply raw_alias]|].
    destruct Y as [[Nil ->]|(t & e0 & Ft & He & ->)].
    + left. eexists. split; [reflexivity|]. split; [|right; auto]. split; auto. split; auto. split; [apply sub_nil|constructor].
    + apply final_tagged in Ft as [It Ot].
      assert (Okt : ok LocalSimple t).
      { assert (Kd : Forall (fun c => ignorable c \/ ok LocalSimple c) (children d)) by (inversion O; auto).
        rewrite Forall_forall in Kd. specialize (Kd t It). destruct Kd as [Kd|Kd]; auto; clear - Kd Ot; clash. }
      assert (Lt : located [d; schema] t) by (constructor; auto; eapply not_note; [exact Ot|reflexivity]).
      right. assert (R := simple_raw (S (size t)) t d [schema] e0 (Nat.lt_succ_diag_r _) (or_intror Okt) Lt He). split; [|apply raw_set; auto].
      intros s X. destruct e0; try discriminate.
      destruct (simple_shape u t d [schema] _ (or_intror Okt) He) as [(t' & X' & _)|[(r & en & _ & _ & _ & X' & _)|[(l & c & ec & t' & _ & _ & _ & _ & _ & _ & X' & _)|(r & en & _ & _ & _ & X' & _)]]]; discriminate.
  - exfalso. apply NG. inversion O; auto.
Qed.

(** ** Resolution *)
Inductive clean : entity -> Prop :=
| clean_struct s : NoDup (map ident (kept (st_fields s))) -> st_subtypes s = [] ->
    Forall (fun f => Forall clean (fl_subtypes f)) (st_fields s) -> clean (EStruct s)
| clean_tuple t : Forall clean (tu_subtypes t) -> clean (ETuple t)
| clean_enum n : variants_apart n -> Forall clean (en_subtypes n) -> clean (EEnum n)
| clean_alias a : clean (EAlias a)
| clean_import i : clean (EImport i).
Notation clean_field f := (Forall clean (fl_subtypes f)).
Lemma raw_clean e : raw e -> clean e.
Proof.
  induction e as [s IHf IHs|t IH|n IH|f|c|a|i] using entity_sub_ind; intros R; inversion R as [s' anc x D P F|t' F|n' V F|a'|i']; subst; try (constructor; fail).
  - destruct D as (Lo & T & S1 & S2 & _ & Es & Ln). destruct (SM anc x Lo) as (X & _). destruct (X T) as (a & g & _ & _ & _ & N). constructor; auto.
    + eapply sub_nodup; [apply sub_map|exact N]. assert (M : sub (pk (st_fields s)) (merge (slots anc x) a g)) by (eapply sub_trans; [exact S1|apply sub_l]).
      destruct (placeholders (st_fields s)) as [|b [|]] eqn:E; [|destruct P as [P|P]; [discriminate|]|cbn in Ln; lia].
      * rewrite <- pk_kept by auto. eapply sub_trans; [exact M|apply sub_r].
      * eapply sub_trans; [apply kept_marked|]. apply sub_app; auto. rewrite placeholders_named, E. cbn [map]. unfold mark. unfold anonymous in P. apply negb_true_iff in P. rewrite P.
        destruct (bases anc x); [apply sub_empty in S2; discriminate|apply sub_refl].
    + apply Forall_forall. intros f If. apply Forall_forall. intros e Ie. rewrite Forall_forall in F. specialize (F f If). rewrite Forall_forall in F. eauto.
  - constructor. apply Forall_forall. intros e Ie. rewrite Forall_forall in F. auto.
  - constructor; auto. apply Forall_forall. intros e Ie. rewrite Forall_forall in F. auto.
Qed.
Notation contributes := (contributes schema).
Notation declared_as := (declared_as schema).
Notation sources := (sources schema).
Lemma contributes_app a b n : contributes (a ++ b) n -> exists x y, contributes a x /\ contributes b y /\ n = x ++ y.
Proof.
  revert n. induction a as [|d a IH]; cbn; intros n E; [exists [], n; split; [constructor|auto]|]. inversion E as [|d' ds x g y Ex Nx Eg Ey]; subst.
  apply IH in Ey as (p & q & Ep & Eq & ->). exists (merge (slots [schema] d) x g ++ p), q. split; [constructor; auto|]. split; auto. rewrite <- app_assoc. auto.
Qed.
Lemma contributes_in l d n : contributes l n -> In d l -> exists m, contributes [d] m /\ sub m n.
Proof.
  intros E I. apply in_split in I as (a & b & ->). apply contributes_app in E as (x & y & Ex & Ey & ->). change (d :: b) with ([d] ++ b) in Ey.
  apply contributes_app in Ey as (p & q & Ep & Eq & ->). exists p. split; auto. eapply sub_trans; [|apply sub_r]. apply sub_l.
Qed.
Lemma contributes_sources qs n : contributes (sources qs) n -> exists ns, Forall2 (fun q => contributes (declared_as q)) qs ns /\ n = concat ns.
Proof.
  revert n. induction qs as [|q qs IH]; cbn; intros n E; [inversion E; subst; exists []; auto|]. apply contributes_app in E as (x & y & Ex & Ey & ->).
  destruct (IH y Ey) as (ns & F & ->). exists (x :: ns). split; auto.
Qed.
Definition feeds (q : str) (c : list (field entity)) : Prop := (forall n, contributes (declared_as q) n -> sub (pk c) n) /\ Forall (fun f => clean_field f) c.
Lemma gathered {A} (g : A -> str) l cs bs a : Forall2 (fun b c => feeds (g b) c) l cs -> sub (map g l) bs -> contributes (sources bs) a ->
  sub (concat (map pk cs)) a /\ Forall (fun f => clean_field f) (concat cs).
Proof.
  intros F S C. split.
  - apply contributes_sources in C as (ns & Fn & ->). destruct (Forall2_sub _ _ _ _ S Fn) as (ms & Fm & Sm). eapply sub_trans; [|exact Sm]. clear - F Fm.
    revert ms Fm. induction F as [|b c l cs (H & _) F IH]; intros ms Fm; cbn in *; [apply sub_nil|]. inversion Fm; subst. cbn. apply sub_app; auto.
  - clear - F. induction F as [|b c l cs (_ & H) F IH]; cbn; [constructor|]. apply Forall_app. auto.
Qed.
Lemma assembled_clean anc x a g own out src fs : assembled src own out -> (forall q c, src q c -> feeds q c) -> Forall2 (same_field (fun _ => clean)) fs own ->
  sub (pk fs) (slots anc x) -> sub (map fl_type (placeholders fs)) (bases anc x) -> contributes (sources (bases anc x)) a -> NoDup a ->
  placeholders out = [] /\ Forall (fun f => clean_field f) out /\ forall gs, sub gs g -> sub (pk out ++ gs) (merge (slots anc x) a g).
Proof.
  intros As Src F S1 S2 C N. destruct (assembled_pk _ _ _ As) as (cs & Fc & P & E). destruct (pk_same _ _ _ F) as [E1 E2].
  assert (G : Forall2 (fun b c => feeds (fl_type b) c) (placeholders own) cs) by (eapply Forall2_imp; [|exact Fc]; intros; apply Src; auto).
  rewrite <- (placeholders_same _ _ _ F) in S2. destruct (gathered fl_type _ _ _ _ G S2 C) as [G1 G2]. split; auto. split.
  - destruct As as (cs' & Fc' & ->). assert (G' : Forall2 (fun b c => feeds (fl_type b) c) (placeholders own) cs') by (eapply Forall2_imp; [|exact Fc']; intros; apply Src; auto).
    destruct (gathered fl_type _ _ _ _ G' S2 C) as [_ G2']. rewrite Forall_forall in G2'. apply Forall_app. split; apply Forall_forall; intros f I.
    + unfold proper in I. apply filter_In in I as [I _]. destruct (Forall2_in_r _ _ _ _ F I) as (f0 & _ & _ & _ & _ & _ & _ & Fe). clear - Fe. induction Fe; constructor; auto.
    + apply in_not_redeclared in I as [I _]. auto.
  - intros gs Sg. rewrite E, E1, <- app_assoc. apply merge_sub; auto. rewrite E2. apply pk_incl.
Qed.
Lemma completed_clean (src : str -> list (field entity) -> Prop) : (forall q c, src q c -> feeds q c) -> forall e e', raw e -> completed src e e' -> clean e'.
Proof.
  intros Src e. induction e as [s IHf IHs|t IH|n IH|f|c|a|i] using entity_sub_ind; intros e' R C; inversion C as [s0 t0 own S F As|e0 N]; subst; try (apply raw_clean; auto; fail).
  - inversion R as [s' anc x D P Fr| | | |]; subst. destruct D as (Lo & T & S1 & S2 & _ & Es & _). destruct (SM anc x Lo) as (X & _). destruct (X T) as (a & g & Ca & Na & _ & N).
    assert (F' : Forall2 (same_field (fun _ => clean)) (st_fields s) own).
    { eapply Forall2_imp; [|exact F]. intros f f' If (E1 & E2 & E3 & E4 & E5 & Fe). repeat (split; auto). eapply Forall2_imp; [|exact Fe]. intros e e' Ie Ce.
      rewrite Forall_forall in Fr. specialize (Fr f If). rewrite Forall_forall in Fr. eapply IHf; eauto. }
    destruct (assembled_clean anc x a g own _ src (st_fields s) As Src F' S1 S2 Ca Na) as (P' & Cl & M). constructor; auto.
    + eapply sub_nodup; [apply sub_map|exact N]. rewrite <- pk_kept by auto. eapply sub_trans; [|apply sub_r]. specialize (M [] (sub_nil _)). rewrite app_nil_r in M. auto.
    + destruct S as (_ & _ & _ & ->). auto.
Qed.

(** *** Files *)
Section Files.
Context (f f' : rs_file) (L : link f = Ok f') (GF : groups_found f) (PG : plain_groups f) (origin : nat -> node)
  (O : forall i s, struct_at (top_level f) i s -> origin_of s (origin i))
  (OT : forall i s, struct_at (rf_types f) i s ->
     (exists anc x, drawn anc x s /\ sub (slots anc x) (slots [schema] (origin i)) /\ sub (bases anc x) (bases [schema] (origin i)) /\ sub (groups anc x) (groups [schema] (origin i))) \/
     st_fields s = [] /\ st_groups s = [] /\ st_subtypes s = []).
Lemma linked_members : forall i s t, struct_at (rf_types f) i s -> struct_at (rf_types f') i t ->
  (forall m, contributes [origin i] m -> sub (pk (st_fields t)) m) /\ clean (EStruct t).
Proof.
  destruct (link_ok _ _ L) as (Eg & _ & _ & El & _ & Lk).
  induction i as [i IH] using lt_wf_ind. intros s t A T.
  assert (Top : forall j x, struct_at (rf_types f) j x -> struct_at (top_level f) j x).
  { intros j x X. unfold struct_at, top_level in *. rewrite nth_error_app1; auto. apply nth_error_Some. congruence. }
  assert (Li := struct_at_bound _ _ _ A).
  assert (Src : forall q c, snapshot (top_level f) (top_level f') i q c -> feeds q c).
  { intros q c [[_ ->]|(j & (k & sj & Lq & Aj & Nj & _) & Y)]; [split; [intros; apply sub_nil|constructor]|].
    destruct (O j sj Aj) as (Hj & Ij & Sj & Rj). rewrite Nj in Hj. assert (Dj := declared_in _ _ _ _ Lq Ij Hj).
    destruct Y as [(Lt & tj & Tj & ->)|(Lt & sj' & Aj' & ->)].
    - assert (Tj' : struct_at (rf_types f') j tj) by (apply struct_at_types; auto; lia).
      assert (Aj' : struct_at (rf_types f) j sj) by (apply struct_at_types; auto; lia). destruct (IH j Lt sj tj Aj' Tj') as [M C]. split; [|inversion C; auto].
      intros n Cn. destruct (contributes_in _ _ _ Cn Dj) as (m & Em & Sm). eapply sub_trans; [apply M; exact Em|exact Sm].
    - assert (sj' = sj) as -> by (unfold struct_at in *; congruence). split.
      + intros n Cn. destruct (contributes_in _ _ _ Cn Dj) as (m & Em & Sm). eapply sub_trans; [|exact Sm]. inversion Em; subst. eapply sub_trans; [|apply sub_l]. eapply sub_trans; [exact Sj|apply sub_l].
      + apply Forall_forall. intros g Ig. rewrite Forall_forall in Rj. specialize (Rj g Ig). eapply Forall_impl; [|exact Rj]. intros e. apply raw_clean. }
  destruct (Lk i s A) as (t' & T' & own & out & gs & (_ & _ & _ & Es) & F & As & Gs & Et). assert (t' = t) as -> by (unfold struct_at in *; congruence). clear T'.
  destruct (O i s (Top _ _ A)) as (_ & _ & _ & Rs).
  destruct (OT i s A) as [(anc & x & (Lo & Tx & S1 & S2 & S3 & Es0 & Ln) & I1 & I2 & I3)|(Ef0 & Eg0 & Es0)].
  2:{ rewrite Ef0 in F. rewrite Eg0 in Gs. inversion F; subst. inversion Gs; subst. destruct As as (cs & Fc & ->). inversion Fc; subst. cbn in Et.
      split; [intros; rewrite Et; apply sub_nil|]. constructor; rewrite ?Et; try constructor. congruence. }
  assert (F' : Forall2 (same_field (fun _ => clean)) (st_fields s) own).
  { eapply Forall2_imp; [|exact F]. intros g g' Ig (E1 & E2 & E3 & E4 & E5 & Fe). repeat (split; auto). eapply Forall2_imp; [|exact Fe]. intros e e' Ie Ce.
    rewrite Forall_forall in Rs. specialize (Rs g Ig). rewrite Forall_forall in Rs. eapply completed_clean; eauto. }
  assert (Src' : forall q c, snapshot_or_self (top_level f) (top_level f') i [] q c -> feeds q c).
  { intros q c [X|[_ ->]]; [auto|]. split; [intros; apply sub_nil|constructor]. }
  assert (FG : Forall2 (fun b c => feeds (al_original b) c) (st_groups s) gs).
  { eapply Forall2_imp; [|exact Gs]. intros b c Ib [X|[X _]]; [auto|]. pose proof (GF _ _ _ _ A Ib X). lia. }
  assert (PGs : placeholders (concat gs) = []).
  { apply no_placeholders. intros g Ig. assert (It : In g (st_fields t)) by (rewrite Et; apply in_or_app; auto). pose proof (top_level_gone _ _ _ _ _ L GF PG T It) as X. exact X. }
  assert (Main : forall anc' x' a g, sub (pk (st_fields s)) (slots anc' x') -> sub (map fl_type (placeholders (st_fields s))) (bases anc' x') -> sub (map al_original (st_groups s)) (groups anc' x') ->
    contributes (sources (bases anc' x')) a -> NoDup a -> contributes (sources (groups anc' x')) g ->
    placeholders (st_fields t) = [] /\ Forall (fun f => clean_field f) (st_fields t) /\ sub (pk (st_fields t)) (merge (slots anc' x') a g)).
  { intros anc' x' a g U1 U2 U3 Ca Na Cg. destruct (assembled_clean anc' x' a g own out _ (st_fields s) As Src' F' U1 U2 Ca Na) as (P & Cl & M).
    destruct (gathered al_original _ _ _ _ FG U3 Cg) as [G1 G2]. rewrite Et. unfold placeholders in *. rewrite filter_app, P, PGs. split; auto. split; [apply Forall_app; auto|].
    rewrite pk_app, pk_concat. auto. }
  split.
  - intros m C. inversion C as [|d ds a g b Ca Na Cg Cb]; subst. inversion Cb; subst. rewrite app_nil_r. eapply Main; eauto; eapply sub_trans; eauto.
  - destruct (SM anc x Lo) as (X & _). destruct (X Tx) as (a & g & Ca & Na & Cg & N). destruct (Main anc x a g S1 S2 S3 Ca Na Cg) as (P & Cl & M). constructor; auto; [|congruence].
    eapply sub_nodup; [apply sub_map|exact N]. rewrite <- pk_kept by auto. eapply sub_trans; [exact M|apply sub_r].
Qed.
End Files.
End Raw.

(** ** Items *)
Definition tidy_items u tns type_text ident variant e : Prop := forall its path, clean ident variant e -> items u tns type_text ident variant e its ->
  forall p i, In (p, i) (concat (map (placed path) its)) -> NoDup (member_names i).
Lemma tidy_all u tns type_text ident variant l : (forall e, In e l -> tidy_items u tns type_text ident variant e) ->
    Forall (clean ident variant) l -> forall its path, all_items u tns type_text ident variant l its -> forall p i, In (p, i) (concat (map (placed path) its)) -> NoDup (member_names i).
Proof.
  induction l as [|e l IH]; intros H C its path A p i I; inversion A as [|? ? a b A1 A2]; subst; [destruct I|]. inversion C; subst. rewrite map_app, concat_app in I. apply in_app_or in I as [I|I].
  - eapply (H e (or_introl eq_refl)); eauto.
  - eapply IH; eauto. intros e' I'. apply H. right. auto.
Qed.
Lemma clean_items u tns type_text ident variant e : tidy_items u tns type_text ident variant e.
Proof.
  induction e as [s IHf IHs|t IH|n IH|f|c|a|i] using entity_sub_ind; intros its path C A p j I; inversion A as [s' inn A'|t' inn ks A' Fk|n' inn A'|a' D|a' D|i']; subst;
    inversion C as [s' N Es F|t' F|n' V F|a'|i'']; subst.
  - cbn [app map List.concat placed] in I. destruct I as [[= <- <-]|[[= <- <-]|I]]; [|constructor|].
    + cbn. unfold members. rewrite map_map. cbn. unfold kept, shown in N. rewrite map_map in N. auto.
    + destruct (SpecGen.nested s) as [|y l] eqn:E; [destruct I|]. rewrite <- E in A'. cbn [map List.concat placed] in I. rewrite app_nil_r in I. destruct I as [[= <- <-]|I]; [constructor|].
      eapply (tidy_all _ _ _ _ _ (SpecGen.nested s)); eauto; unfold SpecGen.nested; rewrite Es; cbn [app].
      * intros e Ie. apply in_concat in Ie as (ss & Iss & Ie). apply in_map_iff in Iss as (f & <- & If). eapply IHf; eauto.
      * apply Forall_forall. intros e Ie. apply in_concat in Ie as (ss & Iss & Ie). apply in_map_iff in Iss as (f & <- & If). rewrite Forall_forall in F. specialize (F f If). rewrite Forall_forall in F. auto.
  - rewrite map_app, concat_app in I. cbn [map List.concat placed app] in I. destruct I as [[= <- <-]|I]; [constructor|]. rewrite map_app, concat_app in I. apply in_app_or in I as [I|[[= <- <-]|[]]]; [eapply tidy_all; eauto|constructor].
  - rewrite map_app, concat_app in I. cbn [map List.concat placed app] in I. destruct I as [[= <- <-]|[[= <- <-]|[[= <- <-]|I]]]; try constructor; [|eapply tidy_all; eauto].
    cbn [member_names]. rewrite map_app, map_map. cbn [map va_name]. eapply Permutation_NoDup; [apply Permutation_cons_append|]. unfold variants_apart in V. rewrite map_map in V.
    assert (X : map (fun x => va_name (case_variant u type_text variant x)) (en_cases n) = map (fun x => variant (ec_name x)) (en_cases n)).
    { apply map_ext. intros c. unfold case_variant. destruct (colon_split (ec_name c)). auto. }
    rewrite X. auto.
  - cbn in I. destruct I as [[= <- <-]|[]]. constructor.
  - cbn in I. destruct I as [[= <- <-]|[]]. constructor.
  - cbn in I. destruct I as [[= <- <-]|[]]. constructor.
Qed.
Lemma clean_all u tns type_text ident variant l its : Forall (clean ident variant) l -> all_items u tns type_text ident variant l its -> distinct_members its.
Proof.
  intros F A p i I. eapply tidy_all; eauto. intros. apply clean_items.
Qed.

(** ** Whole documents *)
Lemma groups_in q : forall n schema anc, located schema anc n -> In q (groups anc n) -> exists anc' y, located schema anc' y /\ tag "attributeGroup" y /\ has y "ref" q.
Proof.
  intros n. induction n as [t a ns cs IH| |] using node_tree_ind; intros schema anc Lo I; cbn [groups] in I.
  - apply in_app_or in I as [I|I].
    + unfold group_here in I. destruct (tagged "attributeGroup" _) eqn:T; [|destruct I]. destruct (negb _); [|destruct I]. cbn [andb] in I. destruct (attribute _ (lit "ref")) as [b|] eqn:B; [|destruct I].
      destruct I as [<-|[]]. eexists. eexists. split; [exact Lo|]. split; [apply tagged_iff; auto|exact B].
    + destruct (apart _ _) eqn:Ap; [destruct I|]. apply in_concat in I as (l & Il & I). apply in_map_iff in Il as (c & <- & Ic). rewrite Forall_forall in IH.
      assert (Nc : ~ tag "annotation" c).
      { intros Tc. destruct c; cbn [groups] in I; unfold group_here, apart, among in I; cbn [existsb] in I; rewrite (tagged_not _ "attributeGroup" _ Tc), (tagged_is _ _ Tc), ?orb_true_r in I by reflexivity; cbn in I; destruct I. }
      eapply (IH c Ic); eauto. constructor; auto.
  - unfold group_here in I. destruct (tagged _ _), (negb _), (apart _ _); destruct I.
  - unfold group_here in I. destruct (tagged _ _), (negb _), (apart _ _); destruct I.
Qed.
Lemma linked_clean u schema ident variant f0 f : separate_members schema u ident variant -> ok_schema schema -> all_fine schema -> parse_schema u schema [] = Ok f0 -> link f0 = Ok f ->
  Forall (clean ident variant) (rf_types f).
Proof.
  intros SM O F H L. destruct (schema_inv _ _ _ _ H) as (_ & H1 & H2 & _).
  assert (D : Forall2 (declared_raw schema variant) (declarations schema) (rf_types f0)).
  { assert (X : forall d, In d (declarations schema) -> forall e, parse_node u d [schema] = Ok e -> declared_raw schema variant d e) by (intros; eapply declaration_raw; eauto).
    revert X. clear - H1. induction H1; intros X; constructor; [apply X; [left; auto|auto]|apply IHForall2; intros; eapply X; [right; auto|auto]]. }
  assert (Gi : Forall2 declares_group (tagged_children ["attributeGroup"] schema) (rf_groups f0)).
  { clear - H2 O. assert (X : forall d, In d (tagged_children ["attributeGroup"] schema) -> forall e, parse_node u d [schema] = Ok e -> declares_group d e).
    { intros d I e He. apply in_tagged in I as [_ (t & [<-|[]] & T)]. eapply global_group_ok; [apply O|exact T|exact He]. }
    revert X. induction H2; intros X; constructor; [apply X; [left; auto|auto]|apply IHForall2; intros; eapply X; [right; auto|auto]]. }
  destruct (link_ok _ _ L) as (Eg & _ & _ & El & Ot & Str).
  set (ds := declarations schema ++ tagged_children ["attributeGroup"] schema). set (origin := fun i => nth i ds schema).
  assert (Ld : List.length (declarations schema) = List.length (rf_types f0)) by (eapply Forall2_same_length; eauto).
  assert (Lg : List.length (tagged_children ["attributeGroup"] schema) = List.length (rf_groups f0)) by (eapply Forall2_same_length; eauto).
  assert (DR : forall i s, struct_at (rf_types f0) i s -> declared_raw schema variant (origin i) (EStruct s)).
  { intros i s A. assert (B := struct_at_bound _ _ _ A). unfold origin, ds. rewrite app_nth1 by lia. eapply Forall2_at; eauto. }
  assert (OO : forall i s, struct_at (top_level f0) i s -> origin_of schema variant s (origin i)).
  { intros i s A. destruct (Nat.lt_ge_cases i (List.length (rf_types f0))) as [Li|Li].
    - apply struct_at_types in A; auto. destruct (DR i s A) as [(s' & [= <-] & X & _)|[X _]]; [auto|destruct (X s eq_refl)].
    - unfold struct_at, top_level in A. rewrite nth_error_app2 in A by lia. unfold origin, ds. rewrite app_nth2 by lia. rewrite Ld.
      set (j := (i - List.length (rf_types f0))%nat) in *. assert (Lj : (j < List.length (rf_groups f0))%nat) by (apply nth_error_Some; congruence).
      assert (Y : declares_group (nth j (tagged_children ["attributeGroup"] schema) schema) (EStruct s)) by (eapply Forall2_at; eauto).
      assert (X : In (nth j (tagged_children ["attributeGroup"] schema) schema) (tagged_children ["attributeGroup"] schema)) by (apply nth_In; lia).
      apply in_tagged in X as [X (t & [<-|[]] & T)]. destruct Y as (s' & [= <-] & Hn & Fa). split; auto. split; auto. split; [|eapply attrs_raw; eauto].
      rewrite (slots_tag "attributeGroup") by (auto; cbn; tauto). eapply sub_trans; [eapply attributes_slots; [|exact Fa]|apply sub_filter]. eapply tag_neq; try exact T; discriminate. }
  assert (OT : forall i s, struct_at (rf_types f0) i s ->
     (exists anc x, drawn schema anc x s /\ sub (slots anc x) (slots [schema] (origin i)) /\ sub (bases anc x) (bases [schema] (origin i)) /\ sub (groups anc x) (groups [schema] (origin i))) \/
     st_fields s = [] /\ st_groups s = [] /\ st_subtypes s = []).
  { intros i s A. destruct (DR i s A) as [(s' & [= <-] & _ & X)|[X _]]; [auto|destruct (X s eq_refl)]. }
  assert (GF : groups_found f0).
  { intros i s a j A Ia R. destruct (OT i s A) as [(anc & x & (Lo & _ & _ & _ & S3 & _) & _)|(_ & E & _)]; [|rewrite E in Ia; destruct Ia].
    assert (Iq : In (al_original a) (groups anc x)) by (eapply sub_incl; [exact S3|]; apply in_map; auto).
    destruct (groups_in _ _ _ _ Lo Iq) as (anc' & y & Ly & Ty & Hy). destruct (SM anc' y Ly) as (_ & _ & _ & _ & X). destruct R as (k & sj & Lk & Aj & Nj & Mx).
    destruct (OO j sj Aj) as (Hj & Ij & _). rewrite Nj in Hj. assert (Dj := declared_in _ _ _ _ Lk Ij Hj).
    destruct (X Ty _ Hy) as [E|(d & Id & Td)]; [rewrite E in Dj; destruct Dj|].
    apply filter_In in Id as [Id En]. destruct (attribute d (lit "name")) as [v|] eqn:Ev; [|discriminate]. apply str_eqb_eq in En. rewrite (local_part_ok _ _ Lk) in En. subst v.
    assert (Ig : In d (tagged_children ["attributeGroup"] schema)) by (apply in_tagged; split; auto; exists "attributeGroup"%string; split; [left|]; auto).
    destruct (In_nth_error _ _ Ig) as (m & Em). assert (Lm : (m < List.length (rf_groups f0))%nat) by (rewrite <- Lg; apply nth_error_Some; congruence).
    destruct (nth_error (rf_groups f0) m) as [e|] eqn:Ee; [|apply nth_error_None in Ee; lia].
    pose proof (Forall2_at _ _ _ Gi m e schema Ee) as (sm & -> & Hm & _). rewrite (nth_error_nth _ _ schema Em) in Hm. unfold has in Hm.
    assert (Am : struct_at (top_level f0) (List.length (rf_types f0) + m)%nat sm).
    { unfold struct_at, top_level. rewrite nth_error_app2 by lia. replace (_ + m - _)%nat with m by lia. auto. }
    assert (st_name sm = k) by congruence. pose proof (Mx _ _ Am H0). lia. }
  assert (PG : plain_groups f0).
  { intros s g Is Ig. destruct (Forall2_in_r _ _ _ _ Gi Is) as (d & Id & s' & [= <-] & _ & Fa). apply in_tagged in Id as [Id (t & [<-|[]] & T)].
    destruct (Forall2_in_r _ _ _ _ Fa Ig) as (a & Ia & _ & Hs & _ & A1 & A2). split; auto. apply in_tagged in Ia as [Ia Ta].
    assert (Ng : ~ tag "annotation" d) by (eapply not_note_tag; [exact T|reflexivity]).
    assert (Na : ~ tag "annotation" a) by (eapply not_note; [exact Ta|reflexivity]).
    destruct Ta as (ta & [<-|[<-|[]]] & Ta); intros P; unfold placeholder in P.
    - destruct (F a) as (X & _); [eapply part_child; [exact Id|auto|eapply part_child; [exact Ia|auto|apply part_self]]|].
      assert (Oa : one ["element"; "attribute"] a) by (exists "attribute"%string; split; [right; left|]; auto).
      destruct (A1 Ta) as ([X1|[_ X1]] & _); eapply X; eauto.
    - destruct (A2 Ta) as (X & _). rewrite X in P. discriminate. }
  apply Forall_forall. intros e Ie. destruct (In_nth_error _ _ Ie) as (i & Ei). assert (Li : (i < List.length (rf_types f0))%nat) by (rewrite <- El; apply nth_error_Some; congruence).
  destruct (nth_error (rf_types f0) i) as [e0|] eqn:E0; [|apply nth_error_None in E0; lia].
  assert (Q : (exists s, e0 = EStruct s) \/ forall s, e0 <> EStruct s) by (destruct e0; eauto; right; discriminate). destruct Q as [(s & ->)|Ns].
  - destruct (Str i s E0) as (t & Ht & _). assert (e = EStruct t) as -> by (unfold struct_at in Ht; congruence). eapply linked_members; eauto.
  - rewrite (Ot i e0 E0 Ns) in Ei. injection Ei as <-. pose proof (Forall2_at _ _ _ D i e0 schema E0) as [(s & -> & _)|[_ R]]; [destruct (Ns s eq_refl)|]. eapply raw_clean; eauto.
Qed.
Lemma document_members u roots schema f its : document roots schema -> ok_schema schema -> tidy schema -> parse u roots = Ok f ->
  (forall x, part x schema -> orderly u schema (ns_prefix (rf_target_ns f)) (ns_prefix (rf_xsd_ns f)) x) ->
  separate_members schema u (format_name u) (variant_name u (rf_target_ns f)) ->
  all_items u (rf_target_ns f) (fun q => format_type_name u q (rf_xsd_ns f) (rf_target_ns f)) (format_name u) (variant_name u (rf_target_ns f)) (rf_types f) its -> distinct_members its.
Proof.
  intros (a & b & -> & E & L) O T H Or Sep A. destruct (parse_document u (a ++ schema :: b)) as [PD _].
  destruct (proj1 (proj1 (PD a schema b eq_refl E L) f) H) as (f0 & Hp & Hl). eapply clean_all; [|exact A]. eapply linked_clean; eauto. eapply good_fine; eauto.
Qed.
