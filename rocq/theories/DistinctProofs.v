(** Proofs about distinct names. *)
From Coq Require Import Arith NArith ZArith Bool Ascii String List Lia Permutation.
From Verif Require Import Str StrFacts SpecLex SpecNames SpecBuiltin Xml Comment CommentProofs Names NamesProofs Entity Parser ParserFacts SpecSchema ParserProofs Link SpecLink LinkProofs Gen SpecRust SpecGen RustFacts GenProofs GenProofs2 SpecDoc DocProofs SpecScope ScopeProofs SpecTraits TraitProofs SpecSize SizeProofs ShapeProofs SpecDistinct.
From Verif Require DurProofs TzProofs.
Import ListNotations.
Local Open Scope string_scope.
Local Open Scope list_scope.
Local Open Scope N_scope.
Notation concat := List.concat.
Arguments lit : simpl never.

(** ** Parts of lists *)
Definition sub {A} (l l' : list A) : Prop := exists r, Permutation l' (l ++ r).
Section Sub.
Context {A : Type}.
Lemma sub_refl (l : list A) : sub l l.
Proof. exists []. rewrite app_nil_r. auto. Qed.
Lemma sub_nil (l : list A) : sub [] l.
Proof. exists l. auto. Qed.
Lemma sub_trans (a b c : list A) : sub a b -> sub b c -> sub a c.
Proof. intros (r & P) (s & Q). exists (r ++ s). rewrite app_assoc. eapply perm_trans; [exact Q|]. apply Permutation_app_tail. auto. Qed.
Lemma sub_perm (a b : list A) : Permutation a b -> sub a b.
Proof. intros P. exists []. rewrite app_nil_r. symmetry. auto. Qed.
Lemma sub_app (a a' b b' : list A) : sub a a' -> sub b b' -> sub (a ++ b) (a' ++ b').
Proof.
  intros (r & P) (s & Q). exists (r ++ s). rewrite P, Q, <- !app_assoc. apply Permutation_app_head.
  rewrite !app_assoc. apply Permutation_app_tail. apply Permutation_app_comm.
Qed.
Lemma sub_l (a b : list A) : sub a (a ++ b).
Proof. exists b. auto. Qed.
Lemma sub_r (a b : list A) : sub b (a ++ b).
Proof. exists a. apply Permutation_app_comm. Qed.
Lemma sub_cons x (a b : list A) : sub a b -> sub (x :: a) (x :: b).
Proof. intros S. apply (sub_app [x] [x] a b); auto. apply sub_refl. Qed.
Lemma sub_skip x (a b : list A) : sub a b -> sub a (x :: b).
Proof. intros S. eapply sub_trans; [exact S|]. apply (sub_r [x] b). Qed.
Lemma sub_incl (a b : list A) : sub a b -> incl a b.
Proof. intros (r & P) x I. eapply Permutation_in; [symmetry; exact P|]. apply in_or_app. auto. Qed.
Lemma sub_nodup (a b : list A) : sub a b -> NoDup b -> NoDup a.
Proof. intros (r & P) N. eapply Permutation_NoDup in N; [|exact P]. clear P. induction a as [|x a IH]; [constructor|]. inversion N; subst. constructor; auto. intros I. apply H1. apply in_or_app. auto. Qed.
Lemma sub_empty (a : list A) : sub a [] -> a = [].
Proof. intros (r & P). apply Permutation_nil in P. apply app_eq_nil in P. tauto. Qed.
End Sub.
Lemma sub_map {A B} (f : A -> B) l l' : sub l l' -> sub (map f l) (map f l').
Proof. intros (r & P). exists (map f r). rewrite <- map_app. apply Permutation_map. auto. Qed.
Lemma sub_concat {A B C} (f : A -> list C) (g : B -> list C) l l' : Forall2 (fun x y => sub (f x) (g y)) l l' -> sub (concat (map f l)) (concat (map g l')).
Proof. intros F. induction F; cbn; [apply sub_refl|]. apply sub_app; auto. Qed.
Lemma sub_concat_in {A C} (f g : A -> list C) l : (forall x, In x l -> sub (f x) (g x)) -> sub (concat (map f l)) (concat (map g l)).
Proof. intros H. induction l as [|x l IH]; cbn; [apply sub_refl|]. apply sub_app; [apply H; left; auto|apply IH; intros; apply H; right; auto]. Qed.
Lemma sub_in {A C} (f : A -> list C) l x : In x l -> sub (f x) (concat (map f l)).
Proof. intros I. apply in_split in I as (a & b & ->). rewrite map_app, concat_app. cbn. eapply sub_trans; [|apply sub_r]. apply sub_l. Qed.
Lemma sub_split {A C} (f : A -> list C) p l : sub (concat (map f (filter p l)) ++ concat (map f (filter (fun x => negb (p x)) l))) (concat (map f l)).
Proof.
  induction l as [|x l IH]; [apply sub_refl|]. cbn [filter map List.concat]. destruct (p x); cbn [negb map List.concat].
  - rewrite <- app_assoc. apply sub_app; auto. apply sub_refl.
  - eapply sub_trans; [|apply sub_app; [apply (sub_refl (f x))|exact IH]]. apply sub_perm. rewrite !app_assoc. apply Permutation_app_tail. apply Permutation_app_comm.
Qed.
Lemma sub_filter {A C} (f : A -> list C) p l : sub (concat (map f (filter p l))) (concat (map f l)).
Proof. eapply sub_trans; [apply sub_l|apply sub_split]. Qed.
Lemma sub_filter_in {A C} (f : A -> list C) p l x : In x l -> p x = false -> sub (concat (map f (filter p l)) ++ f x) (concat (map f l)).
Proof. intros I E. eapply sub_trans; [|apply (sub_split f p)]. apply sub_app; [apply sub_refl|]. apply sub_in. apply filter_In. rewrite E. auto. Qed.
Lemma sub_filter_self {A} (p : A -> bool) l : sub (filter p l) l.
Proof. induction l as [|x l IH]; [apply sub_refl|]. cbn. destruct (p x); [apply sub_cons|apply sub_skip]; auto. Qed.
Lemma Forall2_turn {A B} (P : A -> B -> Prop) l r : Forall2 P l r -> Forall2 (fun y x => In x l /\ P x y) r l.
Proof.
  intros F. assert (X : forall l0, incl l l0 -> Forall2 (fun y x => In x l0 /\ P x y) r l); [|apply X, incl_refl].
  induction F as [|x y l r H F IH]; intros l0 I; constructor; [split; auto; apply I; left; auto|]. apply IH. intros z Z. apply I. right. auto.
Qed.
Lemma concat_none {A C} (f : A -> list C) l : (forall x, In x l -> f x = []) -> concat (map f l) = [].
Proof. intros H. induction l as [|x l IH]; auto. cbn. rewrite (H x), IH; auto; [intros; apply H; right; auto|left; auto]. Qed.
Lemma nodup_disjoint {A} (a b : list A) : NoDup (a ++ b) -> NoDup a /\ NoDup b /\ forall x, In x a -> In x b -> False.
Proof.
  induction a as [|x a IH]; cbn; intros N; [split; [constructor|split; auto]|]. inversion N; subst. destruct (IH H2) as (X & Y & Z).
  split; [constructor; auto; intros I; apply H1, in_or_app; auto|]. split; auto. intros y [<-|I] J; [apply H1, in_or_app; auto|eauto].
Qed.
Lemma nodup_join {A} (a b : list A) : NoDup a -> NoDup b -> (forall x, In x a -> In x b -> False) -> NoDup (a ++ b).
Proof.
  intros X Y D. induction a as [|x a IH]; cbn; auto. inversion X; subst. constructor; [|apply IH; auto; intros; eapply D; eauto; right; auto].
  intros I. apply in_app_or in I as [I|I]; [auto|eapply D; eauto; left; auto].
Qed.

(** ** Entities: the names they introduce, the names they take content from *)
Fixpoint names (e : entity) : list str :=
  match e with
  | EStruct s => st_name s :: concat (map names (st_subtypes s)) ++ concat (map (fun f => concat (map names (fl_subtypes f))) (st_fields s))
  | ETuple t => tu_name t :: concat (map names (tu_subtypes t))
  | EEnum n => en_name n :: concat (map names (en_subtypes n))
  | EAlias a => match doc_words (al_comment a) with [] => [] | _ => [al_name a] end
  | _ => []
  end.
Notation below f := (concat (map names (fl_subtypes f))).
Definition inner (e : entity) : list str :=
  match e with
  | EStruct s => concat (map names (st_subtypes s)) ++ concat (map (fun f => below f) (st_fields s))
  | ETuple t => concat (map names (tu_subtypes t))
  | EEnum n => concat (map names (en_subtypes n))
  | _ => []
  end.
Fixpoint spl (e : entity) : list str :=
  match e with
  | EStruct s => map fl_type (placeholders (st_fields s)) ++ map al_original (st_groups s) ++
      concat (map (fun f => concat (map spl (fl_subtypes f))) (st_fields s))
  | _ => []
  end.
Notation taken f := (concat (map spl (fl_subtypes f))).
(** No structs. *)
Fixpoint plainly (e : entity) : Prop :=
  match e with
  | ETuple t => fold_right (fun x P => plainly x /\ P) True (tu_subtypes t)
  | EEnum n => fold_right (fun x P => plainly x /\ P) True (en_subtypes n)
  | _ => False
  end.
Lemma plainly_list l : fold_right (fun x P => plainly x /\ P) True l <-> Forall plainly l.
Proof. induction l as [|x l IH]; cbn; [split; auto|]. rewrite IH. split; [intros []; constructor; auto|intros F; inversion F; auto]. Qed.
Lemma plainly_spl e : plainly e -> spl e = [].
Proof. destruct e; cbn; auto; intros []. Qed.
Lemma names_set nm e : typelike e -> names (set_name nm e) = nm :: inner e.
Proof. destruct e; cbn; intros []; auto. Qed.
Lemma inner_set nm e : inner (set_name nm e) = inner e.
Proof. destruct e; auto. Qed.
Lemma spl_set nm e : spl (set_name nm e) = spl e.
Proof. destruct e; auto. Qed.
Lemma plainly_set nm e : plainly (set_name nm e) <-> plainly e.
Proof. destruct e; cbn; tauto. Qed.
Lemma plainly_typelike e : plainly e -> typelike e.
Proof. destruct e; cbn; auto. Qed.

(** ** Documents *)
Lemma tagged_is t n : tag t n -> tagged t n = true.
Proof. intros T. apply tagged_iff. auto. Qed.
Lemma lit_inj s : forall t, lit s = lit t -> s = t.
Proof.
  induction s as [|a s IH]; intros [|b t] E; auto; try discriminate. unfold lit in *. cbn in E. injection E as Ea E. rewrite (IH t) by exact E. f_equal.
  rewrite <- (ascii_N_embedding a), <- (ascii_N_embedding b), Ea. auto.
Qed.
Lemma tagged_not s t n : tag s n -> String.eqb s t = false -> tagged t n = false.
Proof.
  intros T E. unfold tagged. unfold tag in T. rewrite T. destruct (str_eqb (lit s) (lit t)) eqn:X; auto. exfalso. apply str_eqb_eq in X.
  apply lit_inj in X. subst. rewrite String.eqb_refl in E. discriminate.
Qed.
Lemma among_iff ts n : among ts n = true <-> one ts n.
Proof. unfold among. rewrite one_dec. reflexivity. Qed.
Lemma outer_enclosing anc P : enclosing anc P -> outer anc = P.
Proof.
  intros E. induction E as [|p anc T|p anc s N H|p anc s N H E IH]; cbn [outer]; auto.
  - rewrite (tagged_is _ _ T). auto.
  - destruct (tagged "schema" p) eqn:X; [apply tagged_iff in X; contradiction|]. unfold has in H. rewrite H. auto.
  - destruct (tagged "schema" p) eqn:X; [apply tagged_iff in X; contradiction|]. unfold absent in H. rewrite H. auto.
Qed.
Lemma index_dec d i : index_text d i -> d = dec i.
Proof.
  intros (N & Z & P). destruct (N.eq_dec i 0) as [->|Ni].
  - rewrite (Z eq_refl). destruct (dec_spec 0) as (_ & _ & _ & _ & E). rewrite E; auto.
  - apply TzProofs.num_iff in N as (Ne & D & V). apply DurProofs.dec_unique; auto.
Qed.

Section Given.
Notation open anc n := (closed anc n = false).
Lemma given_children anc n : open anc n -> sub (given_here anc n ++ concat (map (given (n :: anc)) (children n))) (given anc n).
Proof. intros O. destruct n as [t a ns cs| |]; cbn [given children]; rewrite O; apply sub_refl. Qed.
Lemma given_kids anc n : open anc n -> sub (concat (map (given (n :: anc)) (children n))) (given anc n).
Proof. intros O. eapply sub_trans; [apply sub_r|apply given_children; auto]. Qed.
Lemma given_kid anc n c : open anc n -> In c (children n) -> sub (given (n :: anc) c) (given anc n).
Proof. intros O I. eapply sub_trans; [|apply given_kids; auto]. apply sub_in; auto. Qed.
Lemma spliced_children anc n : open anc n -> sub (base_here anc n ++ concat (map (spliced (n :: anc)) (children n))) (spliced anc n).
Proof. intros O. destruct n as [t a ns cs| |]; cbn [spliced children]; rewrite O; apply sub_app; try apply sub_refl; apply sub_r. Qed.
Lemma spliced_kids anc n : open anc n -> sub (concat (map (spliced (n :: anc)) (children n))) (spliced anc n).
Proof. intros O. eapply sub_trans; [apply sub_r|apply spliced_children; auto]. Qed.
Lemma spliced_kid anc n c : open anc n -> In c (children n) -> sub (spliced (n :: anc) c) (spliced anc n).
Proof. intros O I. eapply sub_trans; [|apply spliced_kids; auto]. apply sub_in; auto. Qed.
Lemma open_one ts anc n : one ts n -> forallb (fun t => negb (String.eqb t "choice") && negb (String.eqb t "annotation") && negb (String.eqb t "attribute")) ts = true -> open anc n.
Proof.
  intros (t & I & T) F. rewrite forallb_forall in F. specialize (F t I). apply andb_true_iff in F as [F F3]. apply andb_true_iff in F as [F1 F2]. apply negb_true_iff in F1, F2, F3.
  unfold closed, among. cbn [existsb]. rewrite (tagged_not _ _ _ T F1), (tagged_not _ _ _ T F2), (tagged_not _ _ _ T F3). auto.
Qed.
Lemma open_tag t anc n : tag t n -> forallb (fun t => negb (String.eqb t "choice") && negb (String.eqb t "annotation") && negb (String.eqb t "attribute")) [t] = true -> open anc n.
Proof. intros T. apply open_one. exists t. split; [left; auto|auto]. Qed.
End Given.

(** ** The parser *)
Section Parsed.
Context (u : uni).
(** What is needed of the parts of a document. *)
Definition fine (x : node) : Prop :=
  (one ["element"; "attribute"] x -> forall v, has x "name" v \/ has x "ref" v -> v <> lit "__base__") /\
  (tag "list" x -> forall c k, In c (children x) -> tag "simpleType" c -> final (particles c) k -> ~ tag "union" k) /\
  (~ tag "schema" x -> forall c k, In c (children x) -> tag "complexType" c ->
     final (tagged_children content_tags c) k -> tag "choice" k -> ~ has_elements k).
Definition all_fine (n : node) : Prop := forall x, part x n -> fine x.
Lemma fine_child n c : all_fine n -> In c (children n) -> ~ tag "annotation" c -> all_fine c.
Proof. intros F I N x P. apply F. eapply part_child; eauto. Qed.
Lemma not_note ts n : one ts n -> forallb (fun t => negb (String.eqb t "annotation")) ts = true -> ~ tag "annotation" n.
Proof.
  intros (t & I & T) F X. rewrite forallb_forall in F. specialize (F t I). apply negb_true_iff in F. apply (tagged_not _ _ _ T) in F. apply tagged_is in X. congruence.
Qed.
Lemma not_note_tag t n : tag t n -> String.eqb t "annotation" = false -> ~ tag "annotation" n.
Proof. intros T E. apply (not_note [t]); [exists t; split; [left; auto|auto]|]. cbn. rewrite E. auto. Qed.

(** A type: a simple one, or a struct. *)
Definition type_like (e : entity) : Prop := plainly e \/ exists s, e = EStruct s /\ st_subtypes s = [].
Definition parsed (anc : list node) (n : node) (e : entity) : Prop :=
  type_like e /\ sub (inner e) (given anc n) /\ sub (spl e) (spliced anc n).
Lemma type_like_typelike e : type_like e -> typelike e.
Proof. intros [P|(s & -> & _)]; [apply plainly_typelike; auto|exact Logic.I]. Qed.

Lemma particle_name c P f anon : fine c -> ok LocalElement c \/ ok Any c \/ ok Choice c -> particle_field anon P c f -> fl_name f <> lit "__base__".
Proof.
  intros (F & _) O (H1 & H2 & H3). destruct O as [O|[O|O]].
  - assert (T : tag "element" c) by (inversion O; auto). destruct (H1 T) as (-> & _). unfold element_name, pick.
    assert (Y : one ["element"; "attribute"] c) by (eexists; split; [left; reflexivity|auto]). specialize (F Y). unfold has in F.
    destruct (attribute c (lit "name")) as [v|]; [apply F; auto|]. destruct (attribute c (lit "ref")) as [v|]; [apply F; auto|]. discriminate.
  - assert (T : tag "any" c) by (inversion O; auto). destruct (H2 T) as (-> & _). discriminate.
  - apply inv_choice in O as [T _]. destruct (H3 T) as (-> & _). intros E. apply (f_equal (@rev N)) in E. rewrite rev_app_distr in E. discriminate.
Qed.
Lemma attribute_name c f : fine c -> one ["attribute"; "anyAttribute"] c -> attribute_field c f -> fl_name f <> lit "__base__".
Proof.
  intros (F & _) (t & [<-|[<-|[]]] & T) (_ & _ & _ & H1 & H2).
  - destruct (H1 T) as (H & _). apply F; [eexists; split; [right; left; reflexivity|auto]|]. destruct H as [H|[_ H]]; auto.
  - destruct (H2 T) as (-> & _). discriminate.
Qed.

Lemma simple_parsed k : forall n p anc e, (size n < k)%nat -> ok GlobalSimple n \/ ok LocalSimple n -> all_fine n -> parse_node u n (p :: anc) = Ok e ->
  plainly e /\ sub (inner e) (given (p :: anc) n).
Proof.
  induction k as [|k IH]; intros n p anc e S O F H; [lia|].
  assert (T : tag "simpleType" n) by (apply simple_kids in O; tauto).
  assert (On : forall anc, closed anc n = false) by (intros a; eapply open_tag; [exact T|reflexivity]).
  assert (Fn : forall c, In c (children n) -> ~ tag "annotation" c -> all_fine c) by (intros; eapply fine_child; eauto).
  destruct (simple_shape u n p anc e O H) as [(t & -> & Es)|[(r & en & Or & Tr & _ & -> & Es & _)|[X|X]]].
  - cbn. rewrite Es. split; [exact Logic.I|apply sub_nil].
  - cbn. rewrite Es. split; [exact Logic.I|apply sub_nil].
  - destruct X as (l & c & ec & t & Ol & Tl & Al & Ic & Oc & Hc & -> & Y). assert (Il := only_in _ _ Ol).
    assert (Tc : tag "simpleType" c) by (inversion Oc; auto).
    assert (Nl : ~ tag "annotation" l) by (eapply not_note_tag; [exact Tl|reflexivity]).
    assert (Nc : ~ tag "annotation" c) by (eapply not_note_tag; [exact Tc|reflexivity]).
    assert (Fl := Fn l Il Nl). assert (Fc : all_fine c) by (eapply fine_child; eauto).
    assert (Sc : (size c < k)%nat). { pose proof (size_child _ _ Il). pose proof (size_child _ _ Ic). lia. }
    destruct (IH c l (n :: p :: anc) ec Sc (or_intror Oc) Fc Hc) as [Pc Nc'].
    assert (Ol' : forall a, closed a l = false) by (intros a; eapply open_tag; [exact Tl|reflexivity]).
    assert (G : sub (given_here (n :: p :: anc) l ++ given (l :: n :: p :: anc) c) (given (p :: anc) n)).
    { eapply sub_trans; [|apply given_kid; eauto]. eapply sub_trans; [|apply given_children; auto]. apply sub_app; [apply sub_refl|]. apply sub_in; auto. }
    destruct Y as [(en & -> & Es)|(t0 & -> & Es)]; cbn [inner plainly]; rewrite Es; cbn [map List.concat fold_right].
    + split; [auto|]. rewrite app_nil_r. cbn [names inner] in *.
      destruct (simple_shape u c l (n :: p :: anc) _ (or_intror Oc) Hc) as [(t' & E & _)|[(r & en' & Or & Tr & _ & [= <-] & Es' & _ & _ & En)|[(l' & c' & ec' & t' & _ & _ & _ & _ & _ & _ & E & _)|(r & en' & Or & Kr & Tr & _)]]]; try discriminate.
      * rewrite Es'. cbn [map List.concat]. destruct En as (P & HP & ->); [inversion Oc; auto|].
        eapply sub_trans; [|exact G]. eapply sub_trans; [|apply sub_l]. unfold given_here.
        rewrite (tagged_not _ "element" _ Tl), (tagged_not _ "choice" _ Tl), (tagged_is _ _ Tl) by reflexivity.
        unfold given_attr. unfold absent in Al. rewrite Al. rewrite (outer_enclosing _ _ HP). apply sub_refl.
      * exfalso. destruct (Fl l (part_self l)) as (_ & FL & _). apply (FL Tl c r Ic Tc); auto. exists []. apply only_final in Or. rewrite Or. auto.
    + split; [exact Pc|]. cbn [inner] in Nc'. eapply sub_trans; [exact Nc'|]. eapply sub_trans; [|exact G]. apply sub_r.
  - destruct X as (r & en & Or & Kr & Tr & -> & _ & ts & K1 & K2 & _ & _ & _ & Nst). assert (Ir := only_in _ _ Or).
    assert (Nr : ~ tag "annotation" r) by (eapply not_note_tag; [exact Tr|reflexivity]). assert (Fr := Fn r Ir Nr).
    assert (Kc : Forall (fun c => ignorable c \/ ok LocalSimple c) (children r)) by (inversion Kr; auto).
    assert (Q : forall i cs ks es, SpecSchema.nested (fun c e => parse_node u c (r :: n :: p :: anc) = Ok e) i cs ks es -> (forall c, In c cs -> In c (children r) /\ tag "simpleType" c) ->
      Forall plainly es /\ sub (concat (map names es)) (case_types i cs ++ concat (map (given (r :: n :: p :: anc)) cs))).
    { intros i cs ks es N. induction N as [i|i d c cs ks' ks e es He Hd _ N IHN]; intros Hcs; [split; [constructor|apply sub_refl]|].
      destruct (Hcs c (or_introl eq_refl)) as [Ic Tc]. assert (Oc : ok LocalSimple c).
      { rewrite Forall_forall in Kc. destruct (Kc c Ic) as [X|X]; auto. clear - X Tc. clash. }
      assert (Sc : (size c < k)%nat). { pose proof (size_child _ _ Ir). pose proof (size_child _ _ Ic). lia. }
      assert (Fc : all_fine c). { eapply fine_child; [exact Fr|exact Ic|]. eapply not_note_tag; [exact Tc|reflexivity]. }
      destruct (IH c r (n :: p :: anc) e Sc (or_intror Oc) Fc He) as [Pc Gc]. destruct (IHN (fun x I => Hcs x (or_intror I))) as [Ps Gs].
      split; [constructor; auto; apply plainly_set; auto|]. cbn [map List.concat case_types]. rewrite names_set by (apply plainly_typelike; auto).
      rewrite (index_dec _ _ Hd). apply sub_cons.
      eapply sub_trans; [apply sub_app; [exact Gc|exact Gs]|]. apply sub_perm. apply Permutation_app_swap_app. }
    destruct (Q _ _ _ _ Nst) as [Q1 Q2].
    { intros c I. apply in_tagged in I as [I (t & [<-|[]] & Tc)]. auto. }
    cbn [plainly inner]. split; [apply plainly_list; auto|]. eapply sub_trans; [exact Q2|].
    eapply sub_trans; [|apply given_kid; eauto]. eapply sub_trans; [|apply given_children; eapply open_tag; [exact Tr|reflexivity]].
    apply sub_app; [|apply sub_filter]. unfold given_here.
    rewrite (tagged_not _ "element" _ Tr), (tagged_not _ "choice" _ Tr), (tagged_not _ "list" _ Tr), (tagged_is _ _ Tr) by reflexivity. apply sub_refl.
Qed.

Lemma attrs_quiet l A : Forall2 attribute_field l A -> concat (map (fun f => below f) A) = [] /\ concat (map (fun f => taken f) A) = [].
Proof. intros F. induction F as [|c f l A (_ & E & _) F [X Y]]; [auto|]. cbn [map List.concat]. rewrite X, Y, E. auto. Qed.
Lemma no_placeholders (A : list (field entity)) : (forall f, In f A -> fl_name f <> lit "__base__") -> placeholders A = [].
Proof.
  intros H. unfold placeholders. induction A as [|f A IH]; auto. cbn. destruct (str_eqb (fl_name f) (lit "__base__")) eqn:E.
  - apply str_eqb_eq in E. destruct (H f (or_introl eq_refl) E).
  - apply IH. intros; apply H; right; auto.
Qed.
Lemma attrs_proper n A : all_fine n -> Forall2 attribute_field (attribute_children n) A -> placeholders A = [].
Proof.
  intros F H. apply no_placeholders. intros f I. destruct (Forall2_in_r _ _ _ _ H I) as (c & Ic & Hc). apply in_tagged in Ic as [Ic Oc].
  eapply attribute_name; eauto. apply F. eapply part_child; [exact Ic| |constructor]. eapply not_note; [exact Oc|reflexivity].
Qed.
Lemma groups_taken n anc gs : ~ tag "schema" n -> type_groups n gs -> sub (map al_original gs) (concat (map (spliced (n :: anc)) (group_children n))).
Proof.
  intros N [->|H]; [apply sub_nil|].
  assert (Q : forall l, Forall2 group_ref l gs -> (forall c, In c l -> tag "attributeGroup" c) -> sub (map al_original gs) (concat (map (spliced (n :: anc)) l))).
  { clear H. intros l F. induction F as [|c a l gs (R & _) F IH]; intros T; [apply sub_nil|]. cbn [map List.concat].
    apply (sub_app [al_original a]); [|apply IH; intros; apply T; right; auto].
    assert (Tc := T c (or_introl eq_refl)). eapply sub_trans; [|destruct c; cbn [spliced]; rewrite app_assoc; apply sub_l]. eapply sub_trans; [|apply sub_r].
    unfold group_here. rewrite (tagged_is _ _ Tc). unfold inside, among. cbn [existsb]. destruct (tagged "schema" n) eqn:X; [apply tagged_iff in X; contradiction|]. cbn.
    unfold has in R. rewrite R. apply sub_refl. }
  apply Q; auto. intros c I. apply in_tagged in I as [_ (t & [<-|[]] & T)]. auto.
Qed.

Definition struct_parsed (n : node) (anc : list node) (e : entity) : Prop :=
  (exists s, e = EStruct s /\ st_subtypes s = [] /\ type_name n anc (st_name s)) /\ sub (inner e) (given anc n) /\ sub (spl e) (spliced anc n).
Section Step.
Context (k : nat) (IH : forall n p anc e, (size n < k)%nat -> ok GlobalComplex n \/ ok LocalComplex n -> all_fine n -> parse_node u n (p :: anc) = Ok e ->
  choice_type n (p :: anc) e \/ struct_parsed n (p :: anc) e).
Lemma type_parsed x anc t e : (size t < k)%nat -> In t (children x) -> tag "element" x -> all_fine x -> ok LocalSimple t \/ ok LocalComplex t -> parse_node u t (x :: anc) = Ok e ->
  parsed (x :: anc) t e.
Proof.
  intros S I T F O H. assert (Ft : all_fine t).
  { eapply fine_child; eauto. destruct O as [O|O]; apply role_tag in O; eapply not_note; try exact O; reflexivity. }
  destruct O as [O|O].
  - destruct (simple_parsed k t x anc e S (or_intror O) Ft H) as [P G]. split; [left; auto|]. split; auto. rewrite (plainly_spl _ P). apply sub_nil.
  - destruct (IH t x anc e S (or_intror O) Ft H) as [C|((s & -> & Es & _) & G & Sp)].
    + exfalso. destruct C as (c & nm & en & s & A & f & Fc & Tc & He & _). destruct (F x (part_self x)) as (_ & _ & X).
      apply (X ltac:(eapply tag_neq; [|exact T]; discriminate) t c I); auto. inversion O; auto.
    + split; [right; eauto|]. auto.
Qed.
Lemma content_parsed n anc F : (size n < S k)%nat -> all_fine n -> content_fields u n anc F ->
  F = [] \/ exists q, In q (children n) /\ one ["sequence"; "all"] q /\ placeholders F = [] /\
    sub (concat (map (fun f => below f) F)) (given (n :: anc) q) /\ sub (concat (map (fun f => taken f) F)) (spliced (n :: anc) q).
Proof.
  intros S Fn [->|(q & P & Iq & Oq & Tq & HP & HF)]; [left; auto|right]. exists q. split; auto. split; auto.
  assert (Nq : ~ tag "annotation" q) by (eapply not_note; [exact Tq|reflexivity]). assert (Fq : all_fine q) by (eapply fine_child; eauto).
  assert (Oq' : forall a, closed a q = false) by (intros a; eapply open_one; [exact Tq|reflexivity]).
  apply inv_sequence in Oq as [_ Kq]. rewrite Forall_forall in Kq.
  assert (Kx : forall x, In x (particles q) -> In x (children q) /\ all_fine x /\ (ok LocalElement x \/ ok Any x \/ ok Choice x)).
  { intros x I. apply in_particles in I as (I & E & N). split; auto. split; [eapply fine_child; eauto|]. destruct (Kq x I) as [[X|X]|X]; [congruence|contradiction|auto]. }
  assert (Q : forall x f, In x (particles q) -> particle_field (fun t e => parse_node u t (x :: q :: n :: anc) = Ok e) P x f ->
    sub (below f) (given (q :: n :: anc) x) /\ sub (taken f) (spliced (q :: n :: anc) x)).
  { intros x f Ix (Hx & Hc). destruct (Kx x Ix) as (Icx & Fx & Ox).
    destruct Ox as [Ox|[Ox|Ox]].
    + assert (Tx : tag "element" x) by (inversion Ox; auto). destruct (Hx Tx) as (_ & _ & _ & _ & Y).
      destruct (attribute x (lit "type")) as [ty|] eqn:At; [destruct Y as [_ ->]; split; apply sub_nil|].
      destruct (attribute x (lit "ref")) as [rf|] eqn:Ar; [destruct Y as [_ ->]; split; apply sub_nil|].
      destruct Y as (t & e & Ft & He & _ & ->). cbn [map List.concat]. rewrite !app_nil_r.
      apply final_tagged in Ft as [It Ot]. assert (Okt : ok LocalSimple t \/ ok LocalComplex t).
      { inversion Ox as [| | | | | | | | | | | |? ? [(v & V)|(v & V)]|? a c b ? Ec Kab Kc| | | | | | | | | |]; subst; [unfold has in V; congruence|unfold has in V; congruence|].
        rewrite Ec in It. apply in_app_or in It as [It|[<-|It]]; auto; exfalso.
        - rewrite Forall_forall in Kab. specialize (Kab t ltac:(apply in_or_app; auto)). clear - Kab Ot. clash.
        - rewrite Forall_forall in Kab. specialize (Kab t ltac:(apply in_or_app; auto)). clear - Kab Ot. clash. }
      assert (St : (size t < k)%nat). { pose proof (size_child _ _ Iq). pose proof (size_child _ _ Icx). pose proof (size_child _ _ It). lia. }
      destruct (type_parsed x (q :: n :: anc) t e St It Tx Fx Okt He) as (Ty & Gi & Gs).
      rewrite names_set by (apply type_like_typelike; auto). rewrite spl_set.
      split; [|eapply sub_trans; [exact Gs|]; apply spliced_kid; auto; eapply open_tag; [exact Tx|reflexivity]].
      eapply sub_trans; [|apply given_children; eapply open_tag; [exact Tx|reflexivity]].
      apply (sub_app [element_name x ++ lit "Type"]).
      * unfold given_here. rewrite (tagged_is _ _ Tx). unfold inside. rewrite (proj2 (among_iff _ _) Tq). unfold given_attr. rewrite At, Ar. apply sub_refl.
      * eapply sub_trans; [exact Gi|]. apply sub_in; auto.
    + assert (Tx : tag "any" x) by (inversion Ox; auto). destruct Hc as [Hc _]. destruct (Hc Tx) as (_ & _ & _ & -> & _). split; apply sub_nil.
    + apply inv_choice in Ox as [Tx _]. destruct Hc as [_ Hc]. destruct (Hc Tx) as (_ & _ & _ & _ & en & -> & En & _ & _ & Es & _). cbn [map List.concat names spl]. rewrite Es, En. cbn. split; [|apply sub_nil].
      eapply sub_trans; [|destruct x; cbn [given]; apply sub_l]. unfold given_here. rewrite (tagged_not _ "element" _ Tx), (tagged_is _ _ Tx) by reflexivity.
      unfold inside. rewrite (proj2 (among_iff _ _) Tq). cbn [tl]. rewrite (outer_enclosing _ _ HP). apply sub_refl. }
  split; [|split].
  - apply no_placeholders. intros f I. destruct (Forall2_in_r _ _ _ _ HF I) as (x & Ix & Hx). destruct (Kx x Ix) as (_ & Fx & Ox). eapply particle_name; [apply Fx; constructor|exact Ox|exact Hx].
  - eapply sub_trans; [|apply given_kids; auto]. eapply sub_trans; [|apply sub_filter]. apply sub_concat.
    eapply Forall2_imp; [|apply Forall2_turn; exact HF]. cbn beta. intros f x _ (Ix & Hx). apply Q; auto.
  - eapply sub_trans; [|apply spliced_kids; auto]. eapply sub_trans; [|apply sub_filter]. apply sub_concat.
    eapply Forall2_imp; [|apply Forall2_turn; exact HF]. cbn beta. intros f x _ (Ix & Hx). apply Q; auto.
Qed.

(** The groups and the sequence of a component do not overlap. *)
Lemma groups_and n anc q gs b : ~ tag "schema" n -> In q (children n) -> one ["sequence"; "all"] q -> type_groups n gs -> sub b (spliced (n :: anc) q) ->
  sub (map al_original gs ++ b) (concat (map (spliced (n :: anc)) (children n))).
Proof.
  intros N I O G B. eapply sub_trans; [apply sub_app; [apply (groups_taken n anc gs N G)|exact B]|]. apply sub_filter_in; auto.
  destruct O as (t & [<-|[<-|[]]] & T); cbn [existsb]; rewrite (tagged_not _ _ _ T) by reflexivity; auto.
Qed.
Lemma content_and n anc F gs : (size n < S k)%nat -> all_fine n -> ~ tag "schema" n -> closed anc n = false -> content_fields u n anc F -> type_groups n gs ->
  placeholders F = [] /\ sub (concat (map (fun f => below f) F)) (given anc n) /\
  sub (base_here anc n ++ map al_original gs ++ concat (map (fun f => taken f) F)) (spliced anc n).
Proof.
  intros S Fn N O HF G. destruct (content_parsed n anc F S Fn HF) as [->|(q & Iq & Oq & P & B & T)].
  - split; auto. split; [apply sub_nil|]. cbn [map List.concat]. rewrite app_nil_r. eapply sub_trans; [|apply spliced_children; auto]. apply sub_app; [apply sub_refl|].
    eapply sub_trans; [apply (groups_taken n anc gs N G)|]. apply sub_filter.
  - split; auto. split; [eapply sub_trans; [exact B|]; apply given_kid; auto|]. eapply sub_trans; [|apply spliced_children; auto]. apply sub_app; [apply sub_refl|].
    eapply groups_and; eauto.
Qed.
Lemma struct_step n p anc e : (size n < S k)%nat -> ok GlobalComplex n \/ ok LocalComplex n -> all_fine n -> parse_node u n (p :: anc) = Ok e ->
  choice_type n (p :: anc) e \/ struct_parsed n (p :: anc) e.
Proof.
  intros S O F H. destruct (complex_kids n O) as [T _]. destruct (complex_shape u n (p :: anc) e O H) as [C|[C|C]]; [left; auto|right|right].
  - destruct C as (nm & s & Fs & A & -> & HN & <- & Es & Ef & HF & HA & HG).
    assert (On : forall a, closed a n = false) by (intros a; eapply open_tag; [exact T|reflexivity]).
    assert (Nn : ~ tag "schema" n) by (eapply tag_neq; [|exact T]; discriminate).
    destruct (content_and n (p :: anc) Fs (st_groups s) S F Nn (On _) HF HG) as (P & B & Sp). destruct (attrs_quiet _ _ HA) as [A1 A2].
    split; [exists s; auto|]. cbn [inner spl]. rewrite Es, Ef. unfold placeholders in *. rewrite filter_app, P.
    assert (PA := attrs_proper n A F HA). unfold placeholders in PA. rewrite PA. rewrite !map_app, !concat_app, A1, A2. cbn [map List.concat app]. rewrite !app_nil_r.
    split; auto. eapply sub_trans; [|exact Sp]. apply sub_r.
  - destruct C as (c & d & nm & s & Fs & A & b & B & Ic & Oc & Od & Td & -> & HN & <- & Es & Ef & (Hb & Nb & _ & _ & Sb & _) & HF & HA & HB & HG).
    assert (Id := only_in _ _ Od).
    assert (Nc : ~ tag "annotation" c) by (eapply not_note; [exact Oc|reflexivity]). assert (Nd : ~ tag "annotation" d) by (eapply not_note; [exact Td|reflexivity]).
    assert (Fc : all_fine c) by (eapply fine_child; eauto). assert (Fd : all_fine d) by (eapply fine_child; eauto).
    assert (On : forall a, closed a n = false) by (intros a; eapply open_tag; [exact T|reflexivity]).
    assert (Occ : forall a, closed a c = false) by (intros a; eapply open_one; [exact Oc|reflexivity]).
    assert (Odd : forall a, closed a d = false) by (intros a; eapply open_one; [exact Td|reflexivity]).
    assert (Nsd : ~ tag "schema" d) by (destruct Td as (t & [<-|[<-|[]]] & X); eapply tag_neq; try exact X; discriminate).
    assert (Sd : (size d < Datatypes.S k)%nat). { pose proof (size_child _ _ Ic). pose proof (size_child _ _ Id). lia. }
    destruct (content_and d (c :: n :: p :: anc) Fs (st_groups s) Sd Fd Nsd (Odd _) HF HG) as (P & Bl & Sp).
    destruct (attrs_quiet _ _ HA) as [A1 A2]. destruct (attrs_quiet _ _ HB) as [B1 B2].
    split; [exists s; auto|]. cbn [inner spl]. rewrite Es, Ef. unfold placeholders in *. rewrite !filter_app, P.
    assert (PA := attrs_proper d A Fd HA). assert (PB := attrs_proper n B F HB). unfold placeholders in PA, PB. rewrite PA, PB. cbn [filter].
    rewrite Nb, str_eqb_refl. rewrite !map_app, !concat_app, A1, A2. cbn [map List.concat app]. rewrite B1, B2, Sb. cbn [map List.concat app]. rewrite !app_nil_r.
    split.
    + eapply sub_trans; [exact Bl|]. eapply sub_trans; [apply given_kid; eauto|]. apply given_kid; auto.
    + eapply sub_trans; [|apply spliced_kid; [auto|exact Ic]]. eapply sub_trans; [|apply spliced_kid; [auto|exact Id]]. eapply sub_trans; [|exact Sp].
      unfold base_here. rewrite (proj2 (among_iff _ _) Td). unfold inside. rewrite (proj2 (among_iff _ _) Oc). cbn [andb]. unfold has in Hb. rewrite Hb. apply sub_refl.
Qed.
End Step.
Lemma complex_parsed k : forall n p anc e, (size n < k)%nat -> ok GlobalComplex n \/ ok LocalComplex n -> all_fine n -> parse_node u n (p :: anc) = Ok e ->
  choice_type n (p :: anc) e \/ struct_parsed n (p :: anc) e.
Proof. induction k as [|k IH]; intros n p anc e S O F H; [lia|]. eapply struct_step; eauto. Qed.

(** *** Declarations *)
Lemma find_tagged t l c : find (tagged t) l = Some c <-> exists a b, l = a ++ c :: b /\ tag t c /\ forall y, In y a -> ~ tag t y.
Proof.
  induction l as [|x l IH]; cbn; [split; [discriminate|intros ([|] & b & E & _); discriminate]|]. destruct (tagged t x) eqn:T.
  - apply tagged_iff in T. split.
    + intros [= <-]. exists [], l. split; auto.
    + intros ([|y a] & b & E & Tc & N); [injection E as -> _; auto|]. injection E as -> E. exfalso. apply (N y); [left; auto|auto].
  - assert (NT : ~ tag t x) by (intros X; apply tagged_is in X; congruence). rewrite IH. split.
    + intros (a & b & -> & Tc & N). exists (x :: a), b. split; auto. split; auto. intros y [<-|I]; auto.
    + intros ([|y a] & b & E & Tc & N); [injection E as -> _; contradiction|]. injection E as -> ->. exists a, b. split; auto. split; auto. intros z I. apply N. right. auto.
Qed.
Lemma doc_text_ok n : get_documentation n = doc_text n.
Proof.
  enough (X : forall d, SpecSchema.documented n d <-> doc_text n = Some d).
  { destruct (get_documentation n) as [d|] eqn:E; [apply documented_iff in E; apply X in E; auto|]. destruct (doc_text n) as [d|]; auto. exfalso. pose proof (proj2 (X d) eq_refl) as D. apply documented_iff in D. congruence. }
  intros d. unfold SpecSchema.documented, doc_text, first_child. split.
  - intros (a & x & r & F1 & F2 & E). apply (proj2 (find_tagged _ _ _)) in F1. apply (proj2 (find_tagged _ _ _)) in F2. rewrite F1, F2, E. auto.
  - destruct (find (tagged "annotation") (children n)) as [a|] eqn:F1; [|discriminate]. destruct (find (tagged "documentation") (children a)) as [x|] eqn:F2; [|discriminate].
    destruct (children x) as [|[| |] r] eqn:E; try discriminate. intros [= ->]. apply find_tagged in F1, F2. exists a, x, r. auto.
Qed.
Lemma last_final ts n c p : final (tagged_children ts n) c -> last_child ts n p = p c.
Proof. intros (a & E). unfold last_child. rewrite E, map_app. cbn [map]. rewrite last_last. auto. Qed.

(** Everything outside of modules: no structs with modules. *)
Inductive shallow : entity -> Prop :=
| shallow_plain e : plainly e -> shallow e
| shallow_alias a : shallow (EAlias a)
| shallow_import i : shallow (EImport i)
| shallow_choice en s : en_subtypes en = [EStruct s] -> inner (EStruct s) = [] -> shallow (EEnum en).
Definition declared_like (schema d : node) (e : entity) : Prop :=
  (exists s, e = EStruct s /\ st_subtypes s = [] /\ has d "name" (st_name s) /\ sub [st_name s] (own_names d) /\
     (structured d = true /\ sub (inner e) (given [schema] d) /\ sub (spl e) (spliced [schema] d) \/ st_fields s = [] /\ st_groups s = [])) \/
  shallow e /\ sub (names e) (outside_names schema d).
Lemma alias_names nm q d : names (EAlias (new_alias nm q (get_documentation d))) = if voiced d then [nm] else [].
Proof. cbn. rewrite doc_text_ok. unfold voiced. destruct (doc_words (doc_text d)); auto. Qed.
Lemma declaration_like schema d e : ok_schema schema -> all_fine schema -> In d (declarations schema) -> parse_node u d [schema] = Ok e -> declared_like schema d e.
Proof.
  intros (Ts & Ks) F Id H. apply in_declarations in Id as (I & E & N & NG). rewrite Forall_forall in Ks.
  assert (Fd : all_fine d) by (eapply fine_child; eauto).
  destruct (Ks d I) as [[X|X]|[O|[O|[O|[O|[O|O]]]]]]; [congruence|contradiction| | | | | |].
  - right. apply role_tag in O. cbn in O. assert (He : e = parse_import d).
    { destruct O as (t & [<-|[<-|[]]] & T); [rewrite (step_kind u d _ KImport) in H by exact T|rewrite (step_kind u d _ KInclude) in H by exact T]; congruence. }
    subst e. split; [apply shallow_import|]. cbn. apply sub_nil.
  - right. assert (T : tag "simpleType" d) by (inversion O; auto).
    destruct (simple_parsed (S (size d)) d schema [] e (Nat.lt_succ_diag_r _) (or_introl O) Fd H) as [P G]. split; [constructor; auto|].
    destruct (declares_ok _ _ _ _ _ Ts H) as (_ & D & _). assert (Hn : has d "name" (entity_name e)) by (apply D; exists "simpleType"%string; split; [right; left; auto|auto]).
    unfold outside_names, own_names, structured. rewrite (tagged_is _ _ T), (tagged_not _ "complexType" _ T), (tagged_not _ "element" _ T) by reflexivity. cbn [andb orb].
    unfold name_of. unfold has in Hn. rewrite Hn. destruct e; try (destruct P; fail); cbn [names entity_name]; apply sub_cons; exact G.
  - assert (T : tag "element" d) by (inversion O; auto). destruct (global_element_shape u schema [] d e Ts T H) as (nm & Hn & Y).
    assert (Own : own_names d = if negb (given_attr d "type") || voiced d then [nm] else []).
    { unfold own_names. rewrite (tagged_not _ "simpleType" _ T), (tagged_not _ "complexType" _ T), (tagged_is _ _ T) by reflexivity. unfold name_of. unfold has in Hn. rewrite Hn. auto. }
    unfold given_attr in Own. destruct (attribute d (lit "type")) as [q|] eqn:At.
    + subst e. right. split; [apply shallow_alias|]. rewrite alias_names. unfold outside_names. rewrite Own. cbn [negb orb]. apply sub_l.
    + cbn [negb orb] in Own. destruct Y as [[Nil ->]|(t & e0 & Ft & He & ->)].
      * left. eexists. split; [reflexivity|]. cbn. rewrite Own. split; auto. split; auto. split; [apply sub_refl|auto].
      * assert (St := last_final _ _ _ (tagged "complexType") Ft). apply final_tagged in Ft as [It Ot].
        assert (Okt : ok LocalSimple t \/ ok LocalComplex t).
        { assert (Kd : Forall (fun c => ignorable c \/ one ["key"; "keyref"; "unique"] c \/ ok LocalSimple c \/ ok LocalComplex c) (children d)) by (inversion O; auto).
          rewrite Forall_forall in Kd. specialize (Kd t It). destruct Kd as [Kd|[Kd|Kd]]; auto; clear - Kd Ot; clash. }
        assert (Sd : structured d = tagged "complexType" t).
        { unfold structured. rewrite (tagged_not _ "complexType" _ T), (tagged_is _ _ T) by reflexivity. cbn. exact St. }
        destruct (type_parsed (S (size t)) (complex_parsed (S (size t))) d [schema] t e0 (Nat.lt_succ_diag_r _) It T Fd Okt He) as (Ty & G & Sp).
        assert (Od : forall a, closed a d = false) by (intros a; eapply open_tag; [exact T|reflexivity]).
        destruct Okt as [Okt|Okt].
        -- right. destruct (simple_parsed (S (size t)) t d [schema] e0 (Nat.lt_succ_diag_r _) (or_intror Okt)) as [P _]; auto.
           { eapply fine_child; eauto. eapply not_note; [exact Ot|reflexivity]. }
           split; [constructor; apply plainly_set; auto|]. rewrite names_set by (apply plainly_typelike; auto). unfold outside_names. rewrite Own, Sd.
           assert (Tt : tag "simpleType" t) by (inversion Okt; auto). rewrite (tagged_not _ "complexType" _ Tt) by reflexivity. apply sub_cons.
           eapply sub_trans; [exact G|]. apply given_kid; auto.
        -- left. assert (Tt : tag "complexType" t) by (inversion Okt; auto).
           assert (Ft : all_fine t) by (eapply fine_child; [exact Fd|exact It|eapply not_note; [exact Ot|reflexivity]]).
           assert (Es : exists s, e0 = EStruct s /\ st_subtypes s = []).
           { destruct Ty as [P|X]; auto. exfalso.
             destruct (complex_parsed (S (size t)) t d [schema] e0 (Nat.lt_succ_diag_r _) (or_intror Okt) Ft He) as [C|((s & -> & _) & _)].
             - destruct C as (c & nm' & en & s & A & f & Fc & Tc & Hec & _). destruct (Fd d (part_self d)) as (_ & _ & X).
               apply (X ltac:(eapply tag_neq; [|exact T]; discriminate) t c It); auto.
             - destruct P. }
           destruct Es as (s & -> & Es). exists (st_set_name nm s). split; [reflexivity|]. split; [exact Es|]. split; [exact Hn|]. split; [rewrite Own; apply sub_refl|].
           left. split; [rewrite Sd; apply tagged_is; auto|]. split.
           ++ change (inner (EStruct (st_set_name nm s))) with (inner (EStruct s)). eapply sub_trans; [exact G|]. apply given_kid; auto.
           ++ change (spl (EStruct (st_set_name nm s))) with (spl (EStruct s)). eapply sub_trans; [exact Sp|]. apply spliced_kid; auto.
  - assert (T : tag "complexType" d) by (inversion O; auto).
    assert (SO : structured d = true) by (unfold structured; rewrite (tagged_is _ _ T); auto).
    assert (TN : forall nm, type_name d [schema] nm -> has d "name" nm) by (intros nm (X & _); auto).
    assert (Own : own_names d = name_of d ++ if choice_content d then map (fun v => v ++ lit "Choice") (name_of d) else []).
    { unfold own_names. rewrite (tagged_not _ "simpleType" _ T), (tagged_is _ _ T) by reflexivity. auto. }
    destruct (complex_parsed (S (size d)) d schema [] e (Nat.lt_succ_diag_r _) (or_introl O) Fd H) as [C|((s & -> & Es & HN) & G & Sp)].
    + right. destruct C as (c & nm & en & s & A & f & Fc & Tc & He & -> & HN & En & _ & _ & Esub & Sn & Sf & (_ & _ & _ & _ & Cf & _) & Ss & HA & _).
      assert (In0 : inner (EStruct s) = []).
      { cbn. rewrite Ss, Sf. destruct (attrs_quiet _ _ HA) as [A1 _]. rewrite map_app, concat_app, A1. cbn. rewrite Cf. auto. }
      split; [eapply shallow_choice; eauto|]. cbn [names]. rewrite Esub. cbn [map List.concat]. rewrite app_nil_r. cbn [names]. cbn [inner] in In0. rewrite In0, Sn, En.
      unfold outside_names. rewrite Own. unfold name_of. specialize (TN nm HN). unfold has in TN. rewrite TN.
      unfold choice_content. rewrite (last_final _ _ _ _ Fc), (tagged_is _ _ Tc), (proj2 (has_elements_iff c) He). cbn [andb map app].
      eapply (sub_trans _ [nm; nm ++ lit "Choice"]); [apply sub_perm; constructor|]. apply (sub_l [nm; nm ++ lit "Choice"]).
    + left. specialize (TN _ HN). exists s. split; auto. split; auto. split; auto. split; [|left; auto].
      rewrite Own. unfold name_of. unfold has in TN. rewrite TN. apply sub_l.
  - assert (T : tag "attribute" d) by (inversion O; auto). pose proof (global_attribute_shape u schema [] d e Ts T H) as Y.
    assert (Sd : structured d = false) by (unfold structured; rewrite (tagged_not _ "complexType" _ T), (tagged_not _ "element" _ T) by reflexivity; auto).
    assert (Own : own_names d = match attribute d (lit "ref") with
        | Some r => if voiced d then [r] else [] | None => if negb (given_attr d "type") || voiced d then name_of d else [] end).
    { unfold own_names. rewrite (tagged_not _ "simpleType" _ T), (tagged_not _ "complexType" _ T), (tagged_not _ "element" _ T), (tagged_is _ _ T) by reflexivity. auto. }
    destruct (attribute d (lit "ref")) as [r|].
    { right. subst e. split; [apply shallow_alias|]. rewrite alias_names. unfold outside_names. rewrite Own. apply sub_l. }
    destruct Y as (nm & Hn & Y). unfold name_of in Own. pose proof Hn as Hn'. unfold has in Hn'. rewrite Hn' in Own. unfold given_attr in Own.
    destruct (attribute d (lit "type")) as [q|] eqn:At.
    + subst e. right. split; [apply shallow_alias|]. rewrite alias_names. unfold outside_names. rewrite Own. cbn [negb orb]. apply sub_l.
    + cbn [negb orb] in Own. destruct Y as [[Nil ->]|(t & e0 & Ft & He & ->)].
      * left. eexists. split; [reflexivity|]. cbn. rewrite Own. split; auto. split; auto. split; [apply sub_refl|auto].
      * apply final_tagged in Ft as [It Ot].
        assert (Okt : ok LocalSimple t).
        { assert (Kd : Forall (fun c => ignorable c \/ ok LocalSimple c) (children d)) by (inversion O; auto).
          rewrite Forall_forall in Kd. specialize (Kd t It). destruct Kd as [Kd|Kd]; auto; clear - Kd Ot; clash. }
        right. destruct (simple_parsed (S (size t)) t d [schema] e0 (Nat.lt_succ_diag_r _) (or_intror Okt)) as [P G]; auto.
        { eapply fine_child; eauto. eapply not_note; [exact Ot|reflexivity]. }
        split; [constructor; apply plainly_set; auto|]. rewrite names_set by (apply plainly_typelike; auto). unfold outside_names. rewrite Own, Sd.
        apply sub_cons. eapply sub_trans; [exact G|]. apply given_kid; auto.
        unfold closed, among, existsb. rewrite (tagged_not _ "choice" _ T), (tagged_not _ "annotation" _ T), (tagged_is _ _ T) by reflexivity. cbn. rewrite (tagged_is _ _ Ts). auto.
  - exfalso. apply NG. inversion O; auto.
Qed.
End Parsed.

(** ** Linking *)
Lemma sub_shuffle {A} (a b c d : list A) : sub ((a ++ b) ++ c ++ d) ((a ++ c) ++ b ++ d).
Proof. apply sub_perm. rewrite <- !app_assoc. apply Permutation_app_head. rewrite !app_assoc. apply Permutation_app_tail, Permutation_app_comm. Qed.
Lemma grow_list {A B Q} (R : A -> B -> Prop) (fed : Q -> list str -> Prop) (N : A -> list str) (N' : B -> list str) (S : A -> list Q) l l' : Forall2 R l l' ->
  (forall x y qs, In x l -> R x y -> Forall2 fed (S x) qs -> sub (N' y) (N x ++ concat qs)) ->
  forall qs, Forall2 fed (concat (map S l)) qs -> sub (concat (map N' l')) (concat (map N l) ++ concat qs).
Proof.
  intros F. induction F as [|x y l l' H F IH]; intros G qs Fq; cbn in *; [apply sub_nil|].
  apply Forall2_app_inv_l in Fq as (q1 & q2 & F1 & F2 & ->). rewrite concat_app. eapply sub_trans; [|apply sub_shuffle].
  apply sub_app; [apply G; auto|]. apply IH; auto.
Qed.
Definition fed (src : str -> list (field entity) -> Prop) (q : str) (a : list str) : Prop := forall c, src q c -> sub (concat (map (fun f => below f) c)) a.
Lemma placeholders_same R fs own : Forall2 (same_field R) fs own -> map fl_type (placeholders own) = map fl_type (placeholders fs).
Proof.
  intros F. induction F as [|x y l l' (E1 & E2 & _) F IH]; auto. unfold placeholders in *. cbn. rewrite E1. destruct (str_eqb _ _); cbn; congruence.
Qed.
Lemma assembled_names src own out qs : assembled src own out -> Forall2 (fed src) (map fl_type (placeholders own)) qs ->
  sub (concat (map (fun f => below f) out)) (concat (map (fun f => below f) own) ++ concat qs).
Proof.
  intros (cs & F & ->) G. rewrite map_app, concat_app. apply sub_app; [apply sub_filter|]. eapply sub_trans; [apply sub_filter|].
  revert qs G. induction F as [|b c l cs H F IH]; intros qs G; cbn in *; [apply sub_nil|]. inversion G; subst. rewrite map_app, concat_app. cbn. apply sub_app; [apply H2; auto|apply IH; auto].
Qed.
Lemma fields_grow src fs own : Forall2 (same_field (completed src)) fs own ->
  (forall f e, In f fs -> In e (fl_subtypes f) -> forall e' qs, completed src e e' -> Forall2 (fed src) (spl e) qs -> sub (names e') (names e ++ concat qs)) ->
  forall qs, Forall2 (fed src) (concat (map (fun f => taken f) fs)) qs -> sub (concat (map (fun f => below f) own)) (concat (map (fun f => below f) fs) ++ concat qs).
Proof.
  intros F H. eapply grow_list; [exact F|]. intros f g qs I (_ & _ & _ & _ & _ & Fe). eapply grow_list; [exact Fe|]. intros e e' q' Ie C. apply (H f); auto.
Qed.
Lemma completed_names src e : forall e' qs, completed src e e' -> Forall2 (fed src) (spl e) qs -> sub (names e') (names e ++ concat qs).
Proof.
  induction e as [s IHf IHs|t IH|n IH|f|c|a|i] using entity_sub_ind; intros e' qs C Fq; inversion C as [s0 t0 own S F As|e0 N]; subst; try (apply sub_l).
  cbn [spl] in Fq. apply Forall2_app_inv_l in Fq as (q1 & q2 & F1 & F2 & ->). apply Forall2_app_inv_l in F2 as (q3 & q4 & F3 & F4 & ->).
  destruct S as (En & _ & _ & Es). cbn [names]. rewrite En, Es. rewrite !concat_app, <- app_comm_cons, <- app_assoc. apply sub_cons. apply sub_app; [apply sub_refl|].
  eapply sub_trans; [eapply assembled_names; [exact As|rewrite (placeholders_same _ _ _ F); exact F1]|].
  eapply sub_trans; [apply sub_app; [eapply fields_grow; [exact F|eauto|exact F4]|apply sub_refl]|]. rewrite <- app_assoc. apply sub_app; [apply sub_refl|].
  eapply sub_trans; [|apply sub_perm, Permutation_app_comm]. rewrite <- app_assoc. eapply sub_trans; [|apply sub_r]. apply sub_refl.
Qed.

(** *** What components are made of *)
Section Expand.
Context (schema : node).
Notation expands := (expands schema).
Notation declared_as := (declared_as schema).
Notation sources := (sources schema).
Lemma expands_app a b n : expands (a ++ b) n -> exists x y, expands a x /\ expands b y /\ n = x ++ y.
Proof.
  revert n. induction a as [|d a IH]; cbn; intros n E; [exists [], n; split; [constructor|auto]|]. inversion E as [|d' ds x y Ex Ey]; subst.
  apply IH in Ey as (p & q & Ep & Eq & ->). exists (given [schema] d ++ x ++ p), q. split; [constructor; auto|]. split; auto. rewrite <- !app_assoc. auto.
Qed.
Lemma expands_in l d n : expands l n -> In d l -> exists m, expands [d] m /\ sub m n.
Proof.
  intros E I. apply in_split in I as (a & b & ->). apply expands_app in E as (x & y & Ex & Ey & ->). change (d :: b) with ([d] ++ b) in Ey.
  apply expands_app in Ey as (p & q & Ep & Eq & ->). exists p. split; auto. eapply sub_trans; [|apply sub_r]. apply sub_l.
Qed.
Lemma expands_well l n : expands l n -> forall d, In d l -> ~ In d (sources (spliced [schema] d)).
Proof.
  intros E. induction E as [|d ds a b Ea IHa Eb IHb]; intros x I; [destruct I|]. destruct I as [<-|I]; [|auto]. intros J. apply (IHa d J J).
Qed.
Lemma expands_sources qs n : expands (sources qs) n -> exists ns, Forall2 (fun q => expands (declared_as q)) qs ns /\ n = concat ns.
Proof.
  revert n. induction qs as [|q qs IH]; cbn; intros n E; [inversion E; subst; exists []; auto|]. apply expands_app in E as (x & y & Ex & Ey & ->).
  destruct (IH y Ey) as (ns & F & ->). exists (x :: ns). split; auto.
Qed.
Lemma concat_perm {A} (l l' : list (list A)) : Permutation l l' -> Permutation (concat l) (concat l').
Proof.
  intros P. induction P; cbn; auto.
  - apply Permutation_app_head. auto.
  - rewrite !app_assoc. apply Permutation_app_tail, Permutation_app_comm.
  - eapply perm_trans; eauto.
Qed.
Lemma Forall2_sub {A} (P : A -> list str -> Prop) qs qs' ns : sub qs qs' -> Forall2 P qs' ns -> exists ms, Forall2 P qs ms /\ sub (concat ms) (concat ns).
Proof.
  intros (r & Pm) F. eapply Permutation_Forall2 in F as (ms & Pms & F); [|exact Pm]. apply Forall2_app_inv_l in F as (a & b & Fa & Fb & ->). exists a. split; auto.
  exists (concat b). rewrite <- concat_app. apply concat_perm. auto.
Qed.
Lemma local_part_ok q k : local q k -> local_part q = k.
Proof.
  intros [N H]. revert k N H. induction q as [|c q IH]; intros k N H.
  - destruct H as [H|(p & E)]; [auto|]. destruct p; discriminate.
  - cbn [local_part]. destruct H as [<-|(p & E)].
    + destruct (existsb (N.eqb 58) (c :: q)) eqn:X; auto. apply existsb_exists in X as (y & I & Y). apply N.eqb_eq in Y. subst y. contradiction.
    + destruct (existsb (N.eqb 58) (c :: q)) eqn:X.
      * destruct p as [|c' p]; cbn in E; injection E as -> E; [|apply IH; auto; right; exists p; auto]. subst q. apply IH; auto.
      * exfalso. assert (Y : existsb (N.eqb 58) (c :: q) = true); [|congruence]. apply existsb_exists. exists 58. split; [rewrite E; apply in_or_app; right; left; auto|apply N.eqb_refl].
Qed.
Lemma declared_in q k d : local q k -> In d (children schema) -> has d "name" k -> In d (declared_as q).
Proof.
  intros L I H. unfold SpecDistinct.declared_as. apply filter_In. split; auto. unfold has in H. rewrite H. apply str_eqb_eq. symmetry. apply local_part_ok. auto.
Qed.

(** *** Files *)
Context (f f' : rs_file) (L : link f = Ok f').
Definition comes_from (s : strukt entity) (d : node) : Prop :=
  st_subtypes s = [] /\ has d "name" (st_name s) /\ In d (children schema) /\ sub (inner (EStruct s)) (given [schema] d).
Context (origin : nat -> node) (O : forall i s, struct_at (top_level f) i s -> comes_from s (origin i))
  (OS : forall i s, struct_at (rf_types f) i s -> sub (spl (EStruct s)) (spliced [schema] (origin i))).

Lemma linked_names : forall i s t n, struct_at (rf_types f) i s -> struct_at (rf_types f') i t -> expands [origin i] n -> sub (inner (EStruct t)) n.
Proof.
  destruct (link_ok _ _ L) as (Eg & _ & _ & El & _ & Lk).
  induction i as [i IH] using lt_wf_ind. intros s t n A T E.
  assert (Top : forall j x, struct_at (rf_types f) j x -> struct_at (top_level f) j x).
  { intros j x X. unfold struct_at, top_level in *. rewrite nth_error_app1; auto. apply nth_error_Some. congruence. }
  destruct (O i s (Top _ _ A)) as (Ns & Hn & Id & G). assert (Sp := OS i s A).
  destruct (Lk i s A) as (t' & T' & own & out & gs & (_ & _ & _ & Es) & F & As & Gs & Et). assert (t' = t) as -> by (unfold struct_at in *; congruence). clear T'.
  inversion E as [|d ds a b Ea Eb]; subst. inversion Eb; subst. rewrite app_nil_r.
  pose proof (expands_well _ _ E _ (or_introl eq_refl)) as Self.
  apply expands_sources in Ea as (ns & Fn & ->). 
  (* what each name stands for *)
  assert (Src : forall q nq, In q (spl (EStruct s)) -> expands (declared_as q) nq -> fed (snapshot (top_level f) (top_level f') i) q nq).
  { intros q nq Iq Eq c [[_ ->]|(j & (k & sj & Lq & Aj & Nj & _) & Y)]; [apply sub_nil|].
    destruct (O j sj Aj) as (_ & Hj & Ij & Gj). rewrite Nj in Hj.
    destruct (expands_in _ _ _ Eq (declared_in _ _ _ Lq Ij Hj)) as (m & Em & Sm). eapply sub_trans; [|exact Sm].
    destruct Y as [(Lt & tj & Tj & ->)|(Lt & sj' & Aj' & ->)].
    - assert (Li := struct_at_bound _ _ _ A). assert (Tj' : struct_at (rf_types f') j tj) by (apply struct_at_types; auto; lia).
      assert (Aj' : struct_at (rf_types f) j sj) by (apply struct_at_types; auto; lia). specialize (IH j Lt sj tj m Aj' Tj' Em). eapply sub_trans; [|exact IH]. apply sub_r.
    - assert (sj' = sj) as -> by (unfold struct_at in *; congruence). inversion Em; subst. eapply sub_trans; [|apply sub_l]. eapply sub_trans; [|exact Gj]. apply sub_r. }
  assert (NoSelf : forall q, In q (spl (EStruct s)) -> ~ refers (top_level f) q i).
  { intros q Iq (k & sj & Lq & Aj & Nj & _). assert (sj = s) as -> by (pose proof (Top _ _ A); unfold struct_at in *; congruence). apply Self.
    unfold SpecDistinct.sources. apply in_concat. exists (declared_as q). split; [apply in_map; eapply sub_incl; eauto|]. eapply declared_in; eauto. congruence. }
  destruct (Forall2_sub _ _ _ _ Sp Fn) as (ms & Fm & Sm).
  assert (Ff : Forall2 (fed (snapshot (top_level f) (top_level f') i)) (spl (EStruct s)) ms).
  { clear - Fm Src. revert Fm Src. generalize (spl (EStruct s)). intros l Fm. induction Fm; intros S; constructor; [apply S; [left; auto|auto]|]. apply IHFm. intros; apply S; [right; auto|auto]. }
  cbn [spl] in Ff, NoSelf. apply Forall2_app_inv_l in Ff as (q1 & q2 & F1 & F2 & ->). apply Forall2_app_inv_l in F2 as (q3 & q4 & F3 & F4 & ->).
  cbn [inner]. rewrite Es, Ns, Et. cbn [map List.concat app]. rewrite map_app, concat_app. cbn [inner] in G. rewrite Ns in G. cbn [map List.concat app] in G.
  eapply sub_trans; [|apply sub_app; [exact G|exact Sm]]. rewrite !concat_app.
  eapply sub_trans; [apply sub_app|].
  - eapply assembled_names; [exact As|]. rewrite (placeholders_same _ _ _ F). instantiate (1 := q1). clear - F1 NoSelf.
    assert (X : forall q, In q (map fl_type (placeholders (st_fields s))) -> ~ refers (top_level f) q i) by (intros; apply NoSelf, in_or_app; auto).
    clear NoSelf. induction F1 as [|q a l q1 H F IH]; constructor; [|apply IH; intros; apply X; right; auto].
    intros c [Sn|[R _]]; [apply H; auto|destruct (X q (or_introl eq_refl) R)].
  - instantiate (1 := concat q3). clear - F3 Gs NoSelf.
    assert (X : forall q, In q (map al_original (st_groups s)) -> ~ refers (top_level f) q i) by (intros; apply NoSelf, in_or_app; right; apply in_or_app; auto).
    clear NoSelf. revert q3 F3. induction Gs as [|x g l gs H Gs IH]; intros q3 F3; inversion F3; subst; cbn; [apply sub_nil|]. rewrite map_app, concat_app. apply sub_app; [|apply IH; auto; intros; apply X; right; auto].
    destruct H as [H|[H _]]; [auto|]. destruct (X (al_original x) (or_introl eq_refl) H).
  - eapply sub_trans; [apply sub_app; [apply sub_app; [eapply fields_grow; [exact F|intros; eapply completed_names; eauto|exact F4]|apply sub_refl]|apply sub_refl]|].
    apply sub_perm. rewrite <- !app_assoc. apply Permutation_app_head. rewrite Permutation_app_comm. rewrite <- !app_assoc. auto.
Qed.
End Expand.
