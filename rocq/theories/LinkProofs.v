(** Proofs about base type and attribute group resolution. *)
From Coq Require Import Arith NArith ZArith Bool Ascii String List Lia.
From Verif Require Import Str StrFacts SpecLex SpecNames Xml Names NamesProofs Entity Parser ParserFacts SpecSchema ParserProofs Link SpecLink.
Import ListNotations.
Local Open Scope string_scope.
Local Open Scope list_scope.
Arguments lit : simpl never.

(** ** Traversals *)
Lemma rtraverse_ok {A B} (f : A -> res B) l r : rtraverse f l = Ok r <-> Forall2 (fun x y => f x = Ok y) l r.
Proof.
  revert r. induction l as [|x l IH]; intros r; cbn.
  - split; [intros [= <-]; constructor|inversion 1; auto].
  - split.
    + intros H. apply bind_ok in H as (y & Hy & H). apply bind_ok in H as (r0 & Hr & [= <-]). constructor; [auto|]. apply IH. auto.
    + inversion 1; subst. rewrite H2. cbn. apply IH in H4. rewrite H4. auto.
Qed.
Lemma rtraverse_panic {A B} (f : A -> res B) l : (forall x, In x l -> f x <> Err) ->
  (rtraverse f l = Panic <-> exists x, In x l /\ f x = Panic) /\ rtraverse f l <> Err.
Proof.
  induction l as [|x l IH]; intros E; cbn.
  - split; [split; [discriminate|intros (x & [] & _)]|discriminate].
  - destruct IH as [IH1 IH2]; [intros; apply E; right; auto|]. destruct (f x) eqn:F; cbn.
    + destruct (rtraverse f l) eqn:R; cbn.
      * split; [|discriminate]. split; [discriminate|]. intros (y & [<-|I] & P); [congruence|].
        enough (Ok a0 = @Panic (list B)) by discriminate. apply IH1. eauto.
      * congruence.
      * split; [|discriminate]. split; auto. intros _. destruct IH1 as [IH1 _]. destruct (IH1 eq_refl) as (y & I & P). eauto.
    + destruct (E x); auto. left. auto.
    + split; [|discriminate]. split; eauto.
Qed.
Lemma rtraverse_ext {A B} (f g : A -> res B) l : (forall x, In x l -> f x = g x) -> rtraverse f l = rtraverse g l.
Proof. induction l as [|x l IH]; intros H; cbn; auto. rewrite H by (left; auto). destruct (g x); cbn; auto. rewrite IH; auto. intros y I. apply H. right. auto. Qed.

Lemma Forall2_len {A B} (P : A -> B -> Prop) l r : Forall2 P l r -> List.length l = List.length r.
Proof. induction 1; cbn; auto. Qed.

(** ** Looking names up *)
Lemma key_of_local q k : local q k <-> key_of q = k.
Proof.
  split.
  - apply last_segment_local.
  - intros <-. destruct (in_dec N.eq_dec 58%N q) as [I|I].
    + assert (X : exists p l, q = p ++ [58%N] ++ l /\ ~ In 58%N l).
      { clear - I. induction q as [|c q IH]; [destruct I|]. destruct (in_dec N.eq_dec 58%N q) as [J|J].
        - destruct (IH J) as (p & l & -> & N). exists (c :: p), l. auto.
        - destruct I as [->|I]; [|contradiction]. exists [], q. auto. }
      destruct X as (p & l & E & N). assert (L : local q l) by (split; eauto). unfold key_of. rewrite (last_segment_local _ _ L). auto.
    + assert (L : local q q) by (split; auto). unfold key_of. rewrite (last_segment_local _ _ L). auto.
Qed.

Lemma types_map_spec l : forall i m k,
  (exists j s, struct_at l j s /\ st_name s = k /\ (forall j' s', struct_at l j' s' -> st_name s' = k -> j' <= j) /\
     assoc k (types_map_from i l m) = Some (i + j)) \/
  ((forall j s, struct_at l j s -> st_name s <> k) /\ assoc k (types_map_from i l m) = assoc k m).
Proof.
  unfold struct_at. induction l as [|e l IH]; intros i m k; cbn [types_map_from].
  - right. split; auto. intros [|j] s; discriminate.
  - destruct (IH (S i) (match e with EStruct s => (st_name s, i) :: m | _ => m end) k) as [(j & s & A & N & L & ->)|(A & ->)].
    + left. exists (S j), s. do 2 (split; [auto|]). split; [|f_equal; lia]. intros [|j'] s' A' N'; [lia|]. cbn in A'. apply le_n_S. eapply L; eauto.
    + destruct e as [s| | | | | |]; try (right; split; [|reflexivity]; intros [|j] s' E; [discriminate|]; cbn in E; eauto).
      cbn [assoc]. destruct (str_eqb_spec k (st_name s)) as [->|N].
      * left. exists 0, s. do 2 (split; [auto|]). split; [|f_equal; lia]. intros [|j'] s' A' N'; [lia|]. destruct (A _ _ A' N').
      * right. split; [|reflexivity]. intros [|j] s' E; [injection E as <-; auto|]. cbn in E. eauto.
Qed.
Lemma lookup_iff l q : 
  (forall j, assoc (key_of q) (types_map l) = Some j <-> refers l q j) /\
  (assoc (key_of q) (types_map l) = None <-> dangling l q).
Proof.
  unfold types_map. destruct (types_map_spec l 0 [] (key_of q)) as [(j & s & A & N & L & ->)|(A & ->)].
  - split.
    + intros j'. cbn. split.
      * intros [= <-]. exists (key_of q), s. split; [apply key_of_local; auto|auto].
      * intros (k & s' & K & A' & N' & L'). apply key_of_local in K. f_equal. subst k. apply Nat.le_antisymm; eauto.
    + split; [discriminate|]. intros D. exfalso. eapply D; eauto. apply key_of_local. auto.
  - split.
    + intros j'. split; [discriminate|]. intros (k & s' & K & A' & N' & L'). apply key_of_local in K. subst. destruct (A _ _ A' N').
    + split; auto. intros _ k j s K A'. apply key_of_local in K. subst. eauto.
Qed.
Lemma refers_unique l q i j : refers l q i -> refers l q j -> i = j.
Proof. intros A B. apply lookup_iff in A. apply lookup_iff in B. congruence. Qed.
Lemma dangling_refers l q j : dangling l q -> refers l q j -> False.
Proof. intros A B. apply lookup_iff in A. apply lookup_iff in B. congruence. Qed.
Lemma refers_or_dangling l q : (exists j, refers l q j) \/ dangling l q.
Proof.
  destruct (assoc (key_of q) (types_map l)) as [j|] eqn:E; [left; exists j; apply lookup_iff; auto|right; apply lookup_iff; auto].
Qed.
Lemma refers_struct l q j : refers l q j -> exists s, struct_at l j s.
Proof. intros (k & s & _ & A & _). eauto. Qed.

(** [l] has structs where [l0] has. *)
Definition shape (l0 l : list entity) : Prop := forall j s, struct_at l0 j s -> exists s', struct_at l j s'.
Lemma get_ok l0 b l q c : shape l0 l ->
  (get_fields (types_map l0) b l q = Ok c <->
   dangling l0 q /\ c = [] \/ exists j s, refers l0 q j /\ b <> Some j /\ struct_at l j s /\ c = st_fields s).
Proof.
  intros Sh. unfold get_fields. destruct (lookup_iff l0 q) as [L1 L2]. destruct (assoc (key_of q) (types_map l0)) as [j|] eqn:E.
  - assert (R : refers l0 q j) by (apply L1; auto). destruct (refers_struct _ _ _ R) as (s0 & A0). destruct (Sh _ _ A0) as (s & A).
    assert (B : match b with Some i => Nat.eqb i j | None => false end = true <-> b = Some j).
    { destruct b as [i|]; [|split; discriminate]. rewrite Nat.eqb_eq. split; [intros ->; auto|intros [= ->]; auto]. }
    destruct (match b with Some i => Nat.eqb i j | None => false end).
    + split; [discriminate|]. intros [[D _]|(j' & s' & R' & N & _)]; [destruct (dangling_refers _ _ _ D R)|].
      rewrite (refers_unique _ _ _ _ R' R) in N. exfalso. apply N, B. auto.
    + unfold struct_at in A. rewrite A. split.
      * intros [= <-]. right. exists j, s. repeat split; auto. intros X. apply B in X. discriminate.
      * intros [[D _]|(j' & s' & R' & N & A' & ->)]; [destruct (dangling_refers _ _ _ D R)|].
        rewrite (refers_unique _ _ _ _ R' R) in A'. unfold struct_at in A'. congruence.
  - assert (D : dangling l0 q) by (apply L2; auto). split; [intros [= <-]; auto|].
    intros [[_ ->]|(j & s & R & _)]; auto. destruct (dangling_refers _ _ _ D R).
Qed.
Lemma get_panic l0 b l q :
  (get_fields (types_map l0) b l q = Panic <-> exists j, refers l0 q j /\ b = Some j) /\
  get_fields (types_map l0) b l q <> Err.
Proof.
  unfold get_fields. destruct (lookup_iff l0 q) as [L1 L2]. destruct (assoc (key_of q) (types_map l0)) as [j|] eqn:E.
  - assert (R : refers l0 q j) by (apply L1; auto).
    assert (B : match b with Some i => Nat.eqb i j | None => false end = true <-> b = Some j).
    { destruct b as [i|]; [|split; discriminate]. rewrite Nat.eqb_eq. split; [intros ->; auto|intros [= ->]; auto]. }
    destruct (match b with Some i => Nat.eqb i j | None => false end).
    + split; [|discriminate]. split; auto. intros _. exists j. split; auto. apply B. auto.
    + split; [|destruct (nth_error l j) as [[]|]; discriminate].
      split; [destruct (nth_error l j) as [[]|]; discriminate|]. intros (j' & R' & ->).
      rewrite (refers_unique _ _ _ _ R' R) in B. destruct B as [_ B]. specialize (B eq_refl). discriminate.
  - split; [|discriminate]. split; [discriminate|]. intros (j & R & _). apply L1 in R. congruence.
Qed.

(** ** Assembling fields *)
Lemma filter_filter {A} (p q : A -> bool) l : filter p (filter q l) = filter (fun x => q x && p x) l.
Proof. induction l as [|x l IH]; cbn; auto. destruct (q x) eqn:Q; cbn; [destruct (p x); rewrite IH; auto|auto]. Qed.
Lemma inherit_ok get own out : inherit get own = Ok out <-> assembled (fun q c => get q = Ok c) own out.
Proof.
  unfold inherit, assembled.
  assert (X : forall cs, (forall b, In b (placeholders own) -> True) -> List.length cs = List.length (placeholders own) ->
    filter (fun f => negb (is_base f)) (own ++ filter (fun f => negb (named_in own f)) (List.concat cs)) =
    proper own ++ not_redeclared own (List.concat cs)).
  { intros cs _ Hl. rewrite filter_app. f_equal. unfold not_redeclared, named_in. destruct (placeholders own) as [|b bs] eqn:P.
    - destruct cs; [reflexivity|discriminate].
    - assert (I : In b own /\ fl_name b = lit "__base__").
      { assert (J : In b (placeholders own)) by (rewrite P; left; auto). apply filter_In in J as [J1 J2]. apply str_eqb_eq in J2. auto. }
      destruct I as [I1 I2]. rewrite filter_filter. apply filter_ext. intros f. unfold is_base. change base_tag with (lit "__base__").
      destruct (str_eqb_spec (fl_name f) (lit "__base__")) as [E|E]; [|apply andb_true_r].
      assert (Y : existsb (fun g => str_eqb (fl_name g) (fl_name f)) own = true).
      { apply existsb_exists. exists b. split; auto. apply str_eqb_eq. congruence. }
      rewrite Y. auto. }
  split.
  - intros H. apply bind_ok in H as (cs & Hc & [= <-]). apply rtraverse_ok in Hc. exists cs. split; [exact Hc|]. apply X; auto.
    symmetry. eapply Forall2_len; eauto.
  - intros (cs & Hc & ->). change (placeholders own) with (filter is_base own) in Hc. assert (Hc' := Hc). apply rtraverse_ok in Hc. rewrite Hc. cbn. f_equal. apply X; auto.
    symmetry. eapply Forall2_len; eauto.
Qed.
Lemma inherit_panic get own : (forall q, get q <> Err) ->
  (inherit get own = Panic <-> exists b, In b own /\ placeholder b /\ get (fl_type b) = Panic) /\ inherit get own <> Err.
Proof.
  intros E. unfold inherit. destruct (rtraverse_panic (fun f => get (fl_type f)) (filter is_base own) (fun x _ => E _)) as [P1 P2].
  destruct (rtraverse _ _) eqn:R; cbn; [|congruence|].
  - split; [|discriminate]. split; [discriminate|]. intros (b & I & Hb & G). enough (Ok a = @Panic (list (list (field entity)))) by discriminate.
    apply P1. exists b. split; auto. apply filter_In. split; auto. apply str_eqb_eq. auto.
  - split; [|discriminate]. split; auto. intros _. destruct P1 as [P1 _]. destruct (P1 eq_refl) as (b & I & G). apply filter_In in I as [I J].
    exists b. repeat split; auto. apply str_eqb_eq. auto.
Qed.

(** ** Nested types *)
Section EI.
Context (P : entity -> Prop)
  (HS : forall s, (forall f e, In f (st_fields s) -> In e (fl_subtypes f) -> P e) -> P (EStruct s))
  (HO : forall e, (forall s, e <> EStruct s) -> P e).
Fixpoint entity_nested_ind (e : entity) : P e.
Proof.
  destruct e as [s| | | | | |]; try (apply HO; intros; discriminate).
  apply HS. destruct s as [nm c fs gs su]. cbn. induction fs as [|f fs IH]; [intros f e []|].
  intros f' e [<-|I]; [|eapply IH; eauto]. destruct f as [n t cm ss so ms]. cbn.
  clear IH. induction ss as [|x ss IH]; [intros []|]. intros [<-|I]; [apply entity_nested_ind|exact (IH I)].
Defined.
End EI.

Lemma extend_nested_struct get s : extend_nested get (EStruct s) =
  bind (rtraverse (extend_field get) (st_fields s)) (fun own =>
    bind (inherit get own) (fun fs => Ok (EStruct (st_set_fields fs s)))).
Proof.
  destruct s as [nm c fs gs su]. cbn [extend_nested st_fields]. f_equal. apply rtraverse_ext. intros [] _. reflexivity.
Qed.
Lemma extend_nested_other get e : (forall s, e <> EStruct s) -> extend_nested get e = Ok e.
Proof. destruct e as [s| | | | | |]; auto. intros H. destruct (H s). auto. Qed.

Lemma Forall2_iff_in {A B} (P Q : A -> B -> Prop) l r : (forall x y, In x l -> (P x y <-> Q x y)) ->
  (Forall2 P l r <-> Forall2 Q l r).
Proof.
  intros H. split; intros F; induction F; constructor; auto; try (apply H; [left; auto|assumption]); apply IHF; intros; apply H; right; auto.
Qed.
Lemma extend_field_ok get (R : entity -> entity -> Prop) f g : (forall e e', In e (fl_subtypes f) -> (extend_nested get e = Ok e' <-> R e e')) ->
  (extend_field get f = Ok g <-> same_field R f g).
Proof.
  intros H. unfold extend_field, same_field. split.
  - intros K. apply bind_ok in K as (ss & Hs & [= <-]). cbn. repeat split; auto. apply rtraverse_ok in Hs. eapply Forall2_iff_in; [|exact Hs].
    intros x y I. symmetry. apply H. auto.
  - intros (E1 & E2 & E3 & E4 & E5 & F). destruct g as [n t c ss so ms]. cbn in *. subst.
    assert (T : rtraverse (extend_nested get) (fl_subtypes f) = Ok ss).
    { apply rtraverse_ok. eapply Forall2_iff_in; [|exact F]. intros x y I. apply H. auto. }
    rewrite T. reflexivity.
Qed.
Lemma extend_nested_ok get e : forall e', extend_nested get e = Ok e' <-> completed (fun q c => get q = Ok c) e e'.
Proof.
  induction e as [s IH|e N] using entity_nested_ind; intros e'.
  - rewrite extend_nested_struct. split.
    + intros H. apply bind_ok in H as (own & Ho & H). apply bind_ok in H as (fs & Hf & [= <-]).
      apply (completed_struct _ s (st_set_fields fs s) own); [repeat split| |apply inherit_ok; exact Hf].
      apply rtraverse_ok in Ho. eapply Forall2_iff_in; [|exact Ho]. intros f g I. symmetry. apply extend_field_ok. intros; eapply IH; eauto.
    + inversion 1 as [s0 t own (E1 & E2 & E3 & E4) F A E E'|e N E E']; subst.
      * apply inherit_ok in A.
        assert (T : rtraverse (extend_field get) (st_fields s) = Ok own).
        { apply rtraverse_ok. eapply Forall2_iff_in; [|exact F]. intros f g I. apply extend_field_ok. intros; eapply IH; eauto. }
        rewrite T. cbn. rewrite A. cbn. destruct s, t. cbn in *. unfold st_set_fields. cbn. subst. reflexivity.
      * destruct (N s). auto.
  - rewrite extend_nested_other by auto. split; [intros [= <-]; constructor 2; auto|].
    inversion 1; subst; auto. destruct (N s). auto.
Qed.

(** Where resolution of a nested type looks names up. *)
Definition asks (P : str -> Prop) (d : strukt entity) : Prop := exists b, In b (st_fields d) /\ placeholder b /\ P (fl_type b).
Lemma extend_nested_panic get e : (forall q, get q <> Err) ->
  (extend_nested get e = Panic <->
   exists s d, e = EStruct s /\ within s d /\ asks (fun q => get q = Panic) d) /\ extend_nested get e <> Err.
Proof.
  intros E. induction e as [s IH|e N] using entity_nested_ind.
  - rewrite extend_nested_struct.
    assert (Q : forall f, In f (st_fields s) -> (extend_field get f = Panic <-> exists d, nested_in f d /\ asks (fun q => get q = Panic) d) /\ extend_field get f <> Err).
    { intros f I. unfold extend_field.
      assert (T : (rtraverse (extend_nested get) (fl_subtypes f) = Panic <-> exists x, In x (fl_subtypes f) /\ extend_nested get x = Panic) /\
                  rtraverse (extend_nested get) (fl_subtypes f) <> Err).
      { apply rtraverse_panic. intros e Ie. apply (IH _ _ I Ie). }
      destruct T as [T1 T2].
      assert (W : (exists x, In x (fl_subtypes f) /\ extend_nested get x = Panic) <-> exists d, nested_in f d /\ asks (fun q => get q = Panic) d).
      { split.
        - intros (x & Ix & Px). apply (IH _ _ I Ix) in Px as (s' & d & -> & [->|(g & Ig & Ng)] & A).
          + exists s'. split; auto. constructor. auto.
          + exists d. split; auto. econstructor 2; eauto.
        - intros (d & Nd & A). inversion Nd; subst.
          + exists (EStruct d). split; auto. apply (IH _ _ I H). exists d, d. repeat split; auto. left. auto.
          + exists (EStruct d0). split; auto. apply (IH _ _ I H). exists d0, d. repeat split; auto. right. eauto. }
      destruct (rtraverse (extend_nested get) (fl_subtypes f)); cbn; [|congruence|].
      - split; [|discriminate]. split; [discriminate|]. intros X. apply W in X. apply T1 in X. discriminate.
      - split; [|discriminate]. split; auto. intros _. apply W, T1. auto. }
    assert (T : (rtraverse (extend_field get) (st_fields s) = Panic <-> exists f, In f (st_fields s) /\ extend_field get f = Panic) /\
                rtraverse (extend_field get) (st_fields s) <> Err).
    { apply rtraverse_panic. intros f I. apply (Q f I). }
    destruct T as [T1 T2]. destruct (rtraverse (extend_field get) (st_fields s)) as [own| |] eqn:R; cbn; [|congruence|].
    + apply rtraverse_ok in R. destruct (inherit_panic get own E) as [P1 P2].
      assert (SN : forall P, asks P s <-> exists b, In b own /\ placeholder b /\ P (fl_type b)).
      { intros P. unfold asks. clear - R. induction R as [|f g l r H R IH]; [tauto|].
        assert (X : fl_name g = fl_name f /\ fl_type g = fl_type f).
        { unfold extend_field in H. apply bind_ok in H as (ss & _ & [= <-]). auto. }
        destruct X as [X1 X2]. unfold placeholder in *. split.
        - intros (b & [<-|I] & B & C); [exists g; rewrite X1, X2; repeat split; auto; left; auto|].
          destruct IH as [IH _]. destruct IH as (b' & I' & B' & C'); eauto. exists b'. repeat split; auto. right. auto.
        - intros (b & [<-|I] & B & C); [exists f; rewrite <- X1, <- X2; repeat split; auto; left; auto|].
          destruct IH as [_ IH]. destruct IH as (b' & I' & B' & C'); eauto. exists b'. repeat split; auto. right. auto. }
      assert (NP : forall f d, In f (st_fields s) -> nested_in f d -> ~ asks (fun q => get q = Panic) d).
      { intros f d I Nd A. enough (Ok own = @Panic (list (field entity))) by discriminate. apply T1. exists f. split; auto. apply Q; eauto. }
      destruct (inherit get own) eqn:Hi; cbn; [|congruence|].
      * split; [|discriminate]. split; [discriminate|]. intros (s' & d & [= <-] & [->|(f & I & Nd)] & A); [|destruct (NP _ _ I Nd A)].
        apply SN in A. apply P1 in A. discriminate.
      * split; [|discriminate]. split; auto. intros _. exists s, s. repeat split; auto; [left; auto|]. apply SN, P1. auto.
    + split; [|discriminate]. split; auto. intros _. destruct T1 as [T1 _]. destruct (T1 eq_refl) as (f & I & Pf). apply Q in Pf as (d & Nd & A); auto.
      exists s, d. repeat split; auto. right. eauto.
  - rewrite extend_nested_other by auto. split; [|discriminate]. split; [discriminate|]. intros (s & d & -> & _). destruct (N s). auto.
Qed.

Lemma extend_field_panic get f : (forall q, get q <> Err) ->
  (extend_field get f = Panic <-> exists d, nested_in f d /\ asks (fun q => get q = Panic) d) /\ extend_field get f <> Err.
Proof.
  intros E. unfold extend_field.
  destruct (rtraverse_panic (extend_nested get) (fl_subtypes f) (fun e _ => proj2 (extend_nested_panic get e E))) as [T1 T2].
  assert (W : (exists x, In x (fl_subtypes f) /\ extend_nested get x = Panic) <-> exists d, nested_in f d /\ asks (fun q => get q = Panic) d).
  { split.
    - intros (x & Ix & Px). apply extend_nested_panic in Px as (s' & d & -> & [->|(g & Ig & Ng)] & A); auto.
      + exists s'. split; auto. constructor. auto.
      + exists d. split; auto. econstructor 2; eauto.
    - intros (d & Nd & A). inversion Nd; subst.
      + exists (EStruct d). split; auto. apply extend_nested_panic; auto. exists d, d. repeat split; auto. left. auto.
      + exists (EStruct d0). split; auto. apply extend_nested_panic; auto. exists d0, d. repeat split; auto. right. eauto. }
  destruct (rtraverse (extend_nested get) (fl_subtypes f)); cbn; [|congruence|].
  - split; [|discriminate]. split; [discriminate|]. intros X. apply W in X. apply T1 in X. discriminate.
  - split; [|discriminate]. split; auto. intros _. apply W, T1. auto.
Qed.

(** ** The loop *)
Lemma update_length {A} i (x : A) l : List.length (update i x l) = List.length l.
Proof. revert i. induction l as [|y l IH]; intros [|i]; cbn; auto. Qed.
Lemma update_same {A} i (x : A) l : i < List.length l -> nth_error (update i x l) i = Some x.
Proof. revert i. induction l as [|y l IH]; intros [|i] H; cbn in *; try lia; auto. apply IH. lia. Qed.
Lemma update_other {A} i j (x : A) l : i <> j -> nth_error (update i x l) j = nth_error l j.
Proof. revert i j. induction l as [|y l IH]; intros [|i] [|j] H; cbn in *; try congruence; auto. Qed.

Lemma assembled_mono (P Q : str -> list (field entity) -> Prop) own out : (forall q c, P q c -> Q q c) ->
  assembled P own out -> assembled Q own out.
Proof. intros H (cs & F & E). exists cs. split; auto. eapply Forall2_imp; [|exact F]. intros; apply H; auto. Qed.
Lemma completed_mono (P Q : str -> list (field entity) -> Prop) e : (forall q c, P q c -> Q q c) ->
  forall e', completed P e e' -> completed Q e e'.
Proof.
  intros H. induction e as [s IH|e N] using entity_nested_ind; intros e' C.
  - inversion C as [s0 t own S F A E E'|e N E E']; subst.
    + econstructor; [exact S| |eapply assembled_mono; eauto].
      eapply Forall2_imp; [|exact F]. intros f g I (E1 & E2 & E3 & E4 & E5 & G). repeat split; auto.
      eapply Forall2_imp; [|exact G]. intros e e' Ie. eapply IH; eauto.
    + constructor 2. auto.
  - inversion C; subst; [destruct (N s); auto|constructor 2; auto].
Qed.
Lemma same_field_mono (P Q : str -> list (field entity) -> Prop) f g : (forall q c, P q c -> Q q c) ->
  same_field (completed P) f g -> same_field (completed Q) f g.
Proof.
  intros H (E1 & E2 & E3 & E4 & E5 & G). repeat split; auto. eapply Forall2_imp; [|exact G]. intros e e' Ie. apply completed_mono. auto.
Qed.

Lemma not_redeclared_app own a b : not_redeclared own (a ++ b) = not_redeclared own a ++ not_redeclared own b.
Proof. apply filter_app. Qed.
Lemma not_redeclared_self own : not_redeclared own own = [].
Proof.
  unfold not_redeclared. assert (X : forall l, (forall f, In f l -> In f own) -> filter (fun g => negb (existsb (fun f => str_eqb (fl_name f) (fl_name g)) own)) l = []).
  { induction l as [|x l IH]; intros H; cbn; auto.
    assert (Y : existsb (fun f => str_eqb (fl_name f) (fl_name x)) own = true).
    { apply existsb_exists. exists x. split; [apply H; left; auto|apply str_eqb_refl]. }
    rewrite Y. cbn. apply IH. intros; apply H; right; auto. }
  apply X. auto.
Qed.
Lemma assembled_self l0 l1 i own out : assembled (snapshot_or_self l0 l1 i own) own out ->
  assembled (snapshot_or_self l0 l1 i []) own out.
Proof.
  intros (cs & F & ->). assert (X : exists cs', Forall2 (fun b c => snapshot_or_self l0 l1 i [] (fl_type b) c) (placeholders own) cs' /\
    not_redeclared own (List.concat cs) = not_redeclared own (List.concat cs')).
  { induction F as [|b c bs cs H F (cs' & F' & E)]; [exists []; split; [constructor|auto]|].
    destruct H as [S|[R ->]].
    - exists (c :: cs'). split; [constructor; [left; exact S|exact F']|]. rewrite !concat_cons, !not_redeclared_app, E. auto.
    - exists ([] :: cs'). split; [constructor; [right; auto|exact F']|]. rewrite !concat_cons, !not_redeclared_app, not_redeclared_self, E. auto. }
  destruct X as (cs' & F' & E). exists cs'. split; [exact F'|]. rewrite E. auto.
Qed.

Definition agree_below (k : nat) (l l' : list entity) : Prop := forall j, j < k -> nth_error l j = nth_error l' j.
Lemma snapshot_agree l0 l l' i q c : agree_below i l l' -> snapshot l0 l i q c -> snapshot l0 l' i q c.
Proof.
  intros A [D|(j & R & [(L & s & S & E)|G])]; [left; auto| |]; right; exists j; split; auto.
  left. split; auto. exists s. split; auto. unfold struct_at. rewrite <- A; auto.
Qed.
Lemma snapshot_self_agree l0 l l' i o q c : agree_below i l l' -> snapshot_or_self l0 l i o q c -> snapshot_or_self l0 l' i o q c.
Proof. intros A [S|S]; [left; eapply snapshot_agree; eauto|right; auto]. Qed.
Lemma resolved_agree l0 l l' i s t : agree_below i l l' -> resolved l0 l i s t -> resolved l0 l' i s t.
Proof.
  intros A (own & out & gs & S & F & As & G & E). exists own, out, gs. repeat split; try apply S; auto.
  - eapply Forall2_imp; [|exact F]. intros f g _. apply same_field_mono. intros; eapply snapshot_agree; eauto.
  - eapply assembled_mono; [|exact As]. intros; eapply snapshot_self_agree; eauto.
  - eapply Forall2_imp; [|exact G]. intros a g _ H. eapply snapshot_self_agree; eauto.
Qed.

Record inv (l0 : list entity) (k : nat) (l : list entity) : Prop := {
  inv_length : List.length l = List.length l0;
  inv_later : forall j, k <= j -> nth_error l j = nth_error l0 j;
  inv_other : forall j e, nth_error l0 j = Some e -> (forall s, e <> EStruct s) -> nth_error l j = Some e;
  inv_done : forall j s, j < k -> struct_at l0 j s -> exists t, struct_at l j t /\ resolved l0 l j s t }.
Lemma inv_shape l0 k l : inv l0 k l -> shape l0 l.
Proof.
  intros I j s A. destruct (le_lt_dec k j) as [L|L]; [|destruct (inv_done _ _ _ I j s L A) as (t & T & _); eauto].
  exists s. unfold struct_at. rewrite (inv_later _ _ _ I j L). auto.
Qed.
Lemma inv_start l0 : inv l0 0 l0.
Proof. constructor; auto. intros. lia. Qed.

Lemma shape_update l0 l i s s' : shape l0 l -> struct_at l i s -> shape l0 (update i (EStruct s') l).
Proof.
  intros Sh A j t T. destruct (Nat.eq_dec i j) as [->|N].
  - exists s'. apply update_same. apply nth_error_Some. unfold struct_at in A. congruence.
  - destruct (Sh _ _ T) as (t' & T'). exists t'. unfold struct_at. rewrite update_other; auto.
Qed.

Lemma extend_step l0 k l l1 l2 : inv l0 k l ->
  extend_base (types_map l0) k l = Ok l1 -> extend_attribute_group (types_map l0) k l1 = Ok l2 -> inv l0 (S k) l2.
Proof.
  intros I H1 H2. unfold extend_base in H1.
  assert (Sk : forall j, (k <= j) -> nth_error l j = nth_error l0 j) by apply I.
  destruct (nth_error l k) as [e|] eqn:Ek.
  2:{ injection H1 as <-. unfold extend_attribute_group in H2. rewrite Ek in H2. injection H2 as <-. constructor; try apply I.
      - intros j L. apply I. lia.
      - intros j s L A. destruct (Nat.eq_dec j k) as [->|N]; [|apply I; auto; lia]. unfold struct_at in A. rewrite <- Sk, Ek in A by lia. discriminate. }
  assert (E0 : nth_error l0 k = Some e) by (rewrite <- Sk; auto).
  destruct e as [s| | | | | |];
    try (injection H1 as <-; unfold extend_attribute_group in H2; rewrite Ek in H2; injection H2 as <-; constructor; try apply I;
         [intros j L; apply I; lia|intros j s' L A; destruct (Nat.eq_dec j k) as [->|N]; [unfold struct_at in A; congruence|apply I; auto; lia]]).
  assert (Lk : k < List.length l) by (apply nth_error_Some; congruence).
  assert (Shp := inv_shape _ _ _ I).
  apply bind_ok in H1 as (own & Ho & H1). cbv zeta in H1.
  set (la := update k (EStruct (st_set_fields own s)) l) in *.
  apply bind_ok in H1 as (out & Hi & [= <-]).
  set (lb := update k (EStruct (st_set_fields out s)) la) in *.
  assert (Lka : k < List.length la) by (unfold la; rewrite update_length; auto).
  assert (Lkb : k < List.length lb) by (unfold lb; rewrite update_length; auto).
  assert (Eb : nth_error lb k = Some (EStruct (st_set_fields out s))) by (apply update_same; auto).
  unfold extend_attribute_group in H2. rewrite Eb in H2. cbn [st_groups st_fields st_set_fields] in H2.
  apply bind_ok in H2 as (gs & Hg & [= <-]).
  assert (Sha : shape l0 la) by (eapply shape_update; eauto; exact Ek).
  assert (Ea : struct_at la k (st_set_fields own s)) by (apply update_same; auto).
  assert (Shb : shape l0 lb) by (eapply shape_update; eauto).
  assert (SN : forall b lx o, (lx = l /\ b = Some k \/ (lx = la \/ lx = lb) /\ struct_at lx k o) -> forall q c,
     shape l0 lx -> get_fields (types_map l0) b lx q = Ok c -> snapshot l0 l k q c \/ (refers l0 q k /\ c = st_fields o /\ b <> Some k)).
  { intros b lx o Hl q c Shx G. apply get_ok in G; auto. destruct G as [[D ->]|(j & t & R & Nb & T & ->)]; [left; left; auto|].
    destruct (Nat.eq_dec j k) as [->|N].
    - right. destruct Hl as [[_ ->]|[_ O]]; [congruence|]. unfold struct_at in *. repeat split; auto. congruence.
    - left. right. exists j. split; auto.
      assert (T' : struct_at l j t).
      { destruct Hl as [[-> _]|[[->| ->] _]]; auto; unfold struct_at in *; unfold lb, la in T; rewrite ?update_other in T; auto. }
      destruct (le_lt_dec j k) as [L|L]; [left; split; [lia|eauto]|right; split; auto]. exists t. split; auto. unfold struct_at. rewrite <- Sk by lia. auto. }
  set (l2 := update k _ lb).
  assert (Ag : agree_below k l l2).
  { intros j L. unfold l2, lb, la. rewrite !update_other; auto; lia. }
  constructor.
  - unfold l2, lb, la. rewrite !update_length. apply I.
  - intros j L. unfold l2, lb, la. rewrite !update_other by lia. apply Sk. lia.
  - intros j e A N. unfold l2, lb, la. rewrite !update_other by (intros ->; rewrite E0 in A; injection A as <-; eapply N; eauto). apply I; auto.
  - intros j s' L A. destruct (Nat.eq_dec j k) as [->|N].
    + unfold struct_at in A. assert (s' = s) as -> by congruence. exists (st_set_fields (out ++ List.concat gs) s).
      split; [unfold l2; apply update_same; auto|]. exists own, out, gs. split; [repeat split|].
      split.
      { apply rtraverse_ok in Ho. eapply Forall2_imp; [|exact Ho]. intros f g _ H. apply (extend_field_ok _ (completed (fun q c => get_fields (types_map l0) (Some k) l q = Ok c))) in H;
          [|intros; apply extend_nested_ok]. eapply same_field_mono; [|exact H]. intros q c G. apply (SN _ _ s) in G; auto. destruct G as [G|(_ & _ & G)]; [|congruence].
        eapply snapshot_agree; eauto. }
      split.
      { apply inherit_ok in Hi. apply assembled_self. eapply assembled_mono; [|exact Hi]. cbn. intros q c G.
        apply (SN _ _ (st_set_fields own s)) in G; auto. destruct G as [G|(R & -> & _)]; [left; eapply snapshot_agree; eauto|right; auto]. }
      split; [|reflexivity]. apply rtraverse_ok in Hg. eapply Forall2_imp; [|exact Hg]. cbn. intros a g _ G.
      apply (SN _ _ (st_set_fields out s)) in G; auto. destruct G as [G|(R & -> & _)]; [left; eapply snapshot_agree; eauto|right; auto].
    + destruct (inv_done _ _ _ I j s') as (t & T & R); auto; [lia|]. exists t. split.
      * unfold struct_at, l2, lb, la. rewrite !update_other by auto. exact T.
      * eapply resolved_agree; [|exact R]. intros x Lx. apply Ag. lia.
Qed.

Lemma loop_ok l0 n : forall k l l', inv l0 k l -> link_loop (types_map l0) k n l = Ok l' -> inv l0 (k + n) l'.
Proof.
  induction n as [|n IH]; intros k l l' I H; cbn in H.
  - injection H as <-. rewrite Nat.add_0_r. auto.
  - apply bind_ok in H as (l1 & H1 & H). apply bind_ok in H as (l2 & H2 & H). rewrite Nat.add_succ_r. apply (IH (S k) l2); auto. eapply extend_step; eauto.
Qed.

(** A nested type of the type at position [i] extends that type. *)
Definition self_nested (l0 : list entity) (i : nat) : Prop :=
  exists s f d b, struct_at l0 i s /\ In f (st_fields s) /\ nested_in f d /\ In b (st_fields d) /\ placeholder b /\
    refers l0 (fl_type b) i.
Lemma extend_base_panic l0 k l : nth_error l k = nth_error l0 k ->
  (extend_base (types_map l0) k l = Panic <-> self_nested l0 k) /\ extend_base (types_map l0) k l <> Err.
Proof.
  intros E0. unfold extend_base, self_nested, struct_at. rewrite E0. destruct (nth_error l0 k) as [[s| | | | | |]|];
    try (split; [split; [discriminate|intros (s' & _ & _ & _ & A & _); discriminate]|discriminate]).
  assert (NE : forall b l q, get_fields (types_map l0) b l q <> Err) by (intros; apply get_panic).
  destruct (rtraverse_panic (extend_field (get_fields (types_map l0) (Some k) l)) (st_fields s) (fun f _ => proj2 (extend_field_panic _ f (NE _ _)))) as [T1 T2].
  destruct (rtraverse _ _) as [own| |]; cbn [bind]; [|congruence|].
  - cbv zeta. set (la := update k _ l). destruct (inherit_panic (get_fields (types_map l0) None la) own (NE _ _)) as [P1 P2].
    assert (NP : inherit (get_fields (types_map l0) None la) own <> Panic).
    { intros H. apply P1 in H as (b & _ & _ & G). apply get_panic in G as (j & _ & G). discriminate. }
    destruct (inherit _ own); cbn; [|congruence|congruence]. split; [|discriminate]. split; [discriminate|].
    intros (s' & f & d & b & [= <-] & If & Nd & Ib & Pb & R). enough (Ok own = @Panic (list (field entity))) by discriminate.
    apply T1. exists f. split; auto. apply extend_field_panic; [apply NE|]. exists d. split; auto. exists b. repeat split; auto.
    apply get_panic. eauto.
  - split; [|discriminate]. split; auto. intros _. destruct T1 as [T1 _]. destruct (T1 eq_refl) as (f & If & Pf).
    apply extend_field_panic in Pf as (d & Nd & b & Ib & Pb & G); [|apply NE]. apply get_panic in G as (j & R & [= <-]).
    exists s, f, d, b. repeat split; auto.
Qed.
Lemma extend_group_ok l0 k l : exists l', extend_attribute_group (types_map l0) k l = Ok l'.
Proof.
  unfold extend_attribute_group. destruct (nth_error l k) as [[s| | | | | |]|]; eauto.
  destruct (rtraverse_panic (fun a : alias entity => get_fields (types_map l0) None l (al_original a)) (st_groups s)) as [T1 T2]; [intros; apply get_panic|].
  destruct (rtraverse _ _); cbn; eauto; [congruence|]. destruct T1 as [T1 _]. destruct (T1 eq_refl) as (a & _ & G).
  apply get_panic in G as (j & _ & G). discriminate.
Qed.
Lemma loop_panic l0 n : forall k l, inv l0 k l ->
  (link_loop (types_map l0) k n l = Panic <-> exists i, k <= i < k + n /\ self_nested l0 i) /\ link_loop (types_map l0) k n l <> Err.
Proof.
  induction n as [|n IH]; intros k l I; cbn.
  - split; [split; [discriminate|intros (i & L & _); lia]|discriminate].
  - destruct (extend_base_panic l0 k l) as [P1 P2]; [apply I; auto|].
    destruct (extend_base (types_map l0) k l) as [l1| |] eqn:E1; cbn; [|congruence|].
    + destruct (extend_group_ok l0 k l1) as (l2 & E2). rewrite E2. cbn. destruct (IH (S k) l2) as [A B]; [eapply extend_step; eauto|].
      split; auto. rewrite A. split; intros (i & L & S); [exists i; split; [lia|auto]|].
      destruct (Nat.eq_dec i k) as [->|N]; [apply P1 in S; discriminate|]. exists i. split; [lia|auto].
    + split; [|discriminate]. split; auto. intros _. exists k. split; [lia|]. apply P1. auto.
Qed.

(** ** Whole files *)
Lemma struct_at_app_l l r i s : struct_at l i s -> struct_at (l ++ r) i s.
Proof. unfold struct_at. intros H. rewrite nth_error_app1; auto. apply nth_error_Some. congruence. Qed.
Lemma struct_at_bound l i s : struct_at l i s -> i < List.length l.
Proof. unfold struct_at. intros H. apply nth_error_Some. congruence. Qed.
Lemma struct_at_types f i s : i < List.length (rf_types f) -> struct_at (top_level f) i s -> struct_at (rf_types f) i s.
Proof. unfold struct_at, top_level. intros L H. rewrite nth_error_app1 in H; auto. Qed.
Lemma nth_error_ext {A} (l r : list A) : (forall i, nth_error l i = nth_error r i) -> l = r.
Proof.
  revert r. induction l as [|x l IH]; intros [|y r] H; auto.
  - specialize (H 0). discriminate.
  - specialize (H 0). discriminate.
  - pose proof (H 0) as H0. injection H0 as ->. f_equal. apply IH. intros i. apply (H (S i)).
Qed.
Lemma link_ok f f' : link f = Ok f' ->
  rf_groups f' = rf_groups f /\ rf_target_ns f' = rf_target_ns f /\ rf_xsd_ns f' = rf_xsd_ns f /\
  List.length (rf_types f') = List.length (rf_types f) /\
  (forall i e, nth_error (rf_types f) i = Some e -> (forall s, e <> EStruct s) -> nth_error (rf_types f') i = Some e) /\
  (forall i s, struct_at (rf_types f) i s ->
     exists t, struct_at (rf_types f') i t /\ resolved (top_level f) (top_level f') i s t).
Proof.
  unfold link. cbv zeta. set (l0 := rf_types f ++ rf_groups f). set (n := List.length (rf_types f)). intros H.
  apply bind_ok in H as (l' & Hl & [= <-]). apply loop_ok in Hl; [|apply inv_start]. cbn in Hl.
  unfold top_level. cbn [rf_types rf_groups rf_target_ns rf_xsd_ns]. fold l0. rewrite firstn_skipn.
  assert (Ln : n <= List.length l') by (rewrite (inv_length _ _ _ Hl); unfold l0; rewrite app_length; fold n; lia).
  assert (Fn : forall i, i < n -> nth_error (firstn n l') i = nth_error l' i).
  { intros i L. rewrite <- (firstn_skipn n l') at 2. rewrite nth_error_app1; auto. rewrite firstn_length. lia. }
  split.
  { apply nth_error_ext. intros i.
    assert (X : nth_error (skipn n l') i = nth_error l' (n + i)).
    { rewrite <- (firstn_skipn n l') at 2. rewrite nth_error_app2; rewrite firstn_length, Nat.min_l by auto; [f_equal; lia|lia]. }
    rewrite X, (inv_later _ _ _ Hl) by lia. unfold l0. rewrite nth_error_app2 by (fold n; lia). f_equal. fold n. lia. }
  split; [auto|]. split; [auto|]. split; [rewrite firstn_length; lia|]. split.
  - intros i e E N. assert (L : i < n) by (unfold n; apply nth_error_Some; congruence). rewrite Fn by auto.
    apply (inv_other _ _ _ Hl); auto. unfold l0. rewrite nth_error_app1; auto.
  - intros i s A. assert (L : i < n) by (eapply struct_at_bound; eauto).
    destruct (inv_done _ _ _ Hl i s) as (t & T & R); auto; [apply struct_at_app_l; auto|].
    exists t. split; auto. unfold struct_at. rewrite Fn; auto.
Qed.
Lemma link_panic f : (link f = Panic <-> exists i, i < List.length (rf_types f) /\ self_nested (top_level f) i) /\ link f <> Err.
Proof.
  unfold link. cbv zeta. destruct (loop_panic (top_level f) (List.length (rf_types f)) 0 (top_level f) (inv_start _)) as [A B].
  fold (top_level f). destruct (link_loop _ _ _ _); cbn; [|congruence|].
  - split; [|discriminate]. split; [discriminate|]. intros (i & L & S). enough (Ok a = @Panic (list entity)) by discriminate. apply A. exists i. split; [lia|auto].
  - split; [|discriminate]. split; auto. intros _. destruct A as [A _]. destruct (A eq_refl) as (i & L & S). exists i. split; [lia|auto].
Qed.

(** ** Bases declared first *)
Lemma nested_trans f d g d' : nested_in f d -> In g (st_fields d) -> nested_in g d' -> nested_in f d'.
Proof.
  intros N I N'. induction N as [f d H|f d g0 d0 H I0 N IH]; [econstructor 2; eauto|econstructor 2; eauto].
Qed.
Lemma completed_mono_in (P Q : str -> list (field entity) -> Prop) e :
  (forall s d b c, e = EStruct s -> within s d -> In b (st_fields d) -> placeholder b -> P (fl_type b) c -> Q (fl_type b) c) ->
  forall e', completed P e e' -> completed Q e e'.
Proof.
  induction e as [s IH|e N] using entity_nested_ind; intros H e' C.
  - inversion C as [s0 t own S F A E E'|e N E E']; subst.
    + econstructor; [exact S| |].
      * eapply Forall2_imp; [|exact F]. intros f g I (E1 & E2 & E3 & E4 & E5 & G). repeat split; auto.
        eapply Forall2_imp; [|exact G]. intros e e' Ie. eapply IH; eauto. intros s' d b c -> W. apply (H s d b c); auto.
        right. exists f. split; auto. destruct W as [->|(g' & Ig & Ng)]; [constructor; auto|econstructor 2; eauto].
      * destruct A as (cs & Fc & E). exists cs. split; auto. clear E. unfold placeholders in *.
        assert (X : forall b, In b own -> exists b0, In b0 (st_fields s) /\ fl_name b = fl_name b0 /\ fl_type b = fl_type b0).
        { intros b Ib. destruct (Forall2_in_r _ _ _ _ F Ib) as (b0 & I0 & E1 & E2 & _). eauto. }
        eapply Forall2_imp; [|exact Fc]. intros b c Ib Pc. apply filter_In in Ib as [Ib Hb]. apply str_eqb_eq in Hb.
        destruct (X b Ib) as (b0 & I0 & N0 & T0). cbn beta in *. rewrite T0 in *. apply (H s s b0 c); auto; [left; auto|]. unfold placeholder. congruence.
    + constructor 2. auto.
  - inversion C; subst; [destruct (N s); auto|constructor 2; auto].
Qed.
Lemma same_field_mono_in (P Q : str -> list (field entity) -> Prop) f g :
  (forall d b c, nested_in f d -> In b (st_fields d) -> placeholder b -> P (fl_type b) c -> Q (fl_type b) c) ->
  same_field (completed P) f g -> same_field (completed Q) f g.
Proof.
  intros H (E1 & E2 & E3 & E4 & E5 & G). repeat split; auto. eapply Forall2_imp; [|exact G]. intros e e' Ie. apply completed_mono_in.
  intros s d b c -> W. apply H. destruct W as [->|(g' & Ig & Ng)]; [constructor; auto|econstructor 2; eauto].
Qed.

Lemma placeholders_own (R : entity -> entity -> Prop) fs own b : Forall2 (same_field R) fs own -> In b (placeholders own) ->
  exists b0, In b0 fs /\ placeholder b0 /\ fl_type b = fl_type b0.
Proof.
  intros F I. apply filter_In in I as [I Hb]. apply str_eqb_eq in Hb. destruct (Forall2_in_r _ _ _ _ F I) as (b0 & I0 & E1 & E2 & _).
  exists b0. repeat split; auto. unfold placeholder. congruence.
Qed.
Lemma group_same f f' j s : link f = Ok f' -> List.length (rf_types f) <= j -> (struct_at (top_level f) j s <-> struct_at (top_level f') j s).
Proof.
  intros H L. apply link_ok in H as (Hg & _ & _ & Hl & _). unfold struct_at, top_level. rewrite !nth_error_app2 by lia. rewrite Hg, Hl. tauto.
Qed.
Lemma link_finished f f' i s : link f = Ok f' -> bases_first f -> groups_found f -> struct_at (rf_types f) i s ->
  exists t own cs gs, struct_at (rf_types f') i t /\ same_struct s t /\
    Forall2 (same_field (completed (finished (top_level f) (top_level f')))) (st_fields s) own /\
    Forall2 (fun b c => finished (top_level f) (top_level f') (fl_type b) c) (placeholders own) cs /\
    Forall2 (fun a g => finished (top_level f) (top_level f) (al_original a) g) (st_groups s) gs /\
    st_fields t = proper own ++ not_redeclared own (List.concat cs) ++ List.concat gs.
Proof.
  intros H B G A. assert (H' := H). apply link_ok in H as (_ & _ & _ & _ & _ & H). destruct (H i s A) as (t & T & own & out & gs & S & F & As & Gs & E).
  destruct As as (cs & Fc & Eo). exists t, own, cs, gs. split; [auto|]. split; [auto|].
  assert (Bi := struct_at_bound _ _ _ A).
  split; [|split; [|split]].
  - eapply Forall2_imp; [|exact F]. intros f0 g0 I. apply same_field_mono_in. intros d b c N Ib Pb [D|(j & R & [(L & t' & T' & E')|(L & _)])]; [left; auto| |].
    + right. eauto.
    + exfalso. enough (j < i) by lia. eapply B; eauto. right. eauto.
  - eapply Forall2_imp; [|exact Fc]. cbn beta. intros b c Ib.
    destruct (placeholders_own _ _ _ _ F Ib) as (b0 & I0 & P0 & ->). intros [[D|(j & R & [(L & t' & T' & E')|(L & _)])]|(R & _)]; [left; auto| | |].
    + right. eauto.
    + exfalso. enough (j < i) by lia. eapply B; eauto. left. auto.
    + exfalso. enough (i < i) by lia. eapply B; eauto. left. auto.
  - eapply Forall2_imp; [|exact Gs]. cbn beta. intros a g Ia. intros [[D|(j & R & [(L & t' & T' & E')|(L & t' & T' & E')])]|(R & _)]; [left; auto| | |].
    + specialize (G _ _ _ _ A Ia R). lia.
    + right. exists j, t'. repeat split; auto.
    + specialize (G _ _ _ _ A Ia R). lia.
  - rewrite E, Eo, app_assoc. auto.
Qed.

Lemma in_proper fs g : In g (proper fs) <-> In g fs /\ ~ placeholder g.
Proof.
  unfold proper. rewrite filter_In. unfold placeholder. destruct (str_eqb_spec (fl_name g) (lit "__base__")); cbn; intuition congruence.
Qed.
Lemma in_not_redeclared fs gs g : In g (not_redeclared fs gs) <-> In g gs /\ forall f : field entity, In f fs -> fl_name f <> fl_name g.
Proof.
  unfold not_redeclared. rewrite filter_In. split; intros [I H]; split; auto.
  - intros f If E. apply negb_true_iff in H. assert (X : existsb (fun f0 => str_eqb (fl_name f0) (fl_name g)) fs = true); [|congruence].
    apply existsb_exists. exists f. split; auto. apply str_eqb_eq. auto.
  - apply negb_true_iff. destruct (existsb _ fs) eqn:X; auto. apply existsb_exists in X as (f & If & E). apply str_eqb_eq in E. destruct (H f If E).
Qed.
Lemma in_concat_2 {A B} (P : A -> list B -> Prop) l cs x : Forall2 P l cs -> In x (List.concat cs) -> exists a c, In a l /\ P a c /\ In x c.
Proof.
  intros F I. apply in_concat in I as (c & Ic & Ix). destruct (Forall2_in_r _ _ _ _ F Ic) as (a & Ia & Pa). eauto.
Qed.
Lemma finished_refers l0 l1 q c j t : finished l0 l1 q c -> refers l0 q j -> struct_at l1 j t -> c = st_fields t.
Proof.
  intros [[D _]|(j' & t' & R' & T' & ->)] R T; [destruct (dangling_refers _ _ _ D R)|]. rewrite (refers_unique _ _ _ _ R' R) in T'.
  unfold struct_at in *. congruence.
Qed.
Lemma concat_in {A} (cs : list (list A)) c x : In c cs -> In x c -> In x (List.concat cs).
Proof. intros. apply in_concat. eauto. Qed.

Lemma name_dec (fs : list (field entity)) (g : field entity) : (exists f, In f fs /\ fl_name f = fl_name g) \/ (forall f : field entity, In f fs -> fl_name f <> fl_name g).
Proof.
  destruct (existsb (fun f => str_eqb (fl_name f) (fl_name g)) fs) eqn:X.
  - left. apply existsb_exists in X as (f & If & E). apply str_eqb_eq in E. eauto.
  - right. intros f If E. assert (Y : existsb (fun f => str_eqb (fl_name f) (fl_name g)) fs = true); [|congruence].
    apply existsb_exists. exists f. split; auto. apply str_eqb_eq. auto.
Qed.
Lemma inherited_own f f' i g : link f = Ok f' -> bases_first f -> groups_found f -> writes f i g ->
  exists t g', struct_at (rf_types f') i t /\ In g' (st_fields t) /\ copy g g'.
Proof.
  intros H B G (NP & s & A & W). destruct (link_finished _ _ _ _ H B G A) as (t & own & cs & gs & T & S & F & Fc & Gs & E).
  destruct W as [I|(a & j & u & Ia & R & U & Ig)].
  - destruct (Forall2_in_l _ _ _ _ F I) as (g' & I' & E1 & E2 & E3 & E4 & E5 & _). exists t, g'. split; auto. split; [|repeat split; auto].
    rewrite E. apply in_or_app. left. apply in_proper. split; auto. unfold placeholder in *. congruence.
  - exists t, g. split; auto. split; [|repeat split]. rewrite E. apply in_or_app. right. apply in_or_app. right.
    destruct (Forall2_in_l _ _ _ _ Gs Ia) as (c & Ic & Fn). eapply concat_in; eauto. rewrite (finished_refers _ _ _ _ _ _ Fn R U). auto.
Qed.
Lemma inherited_step f f' i j tj g : link f = Ok f' -> bases_first f -> groups_found f -> derives f i j ->
  struct_at (rf_types f') j tj -> In g (st_fields tj) -> ~ placeholder g ->
  exists t g', struct_at (rf_types f') i t /\ In g' (st_fields t) /\ fl_name g' = fl_name g.
Proof.
  intros H B G (s & b & A & Ib & Pb & R) Tj Ig NP. destruct (link_finished _ _ _ _ H B G A) as (t & own & cs & gs & T & S & F & Fc & Gs & E).
  destruct (Forall2_in_l _ _ _ _ F Ib) as (b' & Ib' & E1 & E2 & _).
  assert (Jb : In b' (placeholders own)). { apply filter_In. split; auto. apply str_eqb_eq. unfold placeholder in Pb. congruence. }
  destruct (Forall2_in_l _ _ _ _ Fc Jb) as (c & Ic & Fn). cbn beta in Fn. rewrite E2 in Fn.
  assert (Tj' : struct_at (top_level f') j tj) by (apply struct_at_app_l; auto).
  rewrite (finished_refers _ _ _ _ _ _ Fn R Tj') in Ic. exists t.
  destruct (name_dec own g) as [(g' & Ig' & N)|N].
  - exists g'. repeat split; auto. rewrite E. apply in_or_app. left. apply in_proper. split; auto. unfold placeholder in *. congruence.
  - exists g. repeat split; auto. rewrite E. apply in_or_app. right. apply in_or_app. left. apply in_not_redeclared. split; auto. eapply concat_in; eauto.
Qed.
Lemma inherited_all f f' i j g : link f = Ok f' -> bases_first f -> groups_found f -> ancestor f i j -> writes f j g ->
  exists t g', struct_at (rf_types f') i t /\ In g' (st_fields t) /\ fl_name g' = fl_name g.
Proof.
  intros H B G An W. induction An as [i j D|i j k D An IH].
  - destruct (inherited_own _ _ _ _ H B G W) as (t & g' & T & I & C). destruct W as [NP _].
    destruct (inherited_step _ _ _ _ _ _ H B G D T I) as (t' & g'' & T' & I' & N); [destruct C as [C _]; unfold placeholder in *; congruence|].
    exists t', g''. repeat split; auto. destruct C as [C _]. congruence.
  - destruct (IH W) as (t & g' & T & I & N). destruct W as [NP _].
    destruct (inherited_step _ _ _ _ _ _ H B G D T I) as (t' & g'' & T' & I' & N'); [unfold placeholder in *; congruence|].
    exists t', g''. repeat split; auto. congruence.
Qed.
(** Nothing else appears. *)
Lemma inherited_only f f' i : link f = Ok f' -> bases_first f -> groups_found f -> plain_groups f ->
  forall t g', struct_at (rf_types f') i t -> In g' (st_fields t) ->
  ~ placeholder g' /\ exists j g, (j = i \/ ancestor f i j) /\ writes f j g /\ copy g g'.
Proof.
  intros H B G Pg. induction i as [i IH] using lt_wf_ind. intros t g' T I.
  assert (A : exists s, struct_at (rf_types f) i s).
  { assert (H' := H). apply link_ok in H' as (_ & _ & _ & Hl & Ho & _). pose proof (struct_at_bound _ _ _ T) as L. rewrite Hl in L. apply nth_error_Some in L.
    destruct (nth_error (rf_types f) i) as [e|] eqn:E; [|congruence]. unfold struct_at in *. destruct e as [s| | | | | |]; eauto;
    rewrite (Ho _ _ E) in T by (intros; discriminate); discriminate. }
  destruct A as (s & A). destruct (link_finished _ _ _ _ H B G A) as (t0 & own & cs & gs & T0 & S & F & Fc & Gs & E).
  assert (t0 = t) as -> by (unfold struct_at in *; congruence). rewrite E in I. apply in_app_or in I as [I|I]; [|apply in_app_or in I as [I|I]].
  - apply in_proper in I as [I NP]. split; auto. destruct (Forall2_in_r _ _ _ _ F I) as (g & Ig & E1 & E2 & E3 & E4 & E5 & _).
    exists i, g. split; auto. split; [|repeat split; auto]. split; [unfold placeholder in *; congruence|]. exists s. auto.
  - apply in_not_redeclared in I as [I NR]. destruct (in_concat_2 _ _ _ _ Fc I) as (b & c & Ib & Fn & Ig). cbn beta in Fn.
    assert (NP : ~ placeholder g'). { intros P. apply filter_In in Ib as [Ib Hb]. apply str_eqb_eq in Hb. apply (NR b Ib). unfold placeholder in P. congruence. }
    split; auto. destruct (placeholders_own _ _ _ _ F Ib) as (b0 & I0 & P0 & Tb). rewrite Tb in Fn.
    destruct Fn as [[_ ->]|(j & tj & R & Tj & ->)]; [destruct Ig|].
    assert (L : j < i) by (eapply B; eauto; left; auto).
    assert (D : derives f i j) by (exists s, b0; auto).
    assert (Tj' : struct_at (rf_types f') j tj).
    { apply struct_at_types; auto. pose proof (struct_at_bound _ _ _ T). lia. }
    destruct (IH j L tj g' Tj' Ig) as (_ & k & g & K & W & C). exists k, g. split; [|auto]. right.
    destruct K as [->|K]; [constructor 1; auto|econstructor 2; eauto].
  - destruct (in_concat_2 _ _ _ _ Gs I) as (a & c & Ia & Fn & Ig). cbn beta in Fn.
    destruct Fn as [[_ ->]|(j & tj & R & Tj & ->)]; [destruct Ig|].
    assert (NP : ~ placeholder g').
    { pose proof (G _ _ _ _ A Ia R) as L. unfold struct_at, top_level in Tj. rewrite nth_error_app2 in Tj by auto. apply nth_error_In in Tj. apply (Pg _ _ Tj Ig). }
    split; auto. exists i, g'. split; auto. split; [|repeat split]. split; auto. exists s. split; auto. right. exists a, j, tj. auto.
Qed.

(** ** Placeholders are gone *)
Definition clean_nested (g : field entity) : Prop := forall d b, nested_in g d -> In b (st_fields d) -> ~ placeholder b.
Definition clean_fields (fs : list (field entity)) : Prop := forall g, In g fs -> ~ placeholder g /\ clean_nested g.
Lemma assembled_clean (P : str -> list (field entity) -> Prop) own out : (forall g, In g own -> clean_nested g) ->
  (forall b c, In b (placeholders own) -> P (fl_type b) c -> clean_fields c) -> assembled P own out -> clean_fields out.
Proof.
  intros Ho Hp (cs & F & ->) g I. apply in_app_or in I as [I|I].
  - apply in_proper in I as [I N]. auto.
  - apply in_not_redeclared in I as [I _]. destruct (in_concat_2 _ _ _ _ F I) as (b & c & Ib & Pb & Ig). eapply Hp; eauto.
Qed.
Lemma clean_same (P : str -> list (field entity) -> Prop) f g : (forall s t, In (EStruct s) (fl_subtypes f) -> completed P (EStruct s) (EStruct t) -> clean_fields (st_fields t)) ->
  same_field (completed P) f g -> clean_nested g.
Proof.
  intros H (_ & _ & _ & _ & _ & F).
  assert (X : forall d, In (EStruct d) (fl_subtypes g) -> clean_fields (st_fields d)).
  { intros d I. destruct (Forall2_in_r _ _ _ _ F I) as (e & Ie & C). inversion C as [s0 t own S F' A E1 E2|e0 N E1 E2]; subst.
    - eapply H; eauto.
    - destruct (N d). auto. }
  intros d b N Ib. inversion N as [f0 d0 I0|f0 d0 g0 d1 I0 Ig Ng]; subst.
  - apply (X d I0 b Ib).
  - destruct (X d0 I0 g0 Ig) as [_ Y]. eapply Y; eauto.
Qed.
Lemma completed_clean (P : str -> list (field entity) -> Prop) e : (forall s d b c, e = EStruct s -> within s d -> In b (st_fields d) -> placeholder b -> P (fl_type b) c -> clean_fields c) ->
  forall s t, e = EStruct s -> completed P e (EStruct t) -> clean_fields (st_fields t).
Proof.
  induction e as [s0 IH|e N] using entity_nested_ind; intros H s t E C.
  - injection E as <-. inversion C as [s1 t1 own S F A E1 E2|e0 N E1 E2]; subst.
    + eapply assembled_clean; [| |exact A].
      * intros g I. destruct (Forall2_in_r _ _ _ _ F I) as (f & If & Sf). eapply clean_same; [|exact Sf]. intros s t' Is C'.
        eapply (IH f (EStruct s)); eauto. intros s' d b c [= <-] W. apply (H s0 d b c); auto. right. exists f. split; auto.
        destruct W as [->|(g' & Ig & Ng)]; [constructor; auto|econstructor 2; eauto].
      * intros b c Ib Pb. destruct (placeholders_own _ _ _ _ F Ib) as (b0 & I0 & P0 & E0). rewrite E0 in Pb. eapply (H s0 s0); eauto. left. auto.
    + destruct (N t). auto.
  - subst. destruct (N s). auto.
Qed.
Lemma placeholders_gone f f' i : link f = Ok f' -> bases_first f -> groups_found f -> plain_groups f ->
  forall t d b, struct_at (rf_types f') i t -> within t d -> In b (st_fields d) -> ~ placeholder b.
Proof.
  intros H B G Pg.
  enough (X : forall t, struct_at (rf_types f') i t -> clean_fields (st_fields t)).
  { intros t d b T [->|(g & Ig & N)] I; [apply (X t T b I)|]. destruct (X t T g Ig) as [_ Y]. eapply Y; eauto. }
  induction i as [i IH] using lt_wf_ind. intros t T.
  assert (A : exists s, struct_at (rf_types f) i s).
  { assert (H' := H). apply link_ok in H' as (_ & _ & _ & Hl & Ho & _). pose proof (struct_at_bound _ _ _ T) as L. rewrite Hl in L. apply nth_error_Some in L.
    destruct (nth_error (rf_types f) i) as [e|] eqn:E; [|congruence]. unfold struct_at in *. destruct e as [s| | | | | |]; eauto;
    rewrite (Ho _ _ E) in T by (intros; discriminate); discriminate. }
  destruct A as (s & A). destruct (link_finished _ _ _ _ H B G A) as (t0 & own & cs & gs & T0 & S & F & Fc & Gs & E).
  assert (t0 = t) as -> by (unfold struct_at in *; congruence).
  assert (Fin : forall d b c, within s d -> In b (st_fields d) -> placeholder b -> finished (top_level f) (top_level f') (fl_type b) c -> clean_fields c).
  { intros d b c W Ib Pb [[_ ->]|(j & tj & R & Tj & ->)]; [intros g []|]. assert (L : j < i) by (eapply B; eauto). apply (IH j L). apply struct_at_types; auto.
    pose proof (struct_at_bound _ _ _ T). lia. }
  assert (Own : forall g, In g own -> clean_nested g).
  { intros g I. destruct (Forall2_in_r _ _ _ _ F I) as (f0 & If & Sf). eapply clean_same; [|exact Sf]. intros s1 t1 Is C.
    eapply completed_clean; [|reflexivity|exact C]. intros s2 d b c [= <-] W. apply (Fin d b c). right. exists f0. split; auto.
    destruct W as [->|(g' & Ig & Ng)]; [constructor; auto|econstructor 2; eauto]. }
  rewrite E. intros g I. rewrite app_assoc in I. apply in_app_or in I as [I|I].
  - eapply (assembled_clean _ own); [exact Own| |exists cs; split; [exact Fc|reflexivity]|exact I].
    intros b c Ib Pb. destruct (placeholders_own _ _ _ _ F Ib) as (b0 & I0 & P0 & E0). rewrite E0 in Pb. eapply (Fin s); eauto. left. auto.
  - destruct (in_concat_2 _ _ _ _ Gs I) as (a & c & Ia & Fn & Ig). cbn beta in Fn. destruct Fn as [[_ ->]|(j & tj & R & Tj & ->)]; [destruct Ig|].
    pose proof (G _ _ _ _ A Ia R) as L. unfold struct_at, top_level in Tj. rewrite nth_error_app2 in Tj by auto. apply nth_error_In in Tj.
    destruct (Pg _ _ Tj Ig) as [N0 N1]. split; auto. intros d b N. inversion N; rewrite N1 in *; contradiction.
Qed.
(** At the top level, in any order. *)
Lemma top_level_gone f f' i t b : link f = Ok f' -> groups_found f -> plain_groups f -> struct_at (rf_types f') i t ->
  In b (st_fields t) -> ~ placeholder b.
Proof.
  intros H G Pg T I.
  assert (H' := H). apply link_ok in H' as (_ & _ & _ & Hl & Ho & Hs).
  assert (A : exists s, struct_at (rf_types f) i s).
  { pose proof (struct_at_bound _ _ _ T) as L. rewrite Hl in L. apply nth_error_Some in L.
    destruct (nth_error (rf_types f) i) as [e|] eqn:E; [|congruence]. unfold struct_at in *. destruct e as [s| | | | | |]; eauto;
    rewrite (Ho _ _ E) in T by (intros; discriminate); discriminate. }
  destruct A as (s & A). destruct (Hs i s A) as (t0 & T0 & own & out & gs & S & F & (cs & Fc & Eo) & Gs & E).
  assert (t0 = t) as -> by (unfold struct_at in *; congruence). rewrite E, Eo in I.
  apply in_app_or in I as [I|I]; [apply in_app_or in I as [I|I]|].
  - apply in_proper in I. apply I.
  - apply in_not_redeclared in I as [I NR]. destruct (in_concat_2 _ _ _ _ Fc I) as (b0 & c & Ib & _). intros P. apply filter_In in Ib as [Ib Hb]. apply str_eqb_eq in Hb. apply (NR b0 Ib).
    unfold placeholder in P. congruence.
  - destruct (in_concat_2 _ _ _ _ Gs I) as (a & c & Ia & Fn & Ig).
    assert (X : forall j tj, refers (top_level f) (al_original a) j -> struct_at (top_level f) j tj -> In b (st_fields tj) -> ~ placeholder b).
    { intros j tj R Tj Ij. pose proof (G _ _ _ _ A Ia R) as L. unfold struct_at, top_level in Tj. rewrite nth_error_app2 in Tj by auto. apply nth_error_In in Tj. apply (Pg _ _ Tj Ij). }
    pose proof (struct_at_bound _ _ _ A) as Bi.
    cbn beta in Fn. destruct Fn as [[[_ ->]|(j & R & [(L & _)|(L & tj & Tj & ->)])]|(R & _)]; [destruct Ig| | |].
    + pose proof (G _ _ _ _ A Ia R). lia.
    + eapply X; eauto.
    + pose proof (G _ _ _ _ A Ia R). lia.
Qed.

(** ** The parser leaves no types beside fields *)
Lemma set_name_flat nm e : flat e -> flat (set_name nm e).
Proof. destruct 1; constructor; cbn; auto. Qed.
Lemma set_comment_flat c e : flat e -> flat (set_comment c e).
Proof. destruct 1; constructor; cbn; auto. Qed.
Definition flat_kids (ks : list kid) : Prop := forall k e, In k ks -> snd k = Ok e -> flat e.
Lemma rfilter_in {A} (p : A -> res bool) l r x : rfilter p l = Ok r -> In x r -> In x l.
Proof.
  revert r. induction l as [|y l IH]; intros r H I; cbn in H; [injection H as <-; auto|].
  apply bind_ok in H as (b & _ & H). apply bind_ok in H as (r' & Hr & [= <-]). destruct b; [destruct I as [<-|I]; [left; auto|]|]; right; eapply IH; eauto.
Qed.
Lemma attributes_flat anc ks fs : flat_kids ks -> attributes_to_fields anc ks = Ok fs -> Forall (fun f => Forall flat (fl_subtypes f)) fs.
Proof.
  intros K H. unfold attributes_to_fields in H. apply bind_ok in H as (l & Hl & H). apply rmapm_ok in H.
  apply Forall_forall. intros f I. destruct (Forall2_in_r _ _ _ _ H I) as (k & Ik & Hk). apply bind_ok in Hk as (e & He & Hf).
  destruct e; try discriminate. injection Hf as <-. assert (F : flat (EField f0)) by (eapply K; eauto; eapply rfilter_in; eauto). inversion F. auto.
Qed.
Lemma groups_flat anc ks gs : flat_kids ks -> attribute_groups_to_aliases anc ks = Ok gs -> Forall (fun a => al_subtypes a = []) gs.
Proof.
  intros K H. unfold attribute_groups_to_aliases in H. apply bind_ok in H as (l & Hl & H). apply rmapm_ok in H.
  apply Forall_forall. intros f I. destruct (Forall2_in_r _ _ _ _ H I) as (k & Ik & Hk). apply bind_ok in Hk as (e & He & Hf).
  destruct e; try discriminate. injection Hf as <-. assert (F : flat (EAlias a)) by (eapply K; eauto; eapply rfilter_in; eauto). inversion F. auto.
Qed.
Ltac bo H x Hx := apply bind_ok in H as (x & Hx & H).
Lemma sequence_flat n anc ks e : flat_kids ks -> parse_sequence n anc ks = Ok e -> flat e.
Proof.
  intros K H. unfold parse_sequence in H. bo H nm Hn. bo H fs Hf. injection H as <-. constructor; cbn; auto.
  unfold elements_to_fields in Hf. bo Hf l Hl. apply rmapm_ok in Hf. apply Forall_forall. intros f I.
  destruct (Forall2_in_r _ _ _ _ Hf I) as (k & Ik & Hk). bo Hk x Hx. assert (F : flat x) by (eapply K; eauto; eapply rfilter_in; eauto).
  unfold to_field in Hk. destruct x; try discriminate; injection Hk as <-.
  - inversion F. destruct (ends_with nm (fl_type f0)); cbn; auto.
  - cbn. constructor; [|constructor]. inversion F. constructor. auto.
Qed.
Lemma last_flat anc p ks l k e : flat_kids ks -> elements_where p anc ks = Ok l -> last_opt l = Some k -> snd k = Ok e -> flat e.
Proof. intros K Hl Hk He. apply last_opt_in in Hk. eapply K; eauto. eapply rfilter_in; eauto. Qed.
Lemma last_flat_n anc p ks l k e : flat_kids ks -> nodes_where p anc ks = Ok l -> last_opt l = Some k -> snd k = Ok e -> flat e.
Proof. intros K Hl Hk He. apply last_opt_in in Hk. eapply K; eauto. eapply rfilter_in; eauto. Qed.
Lemma complex_flat n anc ks e : flat_kids ks -> parse_complex_type n anc ks = Ok e -> flat e.
Proof.
  intros K H. unfold parse_complex_type in H. bo H pt Hp. bo H nm Hn. bo H fs Hf. bo H l Hl. cbv zeta in H.
  assert (Fa := attributes_flat _ _ _ K Hf).
  assert (X : forall e, bind (attribute_groups_to_aliases (n :: anc) ks) (fun groups => Ok (EStruct {| st_name := nm; st_comment := get_documentation n;
     st_fields := fs; st_groups := groups; st_subtypes := [] |})) = Ok e -> flat e).
  { intros e' H'. bo H' gs Hg. injection H' as <-. constructor; cbn; auto. eapply groups_flat; eauto. }
  destruct (last_opt l) as [k|] eqn:Lk; [|auto]. destruct (existsb _ _); [|auto]. bo H x Hx.
  assert (F : flat x) by (eapply last_flat; eauto). unfold finish_complex in H. destruct x; try (injection H as <-; exact F).
  - injection H as <-. inversion F. constructor; cbn; auto. apply Forall_app. auto.
  - cbv zeta in H. bo H gs Hg. injection H as <-. constructor. cbn. constructor; [|constructor]. constructor; cbn; auto; [|eapply groups_flat; eauto].
    apply Forall_app. split; auto. constructor; [constructor|constructor].
Qed.
Lemma derivation_flat kinds n anc ks e : flat_kids ks -> complex_derivation kinds n anc ks = Ok e -> flat e.
Proof.
  intros K H. unfold complex_derivation in H. bo H b Hb. bo H fs Hf. cbv zeta in H. bo H l Hl.
  assert (Fa := attributes_flat _ _ _ K Hf).
  assert (Fb : Forall (fun f => Forall flat (fl_subtypes f)) (fs ++ [base_field n b])) by (apply Forall_app; split; auto; constructor; cbn; auto).
  assert (X : forall e, bind (attribute_groups_to_aliases (n :: anc) ks) (fun groups => Ok (EStruct {| st_name := []; st_comment := get_documentation n;
     st_fields := fs ++ [base_field n b]; st_groups := groups; st_subtypes := [] |})) = Ok e -> flat e).
  { intros e' H'. bo H' gs Hg. injection H' as <-. constructor; cbn; auto. eapply groups_flat; eauto. }
  destruct (last_opt l) as [k|] eqn:Lk; [|auto]. bo H x Hx. assert (F : flat x) by (eapply last_flat; eauto).
  destruct x; auto. injection H as <-. inversion F. constructor; cbn; auto. apply Forall_app. auto.
Qed.
Lemma union_subtypes_flat ks : flat_kids ks -> forall i es, union_subtypes i ks = Ok es -> Forall flat es.
Proof.
  induction ks as [|k ks IH]; intros K i es H; cbn in H; [injection H as <-; constructor|].
  bo H e He. bo H l Hl. injection H as <-. constructor; [apply set_name_flat; eapply K; eauto; left; auto|].
  eapply IH; eauto. intros k' e' I. apply K. right. auto.
Qed.
Lemma step_flat u n anc ks e : flat_kids ks -> parse_step u n anc ks = Ok e -> flat e.
Proof.
  intros K H. unfold parse_step in H. bo H t Ht. clear Ht.
  assert (Content : parse_content n anc ks = Ok e -> flat e).
  { clear H. intros H. unfold parse_content in H. bo H l Hl. bo H k Hk. apply expect_ok in Hk. eapply last_flat; eauto. }
  destruct t as [k|x|r|f| |]; try discriminate.
  - destruct k; try discriminate; auto.
    + eapply sequence_flat; eauto.
    + injection H as <-. constructor. cbn. constructor.
    + injection H as <-. constructor. cbn. constructor.
    + unfold parse_attribute in H. bo H pt Hp. destruct (is_kind KSchema pt).
      * unfold parse_global_attribute in H. destruct (attr_ref n); [injection H as <-; constructor; reflexivity|].
        bo H nm Hn. destruct (attr_type n); [injection H as <-; constructor; reflexivity|]. bo H l Hl.
        destruct (last_opt l) eqn:Lk; [|injection H as <-; constructor; cbn; auto].
        apply rmap_iff in H as (x & Hx & <-). apply set_name_flat. eapply last_flat; eauto.
      * bo H nm Hn. bo H us Hu. injection H as <-. constructor. cbn. constructor.
    + unfold parse_attribute_group in H. bo H pt Hp. destruct (is_kind KSchema pt).
      * bo H nm Hn. bo H fs Hf. injection H as <-. constructor; cbn; auto. eapply attributes_flat; eauto.
      * bo H nm Hn. injection H as <-. constructor. reflexivity.
    + unfold parse_choice in H. bo H l Hl. bo H cs Hc. injection H as <-. constructor. cbn. constructor.
    + eapply complex_flat; eauto.
    + unfold parse_element in H. bo H pt Hp.
      assert (Sq : parse_field_of_sequence n anc ks = Ok e -> flat e).
      { clear H. intros H. unfold parse_field_of_sequence in H. cbv zeta in H. destruct (_ || _); [injection H as <-; constructor; cbn; constructor|].
        bo H l Hl. bo H k Hk. apply expect_ok in Hk. bo H x Hx. injection H as <-. constructor. cbn. constructor; [|constructor].
        apply set_name_flat. eapply last_flat_n; eauto. }
      assert (D : Ok (element_default n) = Ok e -> flat e) by (intros [= <-]; constructor; reflexivity).
      destruct pt as [k| | | | |]; auto. destruct k; auto.
      * injection H as <-. unfold parse_case_of_choice. cbv zeta. destruct (attr_ref n); constructor.
      * unfold parse_global_element in H. bo H nm Hn. destruct (attr_type n); [injection H as <-; constructor; reflexivity|]. bo H l Hl.
        destruct (last_opt l) eqn:Lk; [|injection H as <-; constructor; cbn; auto].
        apply rmap_iff in H as (x & Hx & <-). apply set_name_flat. eapply last_flat_n; eauto.
    + injection H as <-. constructor.
    + injection H as <-. constructor.
    + unfold parse_list in H. bo H t Ht. injection H as <-. constructor. cbn. destruct (attribute n _); [injection Ht as <-; constructor|].
      bo Ht k Hk. apply expect_ok, find_some in Hk as [Ik _]. bo Ht x Hx. assert (F : flat x) by (eapply K; eauto).
      destruct x; try discriminate; injection Ht as <-; [inversion F; auto|constructor; auto].
    + eapply sequence_flat; eauto.
    + unfold parse_simple_type in H. cbv zeta in H. bo H pt Hp. destruct (negb _); [discriminate|]. bo H l Hl. bo H k Hk. apply expect_ok in Hk. bo H x Hx. injection H as <-.
      apply set_comment_flat. assert (F : flat x) by (eapply last_flat; eauto). destruct (attr_name n); auto. apply set_name_flat. auto.
    + unfold parse_union in H. cbv zeta in H. bo H l Hl. bo H subs Hs. bo H fs Hf.
      assert (F : Forall flat subs). { eapply union_subtypes_flat; [|eauto]. intros k e' I. apply K. eapply rfilter_in; eauto. }
      assert (Fa := attributes_flat _ _ _ K Hf). destruct fs as [|f fs]; [injection H as <-; constructor; auto|].
      bo H pn Hn. injection H as <-. constructor; cbn; auto. inversion Fa. constructor; auto. apply Forall_app. split; auto. constructor; [|constructor]. cbn.
      constructor; [|constructor]. constructor. auto.
  - destruct x; cbn in H; [eapply derivation_flat; eauto|]. unfold simple_content_extension in H. bo H b Hb. bo H fs Hf. bo H gs Hg. injection H as <-. constructor; cbn; auto.
    + apply Forall_app. split; [eapply attributes_flat; eauto|]. constructor; cbn; auto.
    + eapply groups_flat; eauto.
  - destruct r; cbn in H; [eapply derivation_flat; eauto|discriminate|]. unfold simple_type_restriction in H. bo H b Hb. bo H fs Hf. cbv zeta in H.
    destruct (_ && _); [bo H pn Hn|]; injection H as <-; constructor; cbn; constructor.
Qed.
Section NI.
Context (P : node -> Prop) (HE : forall t a ns cs, Forall P cs -> P (Elem t a ns cs)) (HT : forall s, P (Text s)) (HO : P Other).
Fixpoint node_tree_ind (n : node) : P n :=
  match n with
  | Elem t a ns cs => HE t a ns cs ((fix go l := match l return Forall P l with [] => Forall_nil _ | c :: l' => Forall_cons _ (node_tree_ind c) (go l') end) cs)
  | Text s => HT s
  | Other => HO
  end.
End NI.
Lemma node_flat u n : forall anc e, parse_node u n anc = Ok e -> flat e.
Proof.
  induction n as [t a ns cs IH|s|] using node_tree_ind; intros anc e H.
  - cbn [parse_node] in H. eapply step_flat; [|exact H]. intros k x I Hx. apply in_map_iff in I as (c & <- & Ic).
    rewrite Forall_forall in IH. eapply IH; eauto.
  - cbn [parse_node] in H. eapply step_flat; [|exact H]. intros k x [].
  - cbn [parse_node] in H. eapply step_flat; [|exact H]. intros k x [].
Qed.
Lemma schema_flat u n anc f : parse_schema u n anc = Ok f -> Forall flat (top_level f).
Proof.
  intros H. unfold parse_schema in H. bo H ts Ht. bo H tys Hty. bo H gs Hg. bo H grs Hgr. injection H as <-. unfold top_level. cbn.
  apply rmapm_ok in Hty. apply rmapm_ok in Hgr.
  assert (X : forall l r, (forall k, In k l -> In k (kids u n anc)) -> Forall2 (fun (x : kid) y => snd x = Ok y) l r -> Forall flat r).
  { intros l r S F. apply Forall_forall. intros e I. destruct (Forall2_in_r _ _ _ _ F I) as (k & Ik & Hk). apply S, in_map_iff in Ik as (c & <- & _).
    cbn in Hk. eapply node_flat; eauto. }
  apply Forall_app. split; [apply (X ts); [|exact Hty]|apply (X gs); [|exact Hgr]]; intros k Ik; [exact (rfilter_in _ _ _ _ Ht Ik)|exact (rfilter_in _ _ _ _ Hg Ik)].
Qed.
Lemma kinds_struct_named u n anc f : tag "schema" n -> parse_schema u n anc = Ok f ->
  Forall2 declares_group (tagged_children ["attributeGroup"] n) (rf_groups f) -> 
  (forall g a, In g (tagged_children ["attributeGroup"] n) -> In a (attribute_children g) ->
     ~ has a "name" (lit "__base__") /\ ~ has a "ref" (lit "__base__")) -> plain_groups f.
Proof.
  intros T H F N s g I Ig. destruct (Forall2_in_r _ _ _ _ F I) as (d & Id & s' & [= <-] & _ & Fa).
  destruct (Forall2_in_r _ _ _ _ Fa Ig) as (a & Ia & A). destruct (N d a Id Ia) as [N1 N2].
  assert (O : tag "attribute" a \/ tag "anyAttribute" a).
  { unfold attribute_children, tagged_children in Ia. apply filter_In in Ia as [_ Ia]. cbn in Ia. unfold tagged in Ia. rewrite orb_false_r in Ia.
    apply orb_true_iff in Ia as [Ia|Ia]; apply str_eqb_eq in Ia; auto. }
  unfold attribute_field in A. destruct A as (_ & Hs & _ & H1 & H2). split; [|exact Hs]. intros P. unfold placeholder in P. rewrite P in *.
  destruct O as [O|O]; [destruct (H1 O) as ([X|[_ X]] & _); auto|]. destruct (H2 O) as (X & _). discriminate.
Qed.
Lemma groups_inlined f f' i s : link f = Ok f' -> groups_found f -> struct_at (rf_types f) i s ->
  placeholders (st_fields s) = [] ->
  exists t own gs, struct_at (rf_types f') i t /\
    Forall2 (same_field (completed (snapshot (top_level f) (top_level f') i))) (st_fields s) own /\
    st_fields t = own ++ List.concat gs /\
    Forall2 (fun a g => finished (top_level f) (top_level f) (al_original a) g) (st_groups s) gs.
Proof.
  intros H G A NP. assert (H' := H). apply link_ok in H' as (_ & _ & _ & _ & _ & Hs).
  destruct (Hs i s A) as (t & T & own & out & gs & S & F & (cs & Fc & Eo) & Gs & E). exists t, own, gs. split; auto. split; auto.
  assert (NB : forall g, In g own -> ~ placeholder g).
  { intros g I P. destruct (Forall2_in_r _ _ _ _ F I) as (g0 & I0 & E1 & _).
    assert (X : In g0 (placeholders (st_fields s))); [|rewrite NP in X; destruct X].
    apply filter_In. split; auto. apply str_eqb_eq. unfold placeholder in P. congruence. }
  assert (Po : placeholders own = []).
  { destruct (placeholders own) as [|b l] eqn:Pl; auto. assert (X : In b (placeholders own)) by (rewrite Pl; left; auto).
    apply filter_In in X as [X Y]. apply str_eqb_eq in Y. destruct (NB b X Y). }
  assert (Pr : proper own = own).
  { clear - NB. unfold proper. induction own as [|g l IH]; cbn; auto. destruct (str_eqb_spec (fl_name g) (lit "__base__")) as [P|P]; cbn.
    - destruct (NB g); [left; auto|exact P].
    - rewrite IH; auto. intros; apply NB; right; auto. }
  rewrite Po in Fc. inversion Fc; subst cs. rewrite Pr in Eo. cbn in Eo. rewrite app_nil_r in Eo. split; [rewrite E, Eo; auto|].
  eapply Forall2_imp; [|exact Gs]. cbn beta. intros a g Ia. intros [[D|(j & R & [(L & t' & T' & E')|(L & t' & T' & E')])]|(R & _)]; [left; auto| | |].
  - pose proof (G _ _ _ _ A Ia R). pose proof (struct_at_bound _ _ _ A). lia.
  - right. exists j, t'. repeat split; auto.
  - pose proof (G _ _ _ _ A Ia R). pose proof (struct_at_bound _ _ _ A). lia.
Qed.
Lemma same_field_plain (R : entity -> entity -> Prop) (f g : field entity) : fl_subtypes f = [] -> same_field R f g -> g = f.
Proof.
  intros E (H1 & H2 & H3 & H4 & H5 & H6). rewrite E in H6. inversion H6 as [H7|]. destruct f, g; cbn in *; congruence.
Qed.
Lemma same_fields_plain (R : entity -> entity -> Prop) fs gs : (forall f : field entity, In f fs -> fl_subtypes f = []) -> Forall2 (same_field R) fs gs -> gs = fs.
Proof.
  intros E F. induction F as [|f g fs gs H F IH]; auto. f_equal; [eapply same_field_plain; [|exact H]; apply E; left; reflexivity|].
  apply IH. intros x I. apply E. right. exact I.
Qed.
Lemma attribute_type u n anc f f' c : tag "schema" n -> parse_schema u n anc = Ok f -> link f = Ok f' -> groups_found f ->
  In c (children n) -> tag "complexType" c -> tagged_children content_tags c = [] ->
  (forall a, In a (attribute_children c) -> ~ has a "name" (lit "__base__") /\ ~ has a "ref" (lit "__base__")) ->
  exists i t own gs, struct_at (rf_types f') i t /\ has c "name" (st_name t) /\ st_fields t = own ++ List.concat gs /\
    Forall2 attribute_field (attribute_children c) own /\
    Forall2 (fun r g => exists q, has r "ref" q /\ finished (top_level f) (top_level f) q g) (group_children c) gs.
Proof.
  intros S H L G I T E N. destruct (schema_inv _ _ _ _ H) as (_ & F & _).
  assert (Ic : In c (declarations n)).
  { unfold declarations. apply filter_In. split; auto. unfold tag in T. destruct c; cbn in T |- *; try discriminate. unfold tagged. rewrite T. reflexivity. }
  destruct (Forall2_in_l _ _ _ _ F Ic) as (e & Ie & He). cbn beta in He.
  destruct (complex_plain u c (n :: anc) e T He) as (nm & s & -> & TN & Nm & _ & FA & FG).
  { intros x (a & X). rewrite E in X. destruct a; discriminate. }
  destruct (In_nth_error _ _ Ie) as (i & A). 
  assert (AF : forall g, In g (st_fields s) -> ~ placeholder g /\ fl_subtypes g = []).
  { intros g Ig. destruct (Forall2_in_r _ _ _ _ FA Ig) as (a & Ia & (_ & Hs & _ & H1 & H2)). split; [|exact Hs]. intros P. unfold placeholder in P. rewrite P in *.
    destruct (N a Ia) as [N1 N2]. apply in_tagged in Ia as [_ (t & Ht & Ta)]. destruct Ht as [<-|[<-|[]]].
    - destruct (H1 Ta) as ([X|[_ X]] & _); auto.
    - destruct (H2 Ta) as (X & _). discriminate. }
  destruct (groups_inlined f f' i s L G A) as (t & own & gs & At & Fo & Ef & Fg).
  { unfold placeholders. destruct (filter _ (st_fields s)) as [|b l] eqn:Fb; auto. exfalso. assert (X : In b (b :: l)) by (left; auto). rewrite <- Fb in X.
    apply filter_In in X as [X Y]. apply str_eqb_eq in Y. destruct (AF b X) as [Z _]. exact (Z Y). }
  assert (own = st_fields s) by (eapply same_fields_plain; [|exact Fo]; intros g Ig; apply AF; exact Ig). subst own.
  exists i, t, (st_fields s), gs. split; auto. split.
  - destruct (link_ok _ _ L) as (_ & _ & _ & _ & _ & Hs). destruct (Hs i s A) as (t' & At' & own & out & gs' & (Sn & _) & _).
    unfold struct_at in At, At'. rewrite At in At'. injection At' as <-. rewrite Sn, Nm. destruct TN as [TN _]. auto.
  - split; auto. split; auto. clear - FG Fg. revert gs Fg. induction FG as [|r a rs l R FG IH]; intros gs Fg; inversion Fg; subst; constructor; auto.
    exists (al_original a). destruct R. auto.
Qed.

(** ** The document *)
Lemma filter_none {A} (p : A -> bool) l : (forall x, In x l -> p x = false) -> filter p l = [].
Proof. induction l as [|x l IH]; intros H; cbn; auto. rewrite (H x) by (left; auto). apply IH. intros; apply H; right; auto. Qed.
Lemma last_opt_snoc {A} (l : list A) x : last_opt (l ++ [x]) = Some x.
Proof. induction l as [|a [|b l] IH]; cbn in *; auto. Qed.
Lemma parse_document u roots :
  (forall a schema b, roots = a ++ schema :: b -> is_element schema = true -> (forall n, In n b -> is_element n = false) ->
     (forall f', parse u roots = Ok f' <-> exists f, parse_schema u schema [] = Ok f /\ link f = Ok f') /\
     (parse u roots = Panic <-> parse_schema u schema [] = Panic \/ exists f, parse_schema u schema [] = Ok f /\ link f = Panic)) /\
  ((forall n, In n roots -> is_element n = false) -> parse u roots = Panic).
Proof.
  split.
  - intros a schema b -> E B.
    assert (P : parse u (a ++ schema :: b) = bind (parse_schema u schema []) link).
    { unfold parse. rewrite filter_app. cbn [filter]. rewrite E, (filter_none _ b B), last_opt_snoc. reflexivity. }
    rewrite P. destruct (parse_schema u schema []) as [f| |]; cbn [bind].
    + split; [intros f'; split; [eauto|intros (f0 & X & Y); injection X as <-; auto]|].
      split; [eauto|intros [X|(f0 & X & Y)]; [discriminate|injection X as <-; auto]].
    + split; [intros f'; split; [discriminate|intros (f0 & X & Y); discriminate]|split; [discriminate|intros [X|(f0 & X & Y)]; discriminate]].
    + split; [intros f'; split; [discriminate|intros (f0 & X & Y); discriminate]|split; auto].
  - intros H. unfold parse. rewrite (filter_none _ roots H). reflexivity.
Qed.
