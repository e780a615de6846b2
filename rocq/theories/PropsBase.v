(** Property theorems C81: own base generators. *)
From Coq Require Import Arith NArith ZArith Bool Ascii String List Lia.
From Verif Require Import Str StrFacts Xml Comment Names Entity Parser Link LinkProofs Gen GenProofs PropsGen Builder PropsBuilder StrProofs.
Import ListNotations.
Local Open Scope string_scope.
Local Open Scope list_scope.
Notation concat := List.concat.

(** ** Texts that differ in their layout *)
(** The texts can be turned into each other by adding and removing white space at the beginning
    of lines, and empty lines. *)
Definition blank_char (c : N) : Prop := c = 32%N \/ c = 9%N.
Inductive laid_out : str -> str -> Prop :=
| same_text s : laid_out s s
| other_way a b : laid_out a b -> laid_out b a
| in_steps a b c : laid_out a b -> laid_out b c -> laid_out a c
| in_parts a a' b b' : laid_out a a' -> laid_out b b' -> laid_out (a ++ b) (a' ++ b')
| indented c : blank_char c -> laid_out [10%N; c] [10%N]
| empty_line : laid_out [10%N; 10%N] [10%N].

(** Two base generators of the same names and types.  The indentation is white space within a
    line; comments are made of whole lines and differ in the layout only. *)
Record differ_in_layout (b1 b2 : base) : Prop := {
  dl_indent1 : Forall blank_char (b_indent b1); dl_indent2 : Forall blank_char (b_indent b2);
  dl_type : forall tns xsd n, b_type b1 tns xsd n = b_type b2 tns xsd n;
  dl_name : forall n, b_name b1 n = b_name b2 n;
  dl_modify : forall t m, b_modify b1 t m = b_modify b2 t m;
  dl_mod : forall n, b_mod b1 n = b_mod b2 n;
  dl_comment : forall c, laid_out (b_comment b1 c 0) (b_comment b2 c 0);
  dl_members : forall c, laid_out (nl ++ b_comment b1 c (b_indent_size b1)) (nl ++ b_comment b2 c (b_indent_size b2));
  dl_lines1 : forall c, b_comment b1 c (b_indent_size b1) = [] \/ exists t, b_comment b1 c (b_indent_size b1) = t ++ nl;
  dl_lines2 : forall c, b_comment b2 c (b_indent_size b2) = [] \/ exists t, b_comment b2 c (b_indent_size b2) = t ++ nl }.

(** Fields and cases do not stand among the nested types. *)
Definition type_kind (e : entity) : Prop := match e with EField _ | ECase _ => False | _ => True end.
Inductive nested_types : entity -> Prop :=
| nt_tuple t : Forall type_kind (tu_subtypes t) -> (forall e, In e (tu_subtypes t) -> nested_types e) -> nested_types (ETuple t)
| nt_struct s : Forall type_kind (st_subtypes s) -> (forall e, In e (st_subtypes s) -> nested_types e) ->
    (forall f, In f (st_fields s) -> Forall type_kind (fl_subtypes f)) ->
    (forall f e, In f (st_fields s) -> In e (fl_subtypes f) -> nested_types e) -> nested_types (EStruct s)
| nt_enum x : Forall type_kind (en_subtypes x) -> (forall e, In e (en_subtypes x) -> nested_types e) -> nested_types (EEnum x)
| nt_alias a : nested_types (EAlias a)
| nt_import i : nested_types (EImport i)
| nt_field f : nested_types (EField f)
| nt_case c : nested_types (ECase c).

Lemma laid_nl_blank ind : Forall blank_char ind -> laid_out (nl ++ ind) nl.
Proof.
  induction ind as [|c ind IH] using rev_ind; intros H; [rewrite app_nil_r; constructor|].
  apply Forall_app in H as [H1 H2]. rewrite app_assoc. inversion H2; subst. clear IH.
  revert H1. induction ind as [|d ind IH]; intros H1.
  - apply (indented c). assumption.
  - inversion H1; subst. change ((nl ++ d :: ind) ++ [c]) with ([10%N; d] ++ (ind ++ [c])).
    apply (in_steps _ ([10%N] ++ (ind ++ [c]))); [apply in_parts; [apply indented; assumption|constructor]|]. rewrite app_assoc. apply IH. assumption.
Qed.
Lemma laid_in a b p q : laid_out a b -> laid_out (p ++ a ++ q) (p ++ b ++ q).
Proof. intros H. apply in_parts; [constructor|]. apply in_parts; [exact H|constructor]. Qed.
(** An indentation at the beginning of a line *)
Lemma laid_start i1 i2 t : Forall blank_char i1 -> Forall blank_char i2 -> laid_out (nl ++ i1 ++ t) (nl ++ i2 ++ t).
Proof.
  intros A B. rewrite !app_assoc. apply in_parts; [|constructor]. apply (in_steps _ nl); [apply laid_nl_blank; exact A|]. apply other_way, laid_nl_blank. exact B.
Qed.

Lemma laid_squeeze s : laid_out (squeeze s) s.
Proof.
  assert (X : forall n s, List.length s <= n -> laid_out (squeeze s) s).
  { induction n as [|n IH]; intros x L; [destruct x; [constructor|cbn in L; lia]|].
    destruct x as [|a x]; [constructor|]. assert (C : laid_out (a :: squeeze x) (a :: x)).
    { apply (in_parts [a] [a]); [constructor|]. apply IH. cbn in L. lia. }
    cbn [squeeze]. destruct x as [|b [|c x]]; try exact C.
    destruct ((a =? 10)%N && (b =? 10)%N && (c =? 10)%N) eqn:E; [|exact C].
    apply andb_true_iff in E as [E E3]. apply andb_true_iff in E as [E1 E2]. apply N.eqb_eq in E1, E2, E3. subst.
    apply (in_steps _ ([10%N] ++ x)); [apply (in_parts [10%N] [10%N]); [constructor|apply IH; cbn in L; lia]|].
    apply other_way. change (10%N :: 10%N :: 10%N :: x) with ([10%N; 10%N] ++ ([10%N] ++ x)).
    apply (in_steps _ ([10%N] ++ ([10%N] ++ x))); [apply in_parts; [apply empty_line|constructor]|].
    rewrite app_assoc. apply in_parts; [apply empty_line|constructor]. }
  apply (X _ s (le_n _)).
Qed.
Lemma join_split c s : join [c] (split_on c s) = s.
Proof.
  induction s as [|x s IH]; [reflexivity|]. cbn [split_on]. destruct (N.eqb c x) eqn:E.
  - apply N.eqb_eq in E. subst x. destruct (split_on c s) as [|p ps] eqn:Q; [destruct s; cbn in Q; [discriminate|destruct (N.eqb c n); [discriminate|destruct (split_on c s); discriminate]]|].
    change (join [c] ([] :: p :: ps)) with ([c] ++ join [c] (p :: ps)). rewrite IH. reflexivity.
  - destruct (split_on c s) as [|p ps] eqn:Q.
    + cbn in IH. subst s. reflexivity.
    + destruct ps as [|p' ps]; [cbn in IH |- *; subst; reflexivity|].
      change (join [c] ((x :: p) :: p' :: ps)) with (x :: p ++ [c] ++ join [c] (p' :: ps)). f_equal. exact IH.
Qed.
Lemma fold_concat (l : list str) a : fold_left (fun acc x => acc ++ x) l a = a ++ concat l.
Proof. revert a. induction l as [|x l IH]; intros a; cbn; [rewrite app_nil_r; reflexivity|]. rewrite IH, <- app_assoc. reflexivity. Qed.
Lemma laid_shift t ind : Forall blank_char ind -> laid_out (nl ++ shift t ind) (nl ++ t).
Proof.
  intros H. unfold shift. rewrite fold_concat, app_assoc. set (ls := split_on 10 (squeeze t)).
  apply (in_steps _ (nl ++ nl ++ join nl ls)).
  - apply in_parts; [apply laid_nl_blank; exact H|].
    assert (L : ls <> []) by (unfold ls; destruct (squeeze t) as [|x s]; cbn; [discriminate|]; destruct (N.eqb 10 x); [discriminate|destruct (split_on 10 s); discriminate]).
    assert (O : forall x, laid_out (if negb (is_empty x) then nl ++ ind ++ x else nl) (nl ++ x)).
    { intros [|c x]; [constructor|]. cbn [is_empty negb]. rewrite app_assoc. apply in_parts; [apply laid_nl_blank; exact H|constructor]. }
    clearbody ls. induction ls as [|x ls IH]; [contradiction|]. destruct ls as [|y ls].
    + cbn [map concat join]. rewrite app_nil_r. apply O.
    + change (join nl (x :: y :: ls)) with (x ++ nl ++ join nl (y :: ls)). change (concat (map ?f (x :: ?l))) with (f x ++ concat (map f l)).
      rewrite app_assoc. apply in_parts; [apply O|]. apply IH. discriminate.
  - unfold ls, nl. rewrite join_split. change ([10%N] ++ [10%N] ++ squeeze t) with ([10%N; 10%N] ++ squeeze t).
    apply in_parts; [apply empty_line|apply laid_squeeze].
Qed.

(** Results: the same failure, or texts of the relation *)
Definition results (R : str -> str -> Prop) (r1 r2 : res str) : Prop :=
  match r1, r2 with Ok s1, Ok s2 => R s1 s2 | Err, Err => True | Panic, Panic => True | _, _ => False end.
Lemma results_rtraverse {A} (R : str -> str -> Prop) (f1 f2 : A -> res str) l :
  (forall x, In x l -> results R (f1 x) (f2 x)) ->
  match rtraverse f1 l, rtraverse f2 l with Ok l1, Ok l2 => Forall2 R l1 l2 | Err, Err => True | Panic, Panic => True | _, _ => False end.
Proof.
  induction l as [|x l IH]; intros H; [constructor|]. cbn [rtraverse].
  pose proof (H x (or_introl eq_refl)) as X. destruct (f1 x), (f2 x); cbn in X |- *; try contradiction; try exact Logic.I.
  specialize (IH (fun y I => H y (or_intror I))). destruct (rtraverse f1 l), (rtraverse f2 l); cbn; try contradiction; auto.
Qed.

(** Texts of nested types: the same layout, and not empty *)
Definition typed_text (s1 s2 : str) : Prop := laid_out s1 s2 /\ s1 <> [] /\ s2 <> [].
Definition member_text (s1 s2 : str) : Prop := laid_out (nl ++ s1) (nl ++ s2) /\ is_empty s1 = is_empty s2.

Lemma join_types l1 l2 : Forall2 typed_text l1 l2 -> laid_out (join nl l1) (join nl l2) /\ is_empty (join nl l1) = is_empty (join nl l2).
Proof.
  assert (N : forall x (l : list str), x <> [] -> is_empty (join nl (x :: l)) = false).
  { intros [|c x] [|y l] H; try contradiction; reflexivity. }
  induction 1 as [|x1 x2 l1 l2 (L & A & B) H IH]; [split; [constructor|reflexivity]|]. split; [|rewrite !N by assumption; reflexivity].
  destruct H as [|y1 y2 l1 l2 Y H]; [exact L|]. destruct IH as [IH _].
  change (join nl (x1 :: y1 :: l1)) with (x1 ++ nl ++ join nl (y1 :: l1)). change (join nl (x2 :: y2 :: l2)) with (x2 ++ nl ++ join nl (y2 :: l2)).
  apply in_parts; [exact L|]. apply in_parts; [constructor|exact IH].
Qed.
Lemma join_members sep l1 l2 : (exists t, sep = t ++ nl) -> Forall2 member_text l1 l2 -> laid_out (nl ++ join sep l1) (nl ++ join sep l2).
Proof.
  intros [t ->]. induction 1 as [|x1 x2 l1 l2 [L _] H IH]; [constructor|]. destruct H as [|y1 y2 l1 l2 Y H]; [exact L|].
  change (join (t ++ nl) (x1 :: y1 :: l1)) with (x1 ++ (t ++ nl) ++ join (t ++ nl) (y1 :: l1)).
  change (join (t ++ nl) (x2 :: y2 :: l2)) with (x2 ++ (t ++ nl) ++ join (t ++ nl) (y2 :: l2)).
  rewrite <- !(app_assoc t nl). rewrite !(app_assoc nl). apply in_parts; [exact L|]. apply in_parts; [constructor|exact IH].
Qed.
Lemma concat_texts l1 l2 : Forall2 (fun a b => laid_out a b /\ is_empty a = is_empty b) l1 l2 ->
  laid_out (concat l1) (concat l2) /\ is_empty (concat l1) = is_empty (concat l2).
Proof.
  induction 1 as [|x1 x2 l1 l2 [L E] H [IH1 IH2]]; [split; [constructor|reflexivity]|]. cbn [concat]. split; [apply in_parts; assumption|].
  destruct x1, x2; try discriminate; [exact IH2|reflexivity].
Qed.
Lemma nonempty (a b : str) : b <> [] -> a ++ b <> [].
Proof. destruct a; [auto|discriminate]. Qed.
Ltac parts := repeat first [apply same_text | apply in_parts].

Section Layout.
Context (u : uni) (o1 o2 : base_generator).
Context (D : differ_in_layout (base_of u o1) (base_of u o2)) (J1 : o_join o1 = None) (J2 : o_join o2 = None).
Notation b1 := (base_of u o1). Notation b2 := (base_of u o2).
Context (tns xsd : option namespace) (g1 g2 : entity -> res str).
Definition v1 : view := {| v_tns := tns; v_xsd := xsd; v_base := b1; v_gen := g1 |}.
Definition v2 : view := {| v_tns := tns; v_xsd := xsd; v_base := b2; v_gen := g2 |}.
Lemma same_ident n : b_ident v1 n = b_ident v2 n.
Proof. apply (dl_type _ _ D). Qed.
Lemma same_modified n m : b_modify b1 (b_ident v1 n) m = b_modify b2 (b_ident v2 n) m.
Proof. rewrite same_ident. apply (dl_modify _ _ D). Qed.
(** A comment of a member, then more lines *)
Lemma member_comment c t1 t2 : laid_out (nl ++ t1) (nl ++ t2) ->
  laid_out (nl ++ b_comment b1 c (b_indent_size b1) ++ t1) (nl ++ b_comment b2 c (b_indent_size b2) ++ t2).
Proof.
  intros H. pose proof (dl_members _ _ D c) as M.
  assert (K : forall x y, x = [] \/ (exists t, x = t ++ nl) -> laid_out (nl ++ x ++ y) ((nl ++ x) ++ nl ++ y)).
  { intros x y [-> |[t ->]].
    - cbn. apply other_way. change (10%N :: 10%N :: y) with ([10%N; 10%N] ++ y). change (10%N :: y) with ([10%N] ++ y). apply in_parts; [apply empty_line|constructor].
    - rewrite <- !app_assoc. apply in_parts; [constructor|]. apply in_parts; [constructor|]. apply other_way.
      rewrite app_assoc. apply in_parts; [apply empty_line|constructor]. }
  eapply in_steps; [apply K, (dl_lines1 _ _ D)|]. eapply in_steps; [|apply other_way, K, (dl_lines2 _ _ D)]. apply in_parts; assumption.
Qed.
Lemma start t : laid_out (nl ++ b_indent b1 ++ t) (nl ++ b_indent b2 ++ t).
Proof. apply laid_start; [apply (dl_indent1 _ _ D)|apply (dl_indent2 _ _ D)]. Qed.
Lemma line_then i x t1 t2 : x = [] \/ (exists y, x = y ++ nl) -> i = true \/ x = [] -> laid_out (nl ++ t1) (nl ++ t2) ->
  laid_out (nl ++ (if i : bool then b_indent b1 ++ x else x) ++ t1) (nl ++ (if i then b_indent b2 ++ x else x) ++ t2).
Proof.
  intros X I H. destruct i.
  - apply (in_steps _ (nl ++ x ++ t1)).
    + rewrite <- (app_assoc (b_indent b1)), (app_assoc nl (b_indent b1)). apply in_parts; [apply laid_nl_blank, (dl_indent1 _ _ D)|constructor].
    + apply other_way, (in_steps _ (nl ++ x ++ t2)).
      * rewrite <- (app_assoc (b_indent b2)), (app_assoc nl (b_indent b2)). apply in_parts; [apply laid_nl_blank, (dl_indent2 _ _ D)|constructor].
      * destruct X as [-> |[y ->]]; [apply other_way; exact H|]. rewrite <- !app_assoc. apply in_parts; [constructor|]. apply in_parts; [constructor|]. apply other_way. exact H.
  - destruct I as [I|I]; [discriminate|]. subst x. exact H.
Qed.

Lemma layout_field f : results member_text (default_field v1 f) (default_field v2 f).
Proof.
  unfold default_field. cbn [results]. destruct (existsb (modifier_eqb MEmpty) (fl_mods f)); [split; [constructor|reflexivity]|]. split.
  - cbn [v_base v1 v2]. apply member_comment.
    assert (E : forall v, exists i x, (x = [] \/ exists y, x = y ++ nl) /\ (i = true \/ x = []) /\ forall b, b_field_macros {| v_tns := tns; v_xsd := xsd; v_base := b; v_gen := v |} f = (if i : bool then b_indent b ++ x else x)).
    { intros v. unfold b_field_macros. cbn [v_tns v_base]. destruct (fl_source f).
      - unfold yaserde_for_attribute. destruct (split_name (fl_name f)) as [[p|] n].
        + exists true, (lit "#[yaserde(attribute, prefix = """ ++ p ++ lit """, rename = """ ++ n ++ lit """)]" ++ [10%N]).
          split; [right; eexists; rewrite !app_assoc; reflexivity|auto].
        + exists true, (lit "#[yaserde(attribute, rename = """ ++ n ++ lit """)]" ++ [10%N]). split; [right; eexists; rewrite !app_assoc; reflexivity|auto].
      - unfold yaserde_for_element. destruct (match split_name (fl_name f) with (Some p, n) => (Some p, n) | (None, n) => (ns_prefix tns, n) end) as [[p|] n].
        + exists true, (lit "#[yaserde(prefix = """ ++ p ++ lit """, rename = """ ++ n ++ lit """)]" ++ [10%N]).
          split; [right; eexists; rewrite !app_assoc; reflexivity|auto].
        + exists true, (lit "#[yaserde(rename = """ ++ n ++ lit """)]" ++ [10%N]). split; [right; eexists; rewrite !app_assoc; reflexivity|auto].
      - exists false, []. auto.
      - exists true, (lit "#[yaserde(flatten)]" ++ [10%N]). split; [right; eexists; reflexivity|auto].
      - exists false, []. auto. }
    destruct (E g1) as (i & x & A & B & C). unfold v1 at 1. rewrite C.
    assert (C2 : b_field_macros v2 f = (if i then b_indent b2 ++ x else x)) by exact (C b2). rewrite C2.
    apply line_then; [exact A|exact B|]. rewrite (dl_name _ _ D), same_modified. apply start.
  - match goal with |- is_empty ?a = is_empty ?b => assert (a <> [] /\ b <> []) as [X Y] by (split; do 3 apply nonempty; discriminate); destruct a, b; try contradiction; reflexivity end.
Qed.
Lemma layout_case c : results member_text (default_case u v1 c) (default_case u v2 c).
Proof.
  unfold default_case. cbn [results]. split.
  - cbn [v_base v_tns v1 v2]. apply member_comment.
    assert (E : exists i x, (x = [] \/ exists y, x = y ++ nl) /\ (i = true \/ x = []) /\ forall b v, b_case_macros u {| v_tns := tns; v_xsd := xsd; v_base := b; v_gen := v |} c = (if i : bool then b_indent b ++ x else x)).
    { unfold b_case_macros. cbn [v_tns v_base].
      assert (K : exists i x, (x = [] \/ exists y, x = y ++ nl) /\ (i = true \/ x = []) /\ forall (b : base) (v : entity -> res str),
        match split_name (ec_name c) with
        | (Some p, n) => b_indent b ++ lit "#[yaserde(prefix = """ ++ p ++ lit """, rename = """ ++ n ++ lit """)]" ++ nl
        | (None, n) => if str_eqb n (case_name u tns c) then [] else b_indent b ++ lit "#[yaserde(rename = """ ++ n ++ lit """)]" ++ nl
        end = (if i : bool then b_indent b ++ x else x)).
      { destruct (split_name (ec_name c)) as [[p|] n].
        + exists true, (lit "#[yaserde(prefix = """ ++ p ++ lit """, rename = """ ++ n ++ lit """)]" ++ nl). split; [right; eexists; rewrite !app_assoc; reflexivity|auto].
        + destruct (str_eqb n (case_name u tns c)); [exists false, []; auto|].
          exists true, (lit "#[yaserde(rename = """ ++ n ++ lit """)]" ++ nl). split; [right; eexists; rewrite !app_assoc; reflexivity|auto]. }
      destruct (ec_source c); try exact K. exists false, []. auto. }
    destruct E as (i & x & A & B & C). unfold v1, v2 at 1. rewrite !C. apply line_then; [exact A|exact B|].
    assert (T : match ec_type c with Some t => lit "(" ++ b_modify b1 (b_ident v1 t) (ec_mods c) ++ lit ")" | None => [] end =
                match ec_type c with Some t => lit "(" ++ b_modify b2 (b_ident v2 t) (ec_mods c) ++ lit ")" | None => [] end)
      by (destruct (ec_type c); [rewrite same_modified|]; reflexivity).
    unfold v1, v2 in T. rewrite T. apply start.
  - match goal with |- is_empty ?a = is_empty ?b => assert (a <> [] /\ b <> []) as [X Y] by (split; do 5 apply nonempty; discriminate); destruct a, b; try contradiction; reflexivity end.
Qed.
Lemma provided_join o g l : o_join o = None -> b_join (base_of u o) g l = rmap (join nl) (rtraverse g l).
Proof. intros H. unfold base_of. cbn [b_join]. rewrite H. reflexivity. Qed.
Lemma layout_join l : (forall e, In e l -> results typed_text (g1 e) (g2 e)) ->
  results (fun a b => laid_out a b /\ is_empty a = is_empty b) (b_join b1 g1 l) (b_join b2 g2 l).
Proof.
  intros H. rewrite (provided_join _ _ _ J1), (provided_join _ _ _ J2). pose proof (results_rtraverse _ _ _ _ H) as X.
  destruct (rtraverse g1 l), (rtraverse g2 l); cbn in *; try contradiction; auto. apply join_types. exact X.
Qed.
Lemma layout_tuple t : (forall e, In e (tu_subtypes t) -> results typed_text (g1 e) (g2 e)) ->
  results typed_text (default_tuple v1 t) (default_tuple v2 t).
Proof.
  intros H. pose proof (layout_join _ H) as X. unfold default_tuple. cbn [v_base v_gen v1 v2].
  destruct (b_join b1 g1 (tu_subtypes t)), (b_join b2 g2 (tu_subtypes t)); cbn [bind results] in *; try contradiction; auto.
  assert (T : b_tuple_type v1 t = b_tuple_type v2 t) by apply same_modified.
  rewrite T. destruct (rtraverse _ (tu_facets t)); cbn [bind results]; auto. destruct X as [X _].
  split; [|split; apply nonempty; discriminate].
  pose proof (same_ident (tu_name t)) as I. rewrite I. parts; [apply (dl_comment _ _ D)|exact X].
Qed.
Lemma layout_module n fst1 fst2 st1 st2 : laid_out fst1 fst2 -> is_empty fst1 = is_empty fst2 -> laid_out st1 st2 -> is_empty st1 = is_empty st2 ->
  laid_out (b_module b1 n fst1 st1) (b_module b2 n fst2 st2).
Proof.
  intros F EF S ES. unfold b_module. rewrite EF, ES. destruct (negb (is_empty fst2) || negb (is_empty st2)).
  - do 4 (apply in_parts; [constructor|]). assert (A : forall ind1 ind2 t1 t2, Forall blank_char ind1 -> Forall blank_char ind2 -> laid_out t1 t2 -> laid_out (nl ++ ind1 ++ t1) (nl ++ ind2 ++ t2)).
    { intros i1 i2 t1 t2 A B C. rewrite !app_assoc. apply in_parts; [|exact C]. apply (in_steps _ nl); [apply laid_nl_blank; exact A|]. apply other_way, laid_nl_blank. exact B. }
    apply A; [apply (dl_indent1 _ _ D)|apply (dl_indent2 _ _ D)|]. apply in_parts; [constructor|]. apply in_parts; [exact S|]. rewrite !(app_assoc nl (shift _ _)). apply in_parts; [|constructor].
    apply (in_steps _ (nl ++ fst1)); [apply laid_shift, (dl_indent1 _ _ D)|]. apply (in_steps _ (nl ++ fst2)); [apply in_parts; [constructor|exact F]|]. apply other_way, laid_shift, (dl_indent2 _ _ D).
  - parts; assumption.
Qed.
Lemma layout_struct s : (forall e, In e (st_subtypes s) -> results typed_text (g1 e) (g2 e)) ->
  (forall f e, In f (st_fields s) -> In e (fl_subtypes f) -> results typed_text (g1 e) (g2 e)) ->
  (forall f, results member_text (g1 (EField f)) (g2 (EField f))) ->
  results typed_text (default_struct v1 s) (default_struct v2 s).
Proof.
  intros H HF F. unfold default_struct. cbn [v_base v_gen v_tns v1 v2]. rewrite (dl_mod _ _ D). set (m := b_mod b2 (st_name s)).
  pose proof (results_rtraverse member_text (fun f => g1 (EField (prefix_field m f))) (fun f => g2 (EField (prefix_field m f))) (st_fields s) (fun f _ => F _)) as X.
  destruct (rtraverse _ (st_fields s)) as [t1| |], (rtraverse (fun f => g2 (EField (prefix_field m f))) (st_fields s)) as [t2| |]; cbn [bind results] in *; try contradiction; auto.
  pose proof (results_rtraverse _ (fun f => b_join b1 g1 (fl_subtypes f)) (fun f => b_join b2 g2 (fl_subtypes f)) (st_fields s) (fun f I => layout_join _ (fun e J => HF f e I J))) as Y.
  destruct (rtraverse _ (st_fields s)) as [f1| |], (rtraverse (fun f => b_join b2 g2 (fl_subtypes f)) (st_fields s)) as [f2| |]; cbn [bind results] in *; try contradiction; auto.
  pose proof (layout_join _ H) as Z. destruct (b_join b1 g1 (st_subtypes s)) as [s1| |], (b_join b2 g2 (st_subtypes s)) as [s2| |]; cbn [bind results] in *; try contradiction; auto.
  split; [|split; apply nonempty; unfold struct_macros; discriminate].
  pose proof (same_ident (st_name s)) as I. rewrite I. apply concat_texts in Y as [Y1 Y2]. destruct Z as [Z1 Z2].
  apply in_parts; [apply (dl_comment _ _ D)|]. do 4 (apply in_parts; [constructor|]). apply in_parts.
  - assert (W : Forall2 member_text (filter (fun t => negb (is_empty t)) t1) (filter (fun t => negb (is_empty t)) t2)).
    { clear -X. induction X as [|a b l l' [A B] X IH]; [constructor|]. cbn. rewrite B. destruct (negb (is_empty b)); [constructor; [split; assumption|exact IH]|exact IH]. }
    assert (V : Forall (fun t => negb (is_empty t) = true) (filter (fun t => negb (is_empty t)) t2)) by (apply Forall_forall; intros x Q; apply filter_In in Q; apply Q).
    assert (E : is_empty (join (nl ++ nl) (filter (fun t => negb (is_empty t)) t1)) = is_empty (join (nl ++ nl) (filter (fun t => negb (is_empty t)) t2))).
    { destruct W as [|a b l l' [A B] W]; [reflexivity|]. inversion V; subst. destruct b; [discriminate|]. destruct a; [discriminate|]. destruct W; reflexivity. }
    pose proof (join_members (nl ++ nl) _ _ (ex_intro _ nl eq_refl) W) as JM. revert E JM.
    generalize (join (nl ++ nl) (filter (fun t : list N => negb (is_empty t)) t1)) (join (nl ++ nl) (filter (fun t : list N => negb (is_empty t)) t2)). intros j1 j2 E JM.
    rewrite E. destruct (is_empty j2) eqn:Em.
    + destruct j1; [|discriminate]. destruct j2; [constructor|discriminate].
    + rewrite (app_assoc nl j1), (app_assoc nl j2). apply in_parts; [exact JM|constructor].
  - do 5 (apply in_parts; [constructor|]). apply in_parts; [|constructor]. apply layout_module; assumption.
Qed.
Lemma layout_enum e : (forall x, In x (en_subtypes e) -> results typed_text (g1 x) (g2 x)) ->
  (forall c, results member_text (g1 (ECase c)) (g2 (ECase c))) ->
  results typed_text (default_enum v1 e) (default_enum v2 e).
Proof.
  intros H F. unfold default_enum. cbn [v_base v_gen v_tns v1 v2].
  pose proof (results_rtraverse member_text (fun c => g1 (ECase c)) (fun c => g2 (ECase c)) (en_cases e) (fun c _ => F _)) as X.
  destruct (rtraverse _ (en_cases e)) as [t1| |], (rtraverse (fun c => g2 (ECase c)) (en_cases e)) as [t2| |]; cbn [bind results] in *; try contradiction; auto.
  pose proof (layout_join _ H) as Z. destruct (b_join b1 g1 (en_subtypes e)) as [s1| |], (b_join b2 g2 (en_subtypes e)) as [s2| |]; cbn [bind results] in *; try contradiction; auto.
  split; [|split; apply nonempty; unfold enum_macros; destruct (en_source e); discriminate].
  pose proof (same_ident (en_name e)) as I. pose proof (same_ident (en_type e)) as I'. rewrite I, I'. destruct Z as [Z _].
  assert (S : forall t1 t2, laid_out t1 t2 -> laid_out (nl ++ b_indent b1 ++ t1) (nl ++ b_indent b2 ++ t2)).
  { intros x y L. eapply in_steps; [apply start|]. parts. exact L. }
  apply in_parts; [apply (dl_comment _ _ D)|]. do 5 (apply in_parts; [constructor|]).
  rewrite !(app_assoc nl (join nl _)). apply in_parts; [apply join_members; [exists []; reflexivity|exact X]|].
  apply S. do 7 (apply in_parts; [constructor|]). apply in_parts.
  - unfold b_enum_default. do 3 (apply in_parts; [constructor|]). apply S. do 3 (apply in_parts; [constructor|]).
    rewrite (app_assoc (b_indent b1) (b_indent b1)), (app_assoc (b_indent b2) (b_indent b2)). rewrite !(app_assoc nl (_ ++ _)).
    apply in_parts; [|do 1 (apply in_parts; [constructor|]); apply S; constructor].
    apply (in_steps _ nl); [apply laid_nl_blank, Forall_app; split; apply (dl_indent1 _ _ D)|]. apply other_way, laid_nl_blank, Forall_app; split; apply (dl_indent2 _ _ D).
  - parts. exact Z.
Qed.
Lemma layout_alias a : results typed_text (default_alias v1 a) (default_alias v2 a).
Proof.
  unfold default_alias. cbn [v_base results v1 v2]. split; [|split; discriminate].
  pose proof (same_ident (al_name a)) as I. pose proof (same_ident (al_original a)) as I'. rewrite I, I'. parts. apply (dl_comment _ _ D).
Qed.
End Layout.

(** C81: two own base generators that give the same names, types and modules and differ in the
    indentation and the layout of comments make the same code up to the layout, and fail for
    the same entities.  (The text of a field or case by itself begins with its indentation.) *)
Theorem C81_layout : forall u o1 o2 tns xsd n e,
  differ_in_layout (base_of u o1) (base_of u o2) -> o_join o1 = None -> o_join o2 = None -> nested_types e ->
  let text o := generate_with u n (in_file tns xsd (built u [WithBase o])) e in
  results (fun s1 s2 => laid_out (nl ++ s1) (nl ++ s2)) (text o1) (text o2).
Proof.
  intros u o1 o2 tns xsd n e D J1 J2 NT text. subst text. cbv beta.
  set (G := fun n o => generate_with u n (in_file tns xsd (built u [WithBase o]))).
  assert (A : forall n e, nested_types e -> type_kind e -> results typed_text (G n o1 e) (G n o2 e)).
  { clear e NT n. assert (M : forall n f, results member_text (G n o1 (EField f)) (G n o2 (EField f))).
    { intros [|n] f; [exact Logic.I|]. unfold G. rewrite !C72_own. cbv zeta. apply (layout_field u o1 o2 D). }
    assert (C : forall n c, results member_text (G n o1 (ECase c)) (G n o2 (ECase c))).
    { intros [|n] f; [exact Logic.I|]. unfold G. rewrite !C72_own. cbv zeta. apply (layout_case u o1 o2 D). }
    induction n as [|n IH]; intros e NT K; [exact Logic.I|]. unfold G. rewrite !C72_own. cbv zeta.
    destruct NT; cbn [type_kind] in K; try contradiction; cbn [given for_tuple for_struct for_enum for_alias for_import for_base last].
    - apply (layout_tuple u o1 o2 D J1 J2). intros e I. apply IH; [auto|]. rewrite Forall_forall in H. auto.
    - rewrite Forall_forall in H. apply (layout_struct u o1 o2 D J1 J2); [intros e I; apply IH; auto| |apply M].
      intros f e I I'. apply IH; [eauto|]. specialize (H1 f I). rewrite Forall_forall in H1. auto.
    - rewrite Forall_forall in H. apply (layout_enum u o1 o2 D J1 J2); [intros e I; apply IH; auto|apply C].
    - apply (layout_alias u o1 o2 D).
    - cbn. split; [constructor|split; discriminate]. }
  destruct e; try (specialize (A n _ NT Logic.I); unfold G in A; destruct (generate_with u n (in_file tns xsd (built u [WithBase o1])) _), (generate_with u n (in_file tns xsd (built u [WithBase o2])) _); cbn in A |- *; try contradiction; auto; destruct A as [A _]; exact (in_parts nl nl _ _ (same_text _) A)).
  - destruct n as [|n]; [exact Logic.I|]. rewrite !C72_own. cbv zeta. pose proof (layout_field u o1 o2 D tns xsd (generate_with u n (in_file tns xsd (built u [WithBase o1]))) (generate_with u n (in_file tns xsd (built u [WithBase o2]))) f) as L.
    exact (proj1 L).
  - destruct n as [|n]; [exact Logic.I|]. rewrite !C72_own. cbv zeta. pose proof (layout_case u o1 o2 D tns xsd (generate_with u n (in_file tns xsd (built u [WithBase o1]))) (generate_with u n (in_file tns xsd (built u [WithBase o2]))) c) as L.
    exact (proj1 L).
Qed.
Print Assumptions C81_layout.

(** C81: every own method is used as it is, and the others are the documented ones, which are
    not affected by own methods but for the indentation: it has the own size. *)
Theorem C81_methods : forall u o, let b := base_of u o in
  (forall i, o_indent o = Some i -> b_indent b = i) /\
  (forall k, o_indent_size o = Some k -> b_indent_size b = k /\ (o_indent o = None -> b_indent b = repeat 32%N k)) /\
  (o_indent_size o = None -> b_indent_size b = 4 /\ (o_indent o = None -> b_indent b = lit "    ")) /\
  (forall f, o_type o = Some f -> b_type b = f) /\
  (o_type o = None -> forall tns xsd n, b_type b tns xsd n = match match_built_in_type n xsd with Some t => t | None => default_format_type u n tns end) /\
  (forall f, o_name o = Some f -> b_name b = f) /\ (o_name o = None -> forall n, b_name b n = format_name u n) /\
  (forall f, o_comment o = Some f -> b_comment b = f) /\ (o_comment o = None -> forall c i, b_comment b c i = format_comment c 80 i) /\
  (forall f, o_modify o = Some f -> b_modify b = f) /\ (o_modify o = None -> forall t m, b_modify b t m = modify_type t m) /\
  (forall f, o_mod o = Some f -> b_mod b = f) /\ (o_mod o = None -> forall n, b_mod b n = format_name u n) /\
  (forall f, o_join o = Some f -> b_join b = f) /\
  (o_join o = None -> forall g l, (forall e, In e l -> exists s, g e = Ok s) -> exists ss, b_join b g l = Ok (join nl ss) /\ map g l = map Ok ss).
Proof.
  intros u o b. subst b. unfold base_of. destruct o as [i k t n c m mo j]. cbn.
  repeat apply conj; try (intros f ->; reflexivity); try (intros ->; reflexivity); try (intros ->; intros; reflexivity).
  - intros k' ->. split; [reflexivity|]. intros ->. reflexivity.
  - intros ->. split; [reflexivity|]. intros ->. reflexivity.
  - intros -> g l H. cbn. induction l as [|e l IH]; [exists []; split; reflexivity|].
    destruct (H e (or_introl eq_refl)) as [s E]. destruct IH as (ss & J & M); [intros e' I; apply H; right; exact I|].
    cbn. rewrite E. destruct (rtraverse g l) as [r| |] eqn:R; cbn in J; try discriminate. cbn.
    exists (s :: r). split; [reflexivity|]. cbn. f_equal. clear -R. revert r R. induction l as [|e l IH]; intros r R; cbn in R; [injection R as <-; reflexivity|].
    destruct (g e) as [x| |] eqn:E; try discriminate. cbn in R. destruct (rtraverse g l) as [r'| |]; try discriminate. cbn in R. injection R as <-. cbn. rewrite E. f_equal. apply IH. reflexivity.
Qed.
Print Assumptions C81_methods.

(** The base generator with an own [indent] only. *)
Definition own_indent (ind : str) : base_generator :=
  {| o_indent := Some ind; o_indent_size := None; o_type := None; o_name := None; o_comment := None; o_modify := None; o_mod := None; o_join := None |}.
Lemma comment_whole_lines c m i : format_comment c m i = [] \/ exists t, format_comment c m i = t ++ nl.
Proof.
  unfold format_comment. rewrite fold_concat. cbn [app]. set (l := map _ _).
  assert (H : Forall (fun x => exists t, x = t ++ nl) l).
  { unfold l. apply Forall_forall. intros x I. apply in_map_iff in I as (y & <- & _). eexists. reflexivity. }
  clearbody l. induction H as [|x l [t ->] H IH]; [left; reflexivity|]. right. cbn [concat].
  destruct IH as [-> |[t' ->]]; [exists t; rewrite app_nil_r; reflexivity|]. exists ((t ++ nl) ++ t'). rewrite app_assoc. reflexivity.
Qed.
(** C81: an own indentation made of white space changes the layout of the default code only. *)
Theorem C81_indent : forall u ind tns xsd e, Forall blank_char ind -> nested_types e ->
  exists N, forall n, N <= n ->
  results (fun s1 s2 => laid_out (nl ++ s1) (nl ++ s2)) (generate_with u n (in_file tns xsd (built u [WithBase (own_indent ind)])) e) (gen u tns xsd e).
Proof.
  intros u ind tns xsd e B NT. destruct (C72_others u [] tns xsd e) as [N H]; [intros c k []|].
  exists (S N). intros [|n] L; [lia|]. rewrite <- (H (S n)) by lia.
  assert (X : generate_with u (S n) (in_file tns xsd (built u [])) e = generate_with u (S n) (in_file tns xsd (built u [WithBase DefaultBaseGenerator])) e) by reflexivity.
  rewrite X. apply C81_layout; try reflexivity; [|exact NT]. constructor; try reflexivity; cbn.
  - exact B.
  - repeat constructor.
  - intros c. constructor.
  - intros c. constructor.
  - intros c. apply comment_whole_lines.
  - intros c. apply comment_whole_lines.
Qed.
Print Assumptions C81_indent.

(** ** Where the names come from *)
Definition within (m s : str) : Prop := exists p q, s = p ++ m ++ q.
Definition begins (p s : str) : Prop := exists q, s = p ++ q.
Lemma within_app m a s : within m s -> within m (a ++ s).
Proof. intros (p & q & ->). exists (a ++ p), q. rewrite <- app_assoc. reflexivity. Qed.
Ltac skip := match goal with |- within _ (?a ++ ?s) => refine (within_app _ a s _) end.
Lemma within_left m a s : within m a -> within m (a ++ s).
Proof. intros (p & q & ->). exists p, (q ++ s). rewrite <- !app_assoc. reflexivity. Qed.
Lemma within_more m a s : within a s -> within m a -> within m s.
Proof. intros (p & q & ->) H. apply within_app, within_left, H. Qed.
Lemma within_join m sep l x : In x l -> within m x -> within m (join sep l).
Proof.
  induction l as [|y l IH]; intros I W; [destruct I|]. destruct l as [|z l].
  - destruct I as [-> |[]]. exact W.
  - change (join sep (y :: z :: l)) with (y ++ sep ++ join sep (z :: l)). destruct I as [-> |I]; [apply within_left; exact W|]. do 2 apply within_app. auto.
Qed.

(** Chains of calls that give base generators only. *)
Definition base_only (cs : list call) : Prop := forall c, In c cs -> exists b, c = WithBase b.
Lemma base_only_given {A} (pick : call -> option A) cs d : base_only cs -> (forall b, pick (WithBase b) = None) -> last (given pick cs) d = d.
Proof. intros H P. apply given_none. intros c I. destruct (H c I) as [b ->]. apply P. Qed.
Lemma rtraverse_in {A B} (f : A -> res B) l r : rtraverse f l = Ok r -> forall x, In x l -> exists y, f x = Ok y /\ In y r.
Proof.
  revert r. induction l as [|a l IH]; intros r H x I; [destruct I|]. cbn in H. destruct (f a) as [y| |] eqn:E; cbn in H; try discriminate.
  destruct (rtraverse f l) as [r'| |]; cbn in H; try discriminate. injection H as <-. destruct I as [-> |I]; [exists y; split; [exact E|left; reflexivity]|].
  destruct (IH r' eq_refl x I) as (z & Z & J). exists z. split; [exact Z|right; exact J].
Qed.

Lemma ok_inj {A} (x y : A) : Ok x = Ok y -> y = x.
Proof. intros H. injection H as H. symmetry. exact H. Qed.
Section Names.
Context (u : uni) (cs : list call) (BO : base_only cs) (tns xsd : option namespace).
Definition the_base : base := base_of u (last (given for_base cs) DefaultBaseGenerator).
Notation b := the_base.
Notation text := (fun n => generate_with u n (in_file tns xsd (built u cs))).
Lemma plain n e : text (S n) e =
  let v := {| v_tns := tns; v_xsd := xsd; v_base := b; v_gen := text n |} in
  match e with
  | ETuple t => default_tuple v t | EStruct s => default_struct v s | EField f => default_field v f | EEnum x => default_enum v x
  | ECase c => default_case u v c | EAlias a => default_alias v a | EImport i => default_import v i
  end.
Proof.
  cbv beta. rewrite C72_own. cbv zeta. destruct e; match goal with |- last (given ?p cs) ?d _ _ = _ => rewrite (base_only_given p cs d BO) by reflexivity end; reflexivity.
Qed.
Lemma some_text n e s : text n e = Ok s -> type_kind e -> s <> [].
Proof.
  destruct n as [|n]; [discriminate|]. intros H K. pose proof (plain n e) as P. cbv beta zeta in P, H. rewrite P in H. clear P. destruct e; try contradiction.
  - unfold default_struct in H. destruct (rtraverse _ _) as [a| |]; try discriminate. cbn [bind] in H. destruct (rtraverse _ _) as [a'| |]; try discriminate. cbn [bind] in H.
    destruct (b_join _ _ _) as [a''| |]; try discriminate. apply ok_inj in H; subst s. apply nonempty. discriminate.
  - unfold default_tuple in H. destruct (b_join _ _ _) as [a| |]; try discriminate. cbn [bind] in H. destruct (rtraverse _ _) as [a'| |]; try discriminate.
    apply ok_inj in H; subst s. apply nonempty. discriminate.
  - unfold default_enum in H. destruct (rtraverse _ _) as [a| |]; try discriminate. cbn [bind] in H. destruct (b_join _ _ _) as [a'| |]; try discriminate.
    apply ok_inj in H; subst s. apply nonempty. unfold enum_macros. destruct (en_source e); discriminate.
  - apply ok_inj in H; subst s. discriminate.
  - apply ok_inj in H; subst s. discriminate.
Qed.
Definition type_text (name : str) : str := b_type b tns xsd name.
Definition member (f : field entity) (t : str) : str := b_indent b ++ lit "pub " ++ b_name b (fl_name f) ++ lit ": " ++ b_modify b (type_text t) (fl_mods f) ++ lit ",".
Lemma field_text n f s : text (S n) (EField f) = Ok s -> ~ In MEmpty (fl_mods f) ->
  exists q, s = b_comment b (fl_comment f) (b_indent_size b) ++ q ++ member f (fl_type f).
Proof.
  intros H E. pose proof (plain n (EField f)) as P. cbv beta zeta in P, H. rewrite P in H. clear P. unfold default_field in H. destruct (existsb (modifier_eqb MEmpty) (fl_mods f)) eqn:X.
  - apply existsb_exists in X as (m & I & J). destruct m; try discriminate. contradiction.
  - apply ok_inj in H; subst s. cbn [v_base v_tns v_xsd v_gen]. unfold member, type_text. eexists. reflexivity.
Qed.
End Names.

(** C81: with an own base generator, the names of types, members and modules and the comments
    in the code are those the base generator gives. *)
Theorem C81_names : forall u cs tns xsd n e s, base_only cs -> let b := the_base u cs in let type := b_type b tns xsd in
  generate_with u (S (S n)) (in_file tns xsd (built u cs)) e = Ok s ->
  match e with
  | ETuple t => begins (b_comment b (tu_comment t) 0) s /\ within (lit "pub struct " ++ type (tu_name t) ++ lit " (pub " ++ b_modify b (type (tu_type t)) (tu_mods t) ++ lit ");") s /\
      within (lit "impl Validate for " ++ type (tu_name t) ++ lit " {") s
  | EStruct st => begins (b_comment b (st_comment st) 0) s /\ within (lit "pub struct " ++ type (st_name st) ++ lit " {") s /\
      within (lit "impl Validate for " ++ type (st_name st) ++ lit " {}") s /\
      (forall f, In f (st_fields st) -> ~ In MEmpty (fl_mods f) ->
         within (b_comment b (fl_comment f) (b_indent_size b)) s /\
         within (member u cs tns xsd f (if is_empty (fl_subtypes f) then fl_type f else b_mod b (st_name st) ++ lit "::" ++ fl_type f)) s) /\
      (forall x, o_join (last (given for_base cs) DefaultBaseGenerator) = None -> In x (st_subtypes st) \/ (exists f, In f (st_fields st) /\ In x (fl_subtypes f)) -> type_kind x ->
         within (lit "pub mod " ++ b_mod b (st_name st) ++ lit " {" ++ nl ++ b_indent b ++ lit "use super::*;") s)
  | EField f => In MEmpty (fl_mods f) /\ s = [] \/ begins (b_comment b (fl_comment f) (b_indent_size b) ++ b_indent b) s /\ exists q, s = q ++ member u cs tns xsd f (fl_type f)
  | EEnum x => begins (b_comment b (en_comment x) 0) s /\ within (lit "pub enum " ++ type (en_name x) ++ lit " {") s /\
      within (lit "impl Default for " ++ type (en_name x) ++ lit " {" ++ nl ++ b_indent b ++ lit "fn default() -> " ++ type (en_name x) ++ lit " {" ++ nl ++
        b_indent b ++ b_indent b ++ lit "Self::__Unknown__(") s /\ within (lit "impl Validate for " ++ type (en_name x) ++ lit " {}") s /\
      within (b_indent b ++ lit "__Unknown__(" ++ type (en_type x) ++ lit "),") s /\
      (forall c t, In c (en_cases x) -> ec_type c = Some t -> within (lit "(" ++ b_modify b (type t) (ec_mods c) ++ lit "),") s)
  | ECase c => begins (b_comment b (ec_comment c) (b_indent_size b) ++ b_indent b) s
  | EAlias a => begins (lit "//" ++ b_comment b (al_comment a) 0) s /\ within (lit " pub type " ++ type (al_name a) ++ lit " = " ++ type (al_original a) ++ lit ";") s
  | EImport _ => True
  end.
Proof.
  intros u cs tns xsd n e s BO b type H. set (g := fun n => generate_with u n (in_file tns xsd (built u cs))).
  pose proof (plain u cs BO tns xsd (S n) e) as P. cbv beta zeta in P. rewrite P in H. clear P.
  destruct e as [st|f|t|x|c|a|i].
  - unfold default_struct in H. cbn [v_base v_tns v_xsd v_gen] in H.
    destruct (rtraverse _ _) as [texts| |] eqn:T; try discriminate. cbn [bind] in H. destruct (rtraverse (fun f => b_join _ _ (fl_subtypes f)) _) as [fs| |] eqn:F; try discriminate. cbn [bind] in H.
    destruct (b_join _ _ _) as [ss| |] eqn:S; try discriminate. cbn [bind] in H. unfold b_ident in H. cbn [v_base v_tns v_xsd] in H. apply ok_inj in H; subst s.
    fold b in T, F, S |- *. fold type. split; [eexists; reflexivity|]. split.
    { do 2 skip. exists []. eexists. cbn [app]. rewrite <- !app_assoc. reflexivity. }
    split.
    { do 9 skip. exists []. eexists. cbn [app]. unfold gen_validate_impl. cbn [is_empty]. reflexivity. }
    split.
    + intros f I M. destruct (rtraverse_in _ _ _ T f I) as (y & Y & J).
      destruct (field_text u cs BO tns xsd n _ _ Y M) as [q Q]. cbn [fl_comment fl_name fl_type fl_mods prefix_field] in Q.
      assert (Ne : negb (is_empty y) = true) by (rewrite Q; unfold member; destruct (b_comment _ _ _); [destruct q; [destruct (b_indent _)|]|]; reflexivity).
      set (ls := filter (fun t => negb (is_empty t)) texts).
      assert (J' : In y ls) by (apply filter_In; split; assumption).
      assert (W : forall m, within m y -> within m (if is_empty (join (nl ++ nl) ls) then join (nl ++ nl) ls else nl ++ join (nl ++ nl) ls ++ nl)).
      { intros m W. pose proof (within_join m (nl ++ nl) ls y J' W) as K. destruct (is_empty (join (nl ++ nl) ls)); [exact K|]. apply within_app, within_left, K. }
      split; do 5 skip; apply within_left; apply W; subst y.
      * exists []. eexists. reflexivity.
      * exists (b_comment b (fl_comment f) (b_indent_size b) ++ q), []. rewrite app_nil_r, <- app_assoc. unfold b. do 2 f_equal. unfold member. cbn [fl_name fl_mods].
        destruct (is_empty (fl_subtypes f)); reflexivity.
    + intros x J I K. do 11 skip. apply within_left. unfold b_module.
      assert (Ne : negb (is_empty (concat fs)) || negb (is_empty ss) = true).
      { assert (N1 : forall l r, rmap (join nl) (rtraverse (g (Datatypes.S n)) l) = Ok r -> In x l -> r <> []).
        { intros l r R I'. destruct (rtraverse _ l) as [r'| |] eqn:Q; try discriminate. injection R as <-. destruct (rtraverse_in _ _ _ Q x I') as (y & Y & Iy).
          pose proof (some_text u cs BO tns xsd _ _ _ Y K) as Ny. destruct r' as [|z [|z' r']]; [destruct Iy| |].
          - destruct Iy as [-> |[]]. exact Ny.
          - cbn. destruct z; discriminate. }
        assert (Jn : forall l, b_join b (g (Datatypes.S n)) l = rmap (join nl) (rtraverse (g (Datatypes.S n)) l)) by (intros l; apply provided_join; exact J).
        unfold g in Jn. apply orb_true_iff. destruct I as [I|(f & I & I')].
        - right. rewrite Jn in S. pose proof (N1 _ _ S I). destruct ss; [contradiction|reflexivity].
        - left. destruct (rtraverse_in _ _ _ F f I) as (y & Y & Iy). rewrite Jn in Y. pose proof (N1 _ _ Y I') as Ny.
          destruct (concat fs) as [|] eqn:Q; [|reflexivity]. exfalso. apply Ny. apply in_split in Iy as (l1 & l2 & ->). rewrite concat_app in Q. cbn in Q.
          apply app_eq_nil in Q as [_ Q]. apply app_eq_nil in Q. apply Q. }
      rewrite Ne. exists nl. eexists. rewrite <- !app_assoc. reflexivity.
  - unfold default_field in H. destruct (existsb (modifier_eqb MEmpty) (fl_mods f)) eqn:X.
    + left. apply ok_inj in H; subst s. split; [|reflexivity]. apply existsb_exists in X as (m & I & J). destruct m; try discriminate. exact I.
    + right. apply ok_inj in H; subst s. cbn [v_base v_tns v_xsd v_gen]. split.
      { unfold begins, b_field_macros. cbn [v_base v_tns]. fold b. destruct (fl_source f); unfold yaserde_for_attribute, yaserde_for_element, yaserde_for_flatten_element;
          unfold ns_prefix; try destruct (split_name _) as [[|] ?]; try destruct tns as [t|]; try destruct (ns_name t); eexists; rewrite <- !app_assoc; reflexivity. }
      unfold member, type_text, b_ident. cbn [v_base v_tns v_xsd].
      eexists. rewrite app_assoc. reflexivity.
  - unfold default_tuple in H. cbn [v_base v_tns v_xsd v_gen] in H. destruct (b_join _ _ _) as [ss| |]; try discriminate. cbn [bind] in H.
    destruct (rtraverse _ _) as [cks| |]; try discriminate. cbn [bind] in H. unfold b_tuple_type, b_ident in H. cbn [v_base v_tns v_xsd] in H. apply ok_inj in H; subst s.
    fold b. fold type. split; [eexists; reflexivity|]. split.
    + do 3 skip. exists []. eexists. cbn [app]. rewrite <- !app_assoc. reflexivity.
    + do 11 skip. apply within_left. unfold gen_validate_impl. destruct (is_empty _).
      * exists [], (lit "}"). cbn [app]. rewrite <- !app_assoc. reflexivity.
      * exists []. eexists. cbn [app]. rewrite <- !app_assoc. reflexivity.
  - unfold default_enum in H. cbn [v_base v_tns v_xsd v_gen] in H. destruct (rtraverse _ _) as [cases| |] eqn:T; try discriminate. cbn [bind] in H.
    destruct (b_join _ _ _) as [ss| |]; try discriminate. cbn [bind] in H. unfold b_ident in H. cbn [v_base v_tns v_xsd] in H. apply ok_inj in H; subst s. fold b. fold type.
    split; [eexists; reflexivity|]. split; [|split; [|split; [|split]]].
    + do 3 skip. exists []. eexists. cbn [app]. rewrite <- !app_assoc. reflexivity.
    + do 17 skip. apply within_left. unfold b_enum_default. exists []. eexists. cbn [app]. rewrite <- !app_assoc. reflexivity.
    + do 20 skip. apply within_left. unfold gen_validate_impl. cbn [is_empty]. exists []. eexists. cbn [app]. rewrite app_nil_r. reflexivity.
    + do 9 skip. exists []. eexists. cbn [app]. rewrite <- !app_assoc. reflexivity.
    + intros c t I E. destruct (rtraverse_in _ _ _ T c I) as (y & Y & J). do 7 skip. apply within_left. apply (within_join _ _ _ y J).
      pose proof (plain u cs BO tns xsd n (ECase c)) as P. cbv beta zeta in P. rewrite P in Y. unfold default_case in Y. rewrite E in Y.
      cbn [v_base v_tns v_xsd] in Y. unfold b_ident in Y. cbn [v_base v_tns v_xsd] in Y. apply ok_inj in Y; subst y. fold b. fold type. do 4 skip.
      exists [], []. cbn [app]. rewrite app_nil_r, <- !app_assoc. reflexivity.
  - apply ok_inj in H; subst s. cbn [v_base v_tns]. fold b. unfold begins, b_case_macros. cbn [v_base v_tns].
    destruct (ec_source c); try destruct (split_name _) as [[|] ?]; try destruct (str_eqb _ _); eexists; rewrite <- !app_assoc; reflexivity.
  - unfold default_alias, b_ident in H. cbn [v_base v_tns v_xsd] in H. apply ok_inj in H; subst s. fold b. fold type. split.
    + eexists. rewrite <- app_assoc. reflexivity.
    + do 2 skip. exists [], nl. cbn [app]. rewrite <- !app_assoc. reflexivity.
  - exact Logic.I.
Qed.
Print Assumptions C81_names.

(** ** Names that are not those of the base generator *)
Fixpoint findb (m s : str) : bool := Str.starts_with m s || match s with [] => false | _ :: s' => findb m s' end.
Lemma findb_within m s : within m s <-> findb m s = true.
Proof.
  split; [|induction s as [|c s IH]; cbn [findb]; intros H; apply orb_true_iff in H as [H|H]; try discriminate;
    [apply starts_iff in H as [q ->]; exists [], q; reflexivity|apply starts_iff in H as [q ->]; exists [], q; reflexivity|
     destruct (IH H) as (p & q & ->); exists (c :: p), q; reflexivity]].
  intros (p & q & ->). induction p as [|c p IH]; cbn [app].
  - assert (P : Str.starts_with m (m ++ q) = true) by (apply starts_iff; exists q; reflexivity).
    destruct (m ++ q); cbn [findb]; rewrite P; reflexivity.
  - cbn [findb]. rewrite IH. apply orb_true_r.
Qed.
(** Own names for types. *)
Definition own_types (f : option namespace -> option namespace -> str -> str) : base_generator :=
  {| o_indent := None; o_indent_size := None; o_type := Some f; o_name := None; o_comment := None; o_modify := None; o_mod := None; o_join := None |}.
(** A prefix for all types that are not built in. *)
Definition my_types (tns xsd : option namespace) (n : str) : str :=
  match match_built_in_type n xsd with Some t => t | None => lit "My" ++ format_type_name u2 n xsd tns end.
Definition order_with_code : strukt entity :=
  {| st_name := lit "order"; st_comment := Some (lit "An order"); st_groups := []; st_subtypes := [];
     st_fields := [{| fl_name := lit "code"; fl_type := lit "CodeType"; fl_comment := None; fl_subtypes := [tup "CodeType" "xs:int" []];
                      fl_source := FromElement; fl_mods := [] |}] |}.
Definition xs_ns : option namespace := Some {| ns_name := Some (lit "xs"); ns_uri := lit "http://www.w3.org/2001/XMLSchema" |}.

Definition order_text : str := lit "// An order
#[derive(Default, Clone, PartialEq, Debug, YaSerialize, YaDeserialize)]
#[yaserde()]
pub struct MyOrder {
    #[yaserde(rename = ""code"")]
    pub code: Myorder::CodeType,
}

impl Validate for MyOrder {}

pub mod order {
    use super::*;
    
    #[derive(Default, Clone, PartialEq, Debug, UtilsTupleIo, UtilsDefaultSerde)]
    pub struct MyCodeType (pub i32);

    impl Validate for MyCodeType {}

}

".
Example C81_ex1 : generate_with u2 4 (in_file None xs_ns (built u2 [WithBase (own_types my_types)])) (EStruct order_with_code) = Ok order_text.
Proof. vm_compute. reflexivity. Qed.

(** C81, refuted for anonymous types of members: with own names for types, the type of a member
    is not referred to by the name under which it is defined in the module of the struct, as
    the base generator is asked for the name of the whole path. *)
Theorem C81_nested_refuted :
  ~ forall u f tns xsd n st fd t s, In fd (st_fields st) -> fl_subtypes fd = [ETuple t] -> tu_name t = fl_type fd -> fl_mods fd = [] ->
    let b := the_base u [WithBase (own_types f)] in
    generate_with u n (in_file tns xsd (built u [WithBase (own_types f)])) (EStruct st) = Ok s ->
    within (lit "pub struct " ++ f tns xsd (tu_name t)) s ->
    within (lit ": " ++ b_mod b (st_name st) ++ lit "::" ++ f tns xsd (tu_name t) ++ lit ",") s.
Proof.
  intros H. pose proof (H u2 my_types None xs_ns 4%nat order_with_code _ _ _ (or_introl eq_refl) eq_refl eq_refl eq_refl C81_ex1) as G.
  assert (W : within (lit "pub struct MyCodeType") order_text).
  { apply findb_within. vm_compute. reflexivity. }
  apply findb_within in G; [vm_compute in G; discriminate|exact W].
Qed.
Print Assumptions C81_nested_refuted.

(** C81, refuted for the cases of enums: they are named by [default_format_type] whatever the
    base generator. *)
Theorem C81_cases_refuted :
  ~ forall u f tns xsd n c s, ec_type c = None ->
    generate_with u (S n) (in_file tns xsd (built u [WithBase (own_types f)])) (ECase c) = Ok s ->
    within (b_indent (the_base u [WithBase (own_types f)]) ++ f tns xsd (ec_name c) ++ lit ",") s.
Proof.
  intros H. assert (G : within (lit "    MyDarkRed,") (lit "    #[yaserde(rename = ""dark-red"")]
    DarkRed,")).
  { apply (H u2 my_types None xs_ns 3%nat {| ec_name := lit "dark-red"; ec_comment := None; ec_value := lit "dark-red"; ec_type := None; ec_mods := []; ec_source := OfRestriction |}); vm_compute; reflexivity. }
  apply findb_within in G. vm_compute in G. discriminate.
Qed.
Print Assumptions C81_cases_refuted.

(** Tabs: the premises of [C81_indent] hold, and the text differs in the tabs only. *)
Example C81_ex2 : Forall blank_char [9%N] /\ nested_types (EStruct order_with_code) /\
  exists s, generate_with u2 4 (in_file None xs_ns (built u2 [WithBase (own_indent [9%N])])) (EStruct order_with_code) = Ok s /\
  findb ([10; 9]%N ++ lit "pub code: order::CodeType,") s = true /\ Ok s <> gen u2 None xs_ns (EStruct order_with_code).
Proof.
  split; [constructor; [right; reflexivity|constructor]|]. split.
  { apply nt_struct; cbn.
    - constructor.
    - intros e [].
    - intros f [<-|[]]. repeat constructor.
    - intros f e [<-|[]] [<-|[]]. apply nt_tuple; [constructor|intros e []]. }
  eexists. split; [vm_compute; reflexivity|]. split; [vm_compute; reflexivity|]. vm_compute. discriminate.
Qed.
(** The layout does not hide anything else. *)
Lemma laid_out_rest a b : laid_out a b -> filter (fun c => negb (existsb (N.eqb c) [9; 10; 32]%N)) a = filter (fun c => negb (existsb (N.eqb c) [9; 10; 32]%N)) b.
Proof.
  induction 1; try congruence.
  - rewrite !filter_app. congruence.
  - destruct H as [-> | ->]; reflexivity.
  - reflexivity.
Qed.
Example C81_ex3 : ~ laid_out (lit "pub a: u8") (lit "pub b: u8").
Proof. intros H. apply laid_out_rest in H. vm_compute in H. discriminate. Qed.
