(** Proofs about scopes: the types mentioned by generated code are introduced by it. *)
From Coq Require Import Arith NArith ZArith Bool Ascii String List Lia.
From Verif Require Import Str StrFacts SpecLex SpecNames SpecBuiltin SpecSerde SerdeProofs Xml Comment CommentProofs Names NamesProofs Entity Parser ParserFacts SpecSchema ParserProofs Link SpecLink LinkProofs Gen SpecRust SpecGen RustFacts GenProofs GenProofs2 SpecDoc DocProofs SpecScope.
Import ListNotations.
Local Open Scope string_scope.
Local Open Scope list_scope.
Local Open Scope N_scope.
Notation concat := List.concat.
Arguments lit : simpl never.

(** ** Names *)
Section Names.
Context (u : uni) (tns xsd : option namespace).
Notation tid := (fun q => format_type_name u q xsd tns).
Notation ty := (SpecGen.ty u tid).

Definition simple (q : str) : Prop := letter_first q /\ ~ In 58 q.
(** A name that is not taken for a built-in type. *)
Definition own_name (q : str) : Prop := simple q /\ match_built_in_type q xsd = None.
Lemma simple_unqualified q : simple q -> qualified q None q.
Proof. intros [_ N]. split; auto. Qed.
Lemma own_text q : own_name q -> tid q = sanitize u (pascal_name u q).
Proof. intros [S B]. apply (format_type_own u q None q); auto. apply simple_unqualified; auto. Qed.
Lemma pascal_first c s : letter c -> exists t, pascal_name u (c :: s) = to_ascii_uppercase c :: t.
Proof.
  intros L. destruct (pascal_word_start u [] c s) as (P & Q & E & EP); auto; [intros x []|]. cbn [app] in E.
  destruct P as [|x P]; [exists Q; exact E|]. exfalso.
  assert (A : alnum x) by (apply (proj1 (pascal_name_alnum u (c :: s))); rewrite E; left; auto).
  assert (X : alnumb x = true) by (apply alnumb_iff; auto). unfold letters in EP. cbn [filter] in EP. rewrite X in EP. discriminate.
Qed.
Lemma pascal_nonempty q : letter_first q -> pascal_name u q <> [].
Proof. intros (c & s & -> & L). destruct (pascal_first c s L) as (t & ->). discriminate. Qed.
Lemma word_nonempty w : w <> [] -> word w = [TWord w].
Proof. destruct w; [contradiction|reflexivity]. Qed.
Lemma pascal_token q : letter_first q -> lexemes u (sanitize u (pascal_name u q)) = [TWord (sanitize u (pascal_name u q))].
Proof.
  intros L. rewrite (opened_lexemes u _ (word (sanitize u (pascal_name u q)))).
  - apply word_nonempty. pose proof (pascal_nonempty q L) as N. destruct (pascal_name u q) as [|c s]; [contradiction|]. unfold sanitize. destruct (_ || _); discriminate.
  - apply opened_word, sanitize_word, pascal_word.
Qed.
Lemma own_token q : own_name q -> exists w, ty q = [TWord w].
Proof. intros O. unfold SpecGen.ty. rewrite (own_text q O). eexists. apply pascal_token. apply O. Qed.

(** A name whose Rust text needs no escape. *)
Definition nested_name (q : str) : Prop := own_name q /\ forall r, tid q <> 95 :: r.

Lemma capital_keyword k : In k rs_keywords -> forall c t, k = c :: t -> 65 <= c <= 90 -> letters k = lit "self".
Proof.
  intros I c t E C. assert (X : forallb (fun k => match k with c :: _ => negb ((65 <=? c) && (c <=? 90)) || str_eqb (letters k) (lit "self") | [] => true end) rs_keywords = true) by (vm_compute; reflexivity).
  rewrite forallb_forall in X. apply X in I. subst k. apply orb_true_iff in I as [I|I]; [lia|]. apply str_eqb_eq. auto.
Qed.
Lemma suffix_not_self a s t x : letters s = t ++ [x] -> x <> 102 -> letters (a ++ s) <> lit "self".
Proof. intros E N H. rewrite letters_app, E, app_assoc in H. change (lit "self") with (lit "sel" ++ [102]) in H. apply app_inj_tail in H as [_ H]. auto. Qed.
Lemma nested_of q : own_name q -> letters q <> lit "self" -> nested_name q.
Proof.
  intros O N. split; auto. intros r E. rewrite (own_text q O) in E. destruct O as [[(c & s & -> & L) _] _]. destruct (pascal_first c s L) as (t & P).
  assert (U : 65 <= to_ascii_uppercase c <= 90).
  { unfold to_ascii_uppercase, is_ascii_lower. unfold letter, lower, upper in L. destruct ((97 <=? c) && (c <=? 122)) eqn:X; lia. }
  destruct (pascal_name_alnum u (c :: s)) as [_ Le]. rewrite P in *. unfold sanitize in E.
  rewrite numeric_ascii in E by lia. assert (D : is_ascii_digit (to_ascii_uppercase c) = false) by (unfold is_ascii_digit; lia). rewrite D in E. cbn [orb] in E.
  destruct (existsb (str_eqb (to_ascii_uppercase c :: t)) rs_keywords) eqn:X.
  - apply existsb_exists in X as (k & I & X). apply str_eqb_eq in X. subst k. apply N. rewrite <- Le. eapply capital_keyword; eauto.
  - injection E as E _. lia.
Qed.

(** Names made from others. *)
Lemma letter_first_app a b : letter_first a -> letter_first (a ++ b).
Proof. intros (c & t & -> & L). exists c, (t ++ b). auto. Qed.
Lemma simple_app a b : simple a -> ~ In 58 b -> simple (a ++ b).
Proof. intros [L N] M. split; [apply letter_first_app; auto|]. intros I. apply in_app_or in I as [I|I]; auto. Qed.
Definition no_colon (s : str) : bool := forallb (fun c => negb (c =? 58)) s.
Lemma no_colon_ok s : no_colon s = true -> ~ In 58 s.
Proof. unfold no_colon. rewrite forallb_forall. intros H I. apply H in I. discriminate. Qed.
Lemma own_of q : simple q -> (ns_prefix xsd = None -> ~ builtin_name q) -> own_name q.
Proof. intros S B. split; auto. apply (built_in_none q None q xsd (simple_unqualified q S)). intros [E I]. apply B; auto. Qed.
Lemma builtin_check (p : str -> bool) q : forallb p (map fst xsd_builtins) = true -> p q = false -> ~ builtin_name q.
Proof. intros F E I. unfold builtin_name in I. rewrite forallb_forall in F. apply F in I. congruence. Qed.
Lemma rev_check a s : forallb (fun k => negb (str_eqb (firstn (List.length (lit s)) (rev k)) (rev (lit s)))) (map fst xsd_builtins) = true -> ~ builtin_name (a ++ lit s).
Proof.
  intros F I. unfold builtin_name in I. rewrite forallb_forall in F. apply F in I. rewrite rev_app_distr in I.
  rewrite firstn_app in I. rewrite <- (rev_length (lit s)) in I at 1. rewrite firstn_all in I. rewrite rev_length, Nat.sub_diag in I. cbn [firstn] in I. rewrite app_nil_r, str_eqb_refl in I. discriminate.
Qed.
Lemma choice_name P : simple P -> nested_name (P ++ lit "Choice").
Proof.
  intros S. apply nested_of.
  - apply own_of; [apply simple_app; auto; apply no_colon_ok; reflexivity|]. intros _. apply rev_check. vm_compute. reflexivity.
  - apply (suffix_not_self P (lit "Choice") (lit "choic") 101); [reflexivity|discriminate].
Qed.
Lemma enum_name P : simple P -> own_name (P ++ lit "Enum").
Proof. intros S. apply own_of; [apply simple_app; auto; apply no_colon_ok; reflexivity|]. intros _. apply rev_check. vm_compute. reflexivity. Qed.
Lemma type_name_nested nm : clear_name u (ns_prefix tns) (ns_prefix xsd) nm -> nested_name (nm ++ lit "Type").
Proof.
  intros (L & N & B & _). apply nested_of.
  - apply own_of; [apply simple_app; [split; auto|apply no_colon_ok; reflexivity]|]. intros E. apply B. auto.
  - apply (suffix_not_self nm (lit "Type") (lit "typ") 101); [reflexivity|discriminate].
Qed.
Lemma case_name i : own_name (lit "EnumCaseType_" ++ dec i).
Proof.
  apply own_of.
  - apply simple_app; [split; [exists 69, (lit "numCaseType_"); split; [reflexivity|right; unfold upper; lia]|apply no_colon_ok; reflexivity]|].
    intros I. pose proof (dec_digits i) as D. rewrite forallb_forall in D. apply D in I. discriminate.
  - intros _. apply builtin_check with (p := fun k => negb (existsb (N.eqb 95) k)); [vm_compute; reflexivity|].
    apply negb_false_iff, existsb_exists. exists 95. split; [|reflexivity]. apply in_or_app. left. change (lit "EnumCaseType_") with (lit "EnumCaseType" ++ [95]). apply in_or_app. right. left. auto.
Qed.
Lemma clear_simple nm : clear_name u (ns_prefix tns) (ns_prefix xsd) nm -> simple nm.
Proof. intros (L & N & _). split; auto. Qed.
Lemma clear_own nm : clear_name u (ns_prefix tns) (ns_prefix xsd) nm -> own_name nm.
Proof. intros (L & N & B & _). apply own_of; [split; auto|]. intros E. apply B. auto. Qed.

(** A name that can name a module. *)
Definition M (nm : str) : Prop := format_name u nm <> [] /\ ns_prefix tns <> Some (format_name u nm).
Lemma module_nonempty nm : simple nm -> format_name u nm <> [].
Proof.
  intros [(c & t & -> & L) N] E. assert (Lo : local (c :: t) (c :: t)) by (split; auto). apply (proj1 (format_name_empty u _ _ Lo)) with (c := c) in E; [|left; auto].
  rewrite alnum_ascii in E by (unfold letter, lower, upper in L; lia). assert (X : alnumb c = true) by (apply alnumb_iff; left; auto). congruence.
Qed.
Lemma clear_M nm : clear_name u (ns_prefix tns) (ns_prefix xsd) nm -> M nm /\ M (nm ++ lit "Type").
Proof.
  intros C. assert (S := clear_simple nm C). destruct C as (L & N & B & X & Y). split; (split; [|auto]); apply module_nonempty; auto.
  apply simple_app; auto. apply no_colon_ok. reflexivity.
Qed.
End Names.

(** ** Entities whose types are known or in scope *)
Fixpoint here (e : entity) : list str :=
  match e with
  | EStruct s => [st_name s]
  | ETuple t => tu_name t :: concat (map here (tu_subtypes t))
  | EEnum n => en_name n :: concat (map here (en_subtypes n))
  | _ => []
  end.
Notation heres l := (concat (map here l)).

Section Scope.
Context (u : uni) (tns xsd : option namespace) (K : str -> Prop).
Notation tid := (fun q => format_type_name u q xsd tns).
Notation ty := (SpecGen.ty u tid).
Notation own_name := (own_name xsd).
Notation nested_name := (nested_name u tns xsd).
Notation M := (M u tns).

Definition okr (sc : list str) (q : str) : Prop := K q \/ In q sc /\ own_name q.
Definition flat_fields (e : entity) : Prop := match e with EStruct s => M (st_name s) \/ Forall (fun f => fl_subtypes f = []) (st_fields s) | _ => True end.
Definition struct_named (e : entity) : Prop := match e with EStruct s => M (st_name s) | _ => True end.
Inductive lu (sc : list str) : entity -> Prop :=
| lu_struct s : st_subtypes s = [] -> Forall (lf sc) (st_fields s) -> lu sc (EStruct s)
| lu_tuple t : okr (heres (tu_subtypes t) ++ sc) (tu_type t) -> ~ In MEmpty (tu_mods t) -> Forall (lu (heres (tu_subtypes t) ++ sc)) (tu_subtypes t) ->
    Forall flat_fields (tu_subtypes t) -> lu sc (ETuple t)
| lu_enum n : okr (heres (en_subtypes n) ++ sc) (en_type n) ->
    Forall (fun c => forall t, ec_type c = Some t -> okr (heres (en_subtypes n) ++ sc) t /\ ~ In MEmpty (ec_mods c)) (en_cases n) ->
    Forall (lu (heres (en_subtypes n) ++ sc)) (en_subtypes n) -> Forall flat_fields (en_subtypes n) -> lu sc (EEnum n)
| lu_alias a : okr sc (al_original a) -> lu sc (EAlias a)
| lu_import i : lu sc (EImport i)
with lf (sc : list str) : field entity -> Prop :=
| lf_plain f : fl_subtypes f = [] -> okr sc (fl_type f) -> lf sc f
| lf_nested f x : fl_subtypes f = [x] -> typelike x -> entity_name x = fl_type f -> nested_name (fl_type f) -> struct_named x -> lu sc x -> lf sc f.

Lemma okr_mono sc sc' q : incl sc sc' -> okr sc q -> okr sc' q.
Proof. intros I [H|[H O]]; [left; auto|right; auto]. Qed.
Lemma lu_mono e : forall sc sc', incl sc sc' -> lu sc e -> lu sc' e.
Proof.
  induction e as [s IHf IHs|t IH|n IH|f|c|a|i] using entity_sub_ind; intros sc sc' I D; inversion D; subst.
  - constructor; auto. apply Forall_forall. intros f If. match goal with X : Forall _ (st_fields s) |- _ => rewrite Forall_forall in X; specialize (X f If); inversion X; subst end.
    + apply lf_plain; auto. eapply okr_mono; eauto.
    + eapply lf_nested; eauto. eapply IHf; eauto. match goal with X : fl_subtypes f = _ |- _ => rewrite X end. left. auto.
  - assert (J : incl (heres (tu_subtypes t) ++ sc) (heres (tu_subtypes t) ++ sc')) by (apply incl_app; [apply incl_appl, incl_refl|apply incl_appr; auto]).
    constructor; auto; [eapply okr_mono; eauto|]. apply Forall_forall. intros e Ie. match goal with X : Forall (lu _) _ |- _ => rewrite Forall_forall in X end. eauto.
  - assert (J : incl (heres (en_subtypes n) ++ sc) (heres (en_subtypes n) ++ sc')) by (apply incl_app; [apply incl_appl, incl_refl|apply incl_appr; auto]).
    constructor; auto; [eapply okr_mono; eauto| |].
    + match goal with X : Forall _ (en_cases n) |- _ => eapply Forall_impl; [|exact X] end. cbn. intros c Hc t Ht. destruct (Hc t Ht). split; auto. eapply okr_mono; eauto.
    + apply Forall_forall. intros e Ie. match goal with X : Forall (lu _) _ |- _ => rewrite Forall_forall in X end. eauto.
  - constructor. eapply okr_mono; eauto.
  - constructor.
Qed.

(** ** The generated code *)
Section Generated.
Context (nss : list namespace) (D : list (list str * list token)).
Notation items := (items u tns tid (format_name u) (variant_name u tns)).
Notation all_items := (all_items u tns tid (format_name u) (variant_name u tns)).
Notation resolves := (resolves u nss (ns_prefix tns) (ns_prefix xsd) D).
Context (HK : forall q, K q -> forall path, resolves path (ty q)).

Lemma in_intro_concat path its (i : item) x : In i its -> In x (introduces path i) -> In x (concat (map (introduces path) its)).
Proof. intros I J. apply in_concat. eexists. split; [apply in_map; exact I|auto]. Qed.
Lemma here_list l : (forall e, In e l -> forall its path q, items e its -> In q (here e) -> In (path, ty q) (concat (map (introduces path) its))) ->
  forall its path q, all_items l its -> In q (heres l) -> In (path, ty q) (concat (map (introduces path) its)).
Proof.
  intros H its path q A. revert q. induction A as [|e l a b A1 A2 IH]; intros q I; [destruct I|]. rewrite map_app, concat_app. cbn [map List.concat] in I. apply in_or_app.
  apply in_app_or in I as [I|I]; [left; eapply H; eauto; left; auto|right; apply IH; auto; intros; eapply H; eauto; right; auto].
Qed.
Lemma here_introduced e : forall its path q, items e its -> In q (here e) -> In (path, ty q) (concat (map (introduces path) its)).
Proof.
  induction e as [s IHf IHs|t IH|n IH|f|c|a|i] using entity_sub_ind; intros its path q A I; inversion A; subst; try destruct I.
  - subst q. eapply in_intro_concat; [left; reflexivity|left; reflexivity].
  - destruct H.
  - subst q. eapply in_intro_concat; [left; reflexivity|left; reflexivity].
  - rewrite !map_app, !concat_app. apply in_or_app. right. apply in_or_app. left. eapply here_list; eauto.
  - subst q. eapply in_intro_concat; [left; reflexivity|left; reflexivity].
  - rewrite !map_app, !concat_app. apply in_or_app. right. eapply here_list; eauto.
Qed.

Definition vis (path : list str) (q : str) : Prop := exists p r, path = p ++ r /\ In (p, ty q) D.
Lemma vis_inner path m q : vis path q -> vis (path ++ [m]) q.
Proof. intros (p & r & -> & I). exists p, (r ++ [m]). rewrite app_assoc. auto. Qed.
Lemma okr_resolves sc path q : (forall x, In x sc -> vis path x) -> okr sc q -> resolves path (ty q).
Proof.
  intros V [H|[I O]]; [apply HK; auto|]. destruct (V q I) as (p & r & E & J). destruct (own_token u tns xsd q O) as (w & W).
  exists (ty q). split; [constructor|]. right. right. rewrite W in *. eapply scope_above; eauto.
Qed.
Lemma within_modified t c ms : within u t c -> ~ In MEmpty ms -> within u (modified u t ms) c.
Proof.
  intros W N. unfold modified. rewrite (not_in_existsb _ _ N). destruct (existsb _ ms); [constructor; auto|]. clear N. revert t W.
  induction ms as [|m ms IH]; intros t W; cbn [fold_left]; auto. apply IH. destruct m; cbn; auto; constructor; auto.
Qed.
Lemma resolves_modified path t ms : ~ In MEmpty ms -> resolves path t -> resolves path (modified u t ms).
Proof. intros N (c & W & H). exists c. split; auto. apply within_modified; auto. Qed.

Definition G (e : entity) : Prop := forall sc path its, items e its -> incl (concat (map (introduces path) its)) D -> lu sc e -> flat_fields e ->
  (forall q, In q sc -> vis path q) -> forall P t, In (P, t) (concat (map (mentions path) its)) -> resolves P t.
Lemma G_list l : (forall e, In e l -> G e) -> forall sc path its, all_items l its -> incl (concat (map (introduces path) its)) D ->
  Forall (lu sc) l -> Forall flat_fields l -> (forall q, In q sc -> vis path q) -> forall P t, In (P, t) (concat (map (mentions path) its)) -> resolves P t.
Proof.
  intros H sc path its A. induction A as [|e l a b A1 A2 IH]; intros J L F V P t I; [destruct I|]. rewrite map_app, concat_app in *. inversion L; subst. inversion F; subst.
  apply in_app_or in I as [I|I].
  - eapply (H e); eauto; [left; auto|]. intros x X. apply J. apply in_or_app. auto.
  - eapply IH; eauto; [intros; apply H; right; auto|]. intros x X. apply J. apply in_or_app. auto.
Qed.
Lemma nested_nil s : st_subtypes s = [] -> forall e, In e (nested s) <-> exists f, In f (st_fields s) /\ In e (fl_subtypes f).
Proof.
  intros E e. unfold nested. rewrite E. cbn [app]. rewrite in_concat. split.
  - intros (l & I & J). apply in_map_iff in I as (f & <- & I). eauto.
  - intros (f & I & J). exists (fl_subtypes f). split; auto. apply in_map. auto.
Qed.
Lemma named_here e : typelike e -> In (entity_name e) (here e).
Proof. destruct e; cbn; intros []; left; auto. Qed.
Lemma G_all e : G e.
Proof.
  induction e as [s IHf IHs|t IH|n IH|f|c|a|i] using entity_sub_ind; intros sc path its A J L F V P q I; inversion A as [s' inner AI|t' inner ks AI FC|n' inner AI|a' ND|a' ND|i']; subst; try (inversion L; fail).
  - inversion L as [s' E LF| | | |]; subst. rewrite !map_app, !concat_app in *. apply in_app_or in I as [I|I].
    + cbn in I. rewrite !app_nil_r in I. apply in_map_iff in I as (m & [= <- <-] & I). unfold members in I. apply in_map_iff in I as (f & <- & I). apply filter_In in I as [I Em]. apply negb_true_iff in Em. assert (NE : ~ In MEmpty (fl_mods f)) by (intros X; enough (existsb (modifier_eqb MEmpty) (fl_mods f) = true) by congruence; apply existsb_exists; exists MEmpty; auto).
      rewrite Forall_forall in LF. assert (Lf := LF f I). inversion Lf as [f' Ef O|f' x Ef Tx Ex Nx Sx Lx]; subst.
      * cbn [member rf_type]. rewrite Ef. apply resolves_modified; auto. eapply okr_resolves; eauto.
      * assert (Mn : M (st_name s)). { destruct F as [F|F]; auto. rewrite Forall_forall in F. rewrite (F f I) in Ef. discriminate. }
        destruct Mn as [Ne Np]. destruct Nx as [Ox Ux]. destruct (own_token u tns xsd _ Ox) as (w & W). destruct Ox as [[_ Cx] Bx].
        cbn [member rf_type]. rewrite Ef. rewrite (nested_ty u tns xsd (st_name s) (fl_type f)); auto.
        2:{ intros [X Y]. apply (built_in_none (fl_type f) None (fl_type f) xsd) in Bx; [|split; auto]. apply Bx. split; auto. apply builtins_names. auto. }
        apply resolves_modified; auto. exists (word (format_name u (st_name s)) ++ rust u "::" ++ ty (fl_type f)). split; [constructor|]. right. right.
        rewrite W, (word_nonempty _ Ne). apply scope_module. apply J. apply in_or_app. right.
        assert (Inx : In x (nested s)) by (apply nested_nil; auto; exists f; split; auto; rewrite Ef; left; auto).
        destruct (nested s) as [|y l] eqn:En; [destruct Inx|]. cbn [map List.concat introduces]. rewrite app_nil_r. rewrite <- W.
        eapply here_list; [intros; eapply here_introduced; eauto|exact AI|]. apply in_concat. exists (here x). split; [apply in_map; auto|]. rewrite <- Ex. apply named_here. auto.
    + destruct (nested s) as [|y l] eqn:En; [destruct I|]. cbn [map List.concat mentions] in I. rewrite app_nil_r in I.
      assert (NE : forall e, In e (y :: l) -> exists f, In f (st_fields s) /\ fl_subtypes f = [e] /\ lf sc f).
      { intros e Ie. rewrite <- En in Ie. apply nested_nil in Ie as (f & If & Jf); auto. rewrite Forall_forall in LF. assert (Lf := LF f If). exists f.
        inversion Lf as [f' Ef O|f' x Ef Tx Ex Nx Sx Lx]; subst; rewrite Ef in Jf; [destruct Jf|]. destruct Jf as [<-|[]]. auto. }
      eapply G_list; [|exact AI| | | | |exact I].
      * intros e Ie. destruct (NE e Ie) as (f & If & Ef & _). eapply IHf; eauto. rewrite Ef. left. auto.
      * intros x X. apply J. apply in_or_app. right. cbn [map List.concat introduces]. rewrite app_nil_r. auto.
      * apply Forall_forall. intros e Ie. destruct (NE e Ie) as (f & If & Ef & Lf). inversion Lf as [f' Ef' O|f' x Ef' Tx Ex Nx Sx Lx]; subst; rewrite Ef in Ef'; [discriminate|injection Ef' as <-; exact Lx].
      * apply Forall_forall. intros e Ie. destruct (NE e Ie) as (f & If & Ef & Lf). inversion Lf as [f' Ef' O|f' x Ef' Tx Ex Nx Sx Lx]; subst; rewrite Ef in Ef'; [discriminate|injection Ef' as <-].
        destruct e; auto. left. exact Sx.
      * intros z Iz. apply vis_inner. auto.
  - inversion L as [|t' O NE LS FS| | |]; subst. rewrite !map_app, !concat_app in *.
    assert (V' : forall x, In x (heres (tu_subtypes t) ++ sc) -> vis path x).
    { intros x Ix. apply in_app_or in Ix as [Ix|Ix]; auto. exists path, []. rewrite app_nil_r. split; auto. apply J. apply in_or_app. right. apply in_or_app. left.
      eapply here_list; eauto. intros; eapply here_introduced; eauto. }
    assert (R : resolves path (modified u (ty (tu_type t)) (tu_mods t))) by (apply resolves_modified; auto; eapply okr_resolves; eauto).
    apply in_app_or in I as [I|I]; [|apply in_app_or in I as [I|I]].
    + cbn in I. destruct I as [[= <- <-]|[]]. auto.
    + eapply G_list; [exact IH|exact AI| |exact LS|exact FS|exact V'|exact I]. intros x X. apply J. apply in_or_app. right. apply in_or_app. auto.
    + cbn in I. rewrite app_nil_r in I. apply in_concat in I as (z & Iz & I). apply in_map_iff in Iz as (k & <- & Ik). apply in_concat in Ik as (kl & Ik & Jk).
      destruct (Forall2_in_r _ _ _ _ FC Ik) as (fa & _ & Fa). inversion Fa; subst; try (destruct Jk; fail); destruct Jk as [<-|[]]; cbn in I; try (destruct I; fail); destruct I as [[= <- <-]|[]]; auto.
  - inversion L as [| |n' O LC LS FS| |]; subst. rewrite !map_app, !concat_app in *.
    assert (V' : forall x, In x (heres (en_subtypes n) ++ sc) -> vis path x).
    { intros x Ix. apply in_app_or in Ix as [Ix|Ix]; auto. exists path, []. rewrite app_nil_r. split; auto. apply J. apply in_or_app. right.
      eapply here_list; eauto. intros; eapply here_introduced; eauto. }
    apply in_app_or in I as [I|I].
    + cbn [map List.concat mentions] in I. rewrite !app_nil_r, map_app, concat_app in I. apply in_app_or in I as [I|I].
      * apply in_concat in I as (z & Iz & I). rewrite map_map in Iz. apply in_map_iff in Iz as (c & <- & Ic).
        rewrite Forall_forall in LC. assert (Lc := LC c Ic). unfold case_variant in I. destruct (colon_split (ec_name c)). cbn [va_type] in I.
        destruct (ec_type c) as [tt|] eqn:Et; [|destruct I]. destruct I as [[= <- <-]|[]]. destruct (Lc tt eq_refl). apply resolves_modified; auto. eapply okr_resolves; eauto.
      * cbn in I. destruct I as [[= <- <-]|[]]. eapply okr_resolves; eauto.
    + eapply G_list; [exact IH|exact AI| |exact LS|exact FS|exact V'|exact I]. intros x X. apply J. apply in_or_app. auto.
  - cbn in I. destruct I.
  - cbn in I. destruct I as [[= <- <-]|[]]. inversion L; subst. eapply okr_resolves; eauto.
  - cbn in I. destruct I.
Qed.

(** All types of a file. *)
Definition top (e : entity) : Prop := lu (here e) e /\ struct_named e.
Lemma top_resolves l its : all_items l its -> incl (concat (map (introduces []) its)) D -> Forall top l ->
  forall P t, In (P, t) (concat (map (mentions []) its)) -> resolves P t.
Proof.
  intros A. induction A as [|e l a b A1 A2 IH]; intros J F P t I; [destruct I|]. rewrite map_app, concat_app in *. inversion F as [|? ? [L S] F']; subst.
  apply in_app_or in I as [I|I].
  - eapply (G_all e (here e) []); eauto.
    + intros x X. apply J. apply in_or_app. auto.
    + destruct e; auto. left. exact S.
    + intros q Iq. exists [], []. split; auto. apply J. apply in_or_app. left. eapply here_introduced; eauto.
  - eapply IH; eauto. intros x X. apply J. apply in_or_app. auto.
Qed.
End Generated.
End Scope.

(** ** The parser *)
Section Parsed.
Context (u : uni) (schema : node) (tns xsd : option namespace).
Notation own := (ns_prefix tns).
Notation xs := (ns_prefix xsd).
Definition K (q : str) : Prop := q = lit "String" \/ known schema own xs q.
Notation lu := (lu u tns xsd K).
Notation lf := (lf u tns xsd K).
Notation okr := (okr xsd K).
Notation M := (M u tns).
Notation own_name := (own_name xsd).
Notation nested_name := (nested_name u tns xsd).
Notation clear := (clear_name u own xs).
Notation orderly := (orderly u schema own xs).
Definition named_clear (p : node) : Prop := forall v, has p "name" v -> clear v.
Definition good (x : node) : Prop := tidy_element x /\ orderly x.

Definition outcome (e : entity) : Prop :=
  match e with
  | EField f => lf [] f
  | ECase c => forall t, ec_type c = Some t -> K t /\ ~ In MEmpty (ec_mods c)
  | EAlias _ | EImport _ => True
  | _ => lu [] e
  end.
(** A complex type that is a choice. *)
Definition bare_choice (n : node) : Prop :=
  tag "complexType" n /\ exists k, final (tagged_children content_tags n) k /\ tag "choice" k /\ has_elements k.
Definition result (n : node) (e : entity) : Prop :=
  outcome e \/ bare_choice n /\ exists en, e = EEnum en /\ lu (here e) e.

Lemma okr_K sc q : K q -> okr sc q. Proof. left. auto. Qed.
Lemma K_string : K (lit "String"). Proof. left. auto. Qed.
Lemma K_ref x q : good x -> referring x q -> K q.
Proof. intros [_ [R _]] H. right. auto. Qed.
Lemma good_named x : good x -> named_clear x.
Proof. intros [_ (_ & N & _)] v. apply N. Qed.
Lemma parent_simple anc s : Forall named_clear anc -> get_parent_name anc = Ok s -> simple s.
Proof.
  intros F H. apply parent_name_ok in H.
  assert (L : forall c t, letter c -> ~ In 58 (c :: t) -> simple (c :: t)) by (intros c t A B; split; [exists c, t; auto|auto]).
  induction H.
  - apply (L 85 (lit "nsupportedName")); [right; unfold upper; lia|apply no_colon_ok; reflexivity].
  - apply (L 83 (lit "chemaElement")); [right; unfold upper; lia|apply no_colon_ok; reflexivity].
  - inversion F; subst. apply (clear_simple u tns xsd). auto.
  - inversion F; subst. auto.
Qed.
Definition good_kids (ks : list kid) : Prop := forall k e, In k ks -> snd k = Ok e -> outcome e.

Lemma set_name_outcome nm e : outcome e -> outcome (set_name nm e).
Proof.
  destruct e as [s|f|t|n|c|a|i]; cbn; auto; intros H; inversion H; subst; first [constructor; solve [auto]|eapply lf_nested; eauto].
Qed.
Lemma set_comment_outcome c e : outcome e -> outcome (set_comment c e).
Proof.
  destruct e as [s|f|t|n|k|a|i]; cbn; auto; intros H; inversion H; subst; first [constructor; solve [auto]|eapply lf_nested; eauto].
Qed.
Lemma outcome_lu e : typelike e -> outcome e -> lu [] e.
Proof. destruct e; cbn; intros []; auto. Qed.

Lemma attributes_fine u' n anc fs : good_kids (kids u' n anc) -> attributes_to_fields (n :: anc) (kids u' n anc) = Ok fs ->
  Forall (lf []) fs /\ (~ tag "schema" n -> Forall (fun f => fl_subtypes f = []) fs).
Proof.
  intros G H. unfold attributes_to_fields in H. bo H l Hl. apply rmapm_ok in H.
  assert (X : forall f, In f fs -> exists k, In k l /\ snd k = Ok (EField f)).
  { intros f I. destruct (Forall2_in_r _ _ _ _ H I) as (k & Ik & Hk). bo Hk e He. destruct e; try discriminate. injection Hk as <-. eauto. }
  split.
  - apply Forall_forall. intros f I. destruct (X f I) as (k & Ik & Hk). exact (G k _ (rfilter_in _ _ _ _ Hl Ik) Hk).
  - intros NS. apply Forall_forall. intros f I. destruct (X f I) as (k & Ik & Hk). destruct (nodes_sat _ _ _ _ _ Hl Ik) as (t & Ht & O).
    destruct (kids_in u' n anc k (rfilter_in _ _ _ _ Hl Ik)) as [_ E]. rewrite E, parse_node_eq in Hk. unfold parse_step in Hk. rewrite Ht in Hk. cbn [bind] in Hk.
    assert (Y : t = TKind KAttribute \/ t = TKind KAnyAttribute). { destruct t as [kd| | | | |]; try discriminate. destruct kd; try discriminate; auto. }
    destruct Y as [-> | ->]; [|injection Hk as <-; reflexivity]. unfold parse_attribute in Hk. bo Hk pt Hp. cbn [parent_type] in Hp.
    assert (Np : is_kind KSchema pt = false). { rewrite (is_kind_tag _ _ _ KSchema Hp). unfold tagb. destruct (str_eqb_spec (tag_name n) (tag_of KSchema)) as [E'|E']; [destruct NS; exact E'|reflexivity]. }
    rewrite Np in Hk. bo Hk nm Hn. bo Hk us Hu. injection Hk as <-. reflexivity.
Qed.
Lemma sequence_fine n anc ks e : Forall named_clear anc -> good_kids ks -> parse_sequence n anc ks = Ok e -> outcome e.
Proof.
  intros A G H. unfold parse_sequence in H. bo H nm Hn. bo H fs Hf. injection H as <-. assert (S := parent_simple _ _ A Hn). constructor; cbn; auto.
  unfold elements_to_fields in Hf. bo Hf l Hl. apply rmapm_ok in Hf. apply Forall_forall. intros f I.
  destruct (Forall2_in_r _ _ _ _ Hf I) as (k & Ik & Hk). bo Hk x Hx. assert (F := G k _ (rfilter_in _ _ _ _ Hl Ik) Hx).
  unfold to_field in Hk. destruct x; try discriminate; injection Hk as <-.
  - cbn in F. destruct (ends_with nm (fl_type f0)); auto. inversion F; subst; [apply lf_plain; auto|eapply lf_nested; eauto].
  - cbn in F. apply lf_nested with (x := EEnum (en_set_name (nm ++ lit "Choice") e)); cbn; auto; [apply choice_name; auto|].
    inversion F; subst. constructor; auto.
Qed.
Lemma choice_fine n anc ks e : good_kids ks -> parse_choice n anc ks = Ok e -> exists en, e = EEnum en /\ en_subtypes en = [] /\ en_type en = lit "String" /\
  Forall (fun c => forall t, ec_type c = Some t -> K t /\ ~ In MEmpty (ec_mods c)) (en_cases en).
Proof.
  intros G H. unfold parse_choice in H. bo H l Hl. bo H cs Hc. injection H as <-. apply rmapm_ok in Hc. eexists. split; [reflexivity|]. split; [reflexivity|]. split; [reflexivity|]. cbn.
  apply Forall_forall. intros c I. destruct (Forall2_in_r _ _ _ _ Hc I) as (k & Ik & Hk). bo Hk x Hx. destruct x; try discriminate. injection Hk as <-.
  exact (G k _ (rfilter_in _ _ _ _ Hl Ik) Hx).
Qed.
Lemma choice_lu sc en : en_subtypes en = [] -> en_type en = lit "String" -> Forall (fun c => forall t, ec_type c = Some t -> K t /\ ~ In MEmpty (ec_mods c)) (en_cases en) -> lu sc (EEnum en).
Proof.
  intros E T C. constructor; rewrite ?E, ?T; auto; [apply okr_K, K_string|]. eapply Forall_impl; [|exact C]. cbn. intros c Hc t Ht. destruct (Hc t Ht). split; auto. apply okr_K. auto.
Qed.

(** What content becomes an enum. *)
Lemma tag_neq_lit (n : node) s t : tag s n -> str_eqb (lit s) (lit t) = false -> str_eqb (tag_name n) (lit t) = false.
Proof. intros T E. unfold tag in T. rewrite T. auto. Qed.
Lemma derivation_struct kinds n anc ks e : complex_derivation kinds n anc ks = Ok e -> exists s, e = EStruct s.
Proof.
  intros H. unfold complex_derivation in H. bo H b Hb. bo H fs Hf. cbv zeta in H. bo H l Hl.
  assert (X : forall e fs, bind (attribute_groups_to_aliases (n :: anc) ks) (fun groups => Ok (EStruct {| st_name := []; st_comment := get_documentation n;
     st_fields := fs; st_groups := groups; st_subtypes := [] |})) = Ok e -> exists s, e = EStruct s).
  { intros e' fs' H'. bo H' gs Hg. injection H' as <-. eauto. }
  destruct (last_opt l) as [k|]; [|eauto]. bo H x Hx. destruct x; eauto. injection H as <-. eauto.
Qed.
Lemma content_struct n anc e : tidy_element n -> one ["complexContent"; "simpleContent"] n -> parse_content n anc (kids u n anc) = Ok e -> exists s, e = EStruct s.
Proof.
  intros (_ & _ & _ & _ & _ & G) O P. unfold parse_content in P. bo P l Hl. bo P k Hk. apply expect_ok, last_opt_in in Hk. assert (Ip := particle_kid _ _ _ _ _ Hl Hk).
  destruct (kids_in u n anc k (rfilter_in _ _ _ _ Hl Hk)) as [_ Ek]. rewrite Ek in P. rewrite parse_node_eq in P. unfold parse_step in P. bo P t Ht.
  assert (X : t = extension_of (n :: anc) \/ t = restriction_of (n :: anc)).
  { destruct (G O _ Ip) as (s & [<-|[<-|[]]] & T); unfold xsd_type in Ht; unfold tag in T; rewrite T in Ht; cbn [assoc] in Ht; injection Ht as <-; auto. }
  destruct O as (s & [<-|[<-|[]]] & T); unfold tag in T; unfold extension_of, restriction_of in X; rewrite T in X; vm_compute in X.
  - destruct X as [-> | ->]; cbn in P; eapply derivation_struct; eauto.
  - destruct X as [-> | ->]; cbn in P; [|discriminate]. unfold simple_content_extension in P. bo P b Hb. bo P fs Hf. bo P gs Hg. injection P as <-. eauto.
Qed.
Lemma content_enum n anc en : tidy_element n -> one content_tags n -> parse_node u n anc = Ok (EEnum en) -> tag "choice" n.
Proof.
  intros Tn (t & I & T) H. cbn in I.
  assert (Sq : parse_sequence n anc (kids u n anc) = Ok (EEnum en) -> False) by (intros S; unfold parse_sequence in S; bo S nm Hn; bo S fs Hf; discriminate).
  destruct I as [<-|[<-|[<-|[<-|[<-|[<-|[]]]]]]]; auto; exfalso.
  - rewrite (step_kind u n _ KAll) in H by exact T. auto.
  - rewrite (step_kind u n _ KComplexContent) in H by exact T. destruct (content_struct n anc (EEnum en) Tn) as (s & X); [eexists; split; [left; reflexivity|exact T]|exact H|discriminate].
  - rewrite (step_kind u n _ KGroup) in H by exact T. discriminate.
  - rewrite (step_kind u n _ KSequence) in H by exact T. auto.
  - rewrite (step_kind u n _ KSimpleContent) in H by exact T. destruct (content_struct n anc (EEnum en) Tn) as (s & X); [eexists; split; [right; left; reflexivity|exact T]|exact H|discriminate].
Qed.

Lemma element_kids n anc l k p q : by_tag p q -> elements_where p (n :: anc) (kids u n anc) = Ok l -> last_opt l = Some k ->
  exists c, final (filter (fun x => is_element x && q x) (children n)) c /\ k = (c, parse_node u c (n :: anc)).
Proof.
  intros B H L. apply (elements_where_ok p q) in H as [_ ->]; auto. apply last_kids in L. exact L.
Qed.
Lemma complex_fine n anc e : good n -> (forall c, In c (children n) -> ~ tag "annotation" c -> good c) -> tag "complexType" n -> Forall named_clear anc -> good_kids (kids u n anc) ->
  parse_complex_type n anc (kids u n anc) = Ok e -> result n e.
Proof.
  intros Fn Fc T A G H. unfold parse_complex_type in H. bo H pt Hp. bo H nm Hn. bo H fs Hf. bo H l Hl. cbv zeta in H.
  destruct (attributes_fine _ _ _ _ G Hf) as [Fa Fs]. specialize (Fs ltac:(unfold tag in *; rewrite T; discriminate)).
  assert (Sn : simple nm).
  { destruct (is_kind KSchema pt); [apply expect_ok in Hn; apply (clear_simple u tns xsd); apply (good_named n Fn); exact Hn|eapply parent_simple; eauto]. }
  assert (X : forall e, bind (attribute_groups_to_aliases (n :: anc) (kids u n anc)) (fun groups => Ok (EStruct {| st_name := nm; st_comment := get_documentation n;
     st_fields := fs; st_groups := groups; st_subtypes := [] |})) = Ok e -> result n e).
  { intros e' H'. bo H' gs Hg. injection H' as <-. left. constructor; cbn; auto. }
  destruct (last_opt l) as [k|] eqn:Lk; [|auto]. destruct (existsb is_element (children (fst k))) eqn:Ex; [|auto]. bo H x Hx.
  assert (Ik := last_opt_in _ _ Lk). assert (O := G k x (rfilter_in _ _ _ _ Hl Ik) Hx).
  unfold finish_complex in H. destruct x; try (injection H as <-; left; exact O).
  - injection H as <-. left. cbn in *. inversion O; subst. constructor; cbn; auto. apply Forall_app. auto.
  - cbv zeta in H. bo H gs Hg. injection H as <-. right.
    destruct (element_kids _ _ _ _ _ _ (by_tag_one_of complex_content_types) Hl Lk) as (c & Fin & ->). cbn [fst snd] in *.
    destruct (elements_sat _ _ _ _ _ Hl Ik) as (_ & t & Ht & Oo). cbn [fst] in *. assert (C : one content_tags c) by (eapply one_of_tags; [|eauto|exact Oo]; reflexivity).
    assert (Ic : In c (children n)) by (apply final_in in Fin; apply filter_In in Fin; tauto).
    assert (Na : ~ tag "annotation" c). { intros Ta. destruct C as (s & I & Ts). unfold tag in *. rewrite Ta in Ts. cbn in I. repeat (destruct I as [<-|I]; [discriminate|]). destruct I. }
    assert (Tc := content_enum c _ _ (proj1 (Fc c Ic Na)) C Hx). 
    rewrite (step_kind u c _ KChoice) in Hx by exact Tc.
    split.
    + split; auto. exists c. split; [|split; auto; apply has_elements_iff; auto].
      assert (Ef : tagged_children content_tags n = filter (fun x => is_element x && existsb (fun k => tagb k x) complex_content_types) (children n)).
      { unfold tagged_children. apply filter_ext. intros y. unfold tagb, tagged. cbn. destruct y; reflexivity. }
      rewrite Ef. exact Fin.
    + eexists. split; [reflexivity|]. assert (Es : en_subtypes e0 = []) by (unfold parse_choice in Hx; bo Hx l' Hl'; bo Hx cs Hc; injection Hx as <-; reflexivity).
      cbn in O. inversion O as [| |e' Ot Oc _ _| |]; subst. rewrite Es in Ot, Oc. cbn [here map List.concat app en_name en_subtypes st_name].
      assert (Kq : forall sc q, okr ([] ++ []) q -> okr sc q) by (intros sc q [Q|[[] _]]; left; auto).
      constructor; cbn [en_subtypes en_type en_cases map List.concat here app st_name]; auto.
      * eapply Forall_impl; [|exact Oc]. cbn beta. intros y Hy t' Ht'. destruct (Hy t' Ht'). split; auto.
      * constructor; [|constructor]. constructor; [reflexivity|]. cbn [st_fields]. apply Forall_app. split.
        -- eapply Forall_impl; [|exact Fa]. intros f Lf. inversion Lf; subst; [apply lf_plain; [auto|eapply okr_mono; [|eassumption]; intros z []]|].
           eapply lf_nested; eauto. eapply lu_mono; [|eassumption]. intros z [].
        -- constructor; [|constructor]. apply lf_plain; [reflexivity|]. cbn [fl_type]. right. split; [right; left; reflexivity|]. apply (choice_name u tns xsd nm Sn).
      * constructor; [|constructor]. right. cbn [st_fields]. apply Forall_app. split; auto.
Qed.
Lemma derivation_fine kinds n anc e : good n -> good_kids (kids u n anc) -> complex_derivation kinds n anc (kids u n anc) = Ok e -> outcome e.
Proof.
  intros Fn G H. unfold complex_derivation in H. bo H b Hb. bo H fs Hf. cbv zeta in H. bo H l Hl.
  destruct (attributes_fine _ _ _ _ G Hf) as [Fa _]. apply expect_ok in Hb.
  assert (Fb : Forall (lf []) (fs ++ [base_field n b])).
  { apply Forall_app. split; auto. constructor; [|constructor]. apply lf_plain; [reflexivity|]. apply okr_K. apply (K_ref n); auto. right. left. exact Hb. }
  assert (X : forall e, bind (attribute_groups_to_aliases (n :: anc) (kids u n anc)) (fun groups => Ok (EStruct {| st_name := []; st_comment := get_documentation n;
     st_fields := fs ++ [base_field n b]; st_groups := groups; st_subtypes := [] |})) = Ok e -> outcome e).
  { intros e' H'. bo H' gs Hg. injection H' as <-. constructor; cbn; auto. }
  destruct (last_opt l) as [k|] eqn:Lk; [|auto]. bo H x Hx. apply last_opt_in in Lk.
  assert (F := G k x (rfilter_in _ _ _ _ Hl Lk) Hx).
  destruct x; auto. injection H as <-. cbn in F. inversion F; subst. constructor; cbn; auto. apply Forall_app. auto.
Qed.
Lemma modifier_some n : ~ In MEmpty [element_modifier n].
Proof.
  unfold element_modifier. cbv zeta. intros [E|[]]. revert E. repeat match goal with |- context [match ?x with _ => _ end] => destruct x end; discriminate.
Qed.
Lemma case_fine n : good n -> tag "element" n -> outcome (parse_case_of_choice n).
Proof.
  intros Fn T. unfold parse_case_of_choice, attr_ref, attr_name, attr_type. cbv zeta.
  assert (O : one ["element"; "attribute"] n) by (exists "element"%string; split; [left; auto|auto]).
  destruct (attribute n (lit "ref")) as [r|] eqn:R; cbn.
  - intros t [= <-]. split; [|apply modifier_some]. apply (K_ref n); auto. left. split; auto.
  - intros t H. split; [|apply modifier_some]. apply (K_ref n); auto. left. split; auto.
Qed.
Lemma part_type c n y : In c (children n) -> one ["simpleType"; "complexType"] c -> part y c -> part y n.
Proof. intros I O P. eapply part_child; eauto. intros Ta. destruct O as (s & [<-|[<-|[]]] & Ts); unfold tag in *; rewrite Ta in Ts; discriminate. Qed.
Lemma type_typelike n anc e : (forall x, part x n -> good x) -> one ["simpleType"; "complexType"] n -> parse_node u n anc = Ok e -> typelike e.
Proof.
  intros P (s & [<-|[<-|[]]] & T) H; [eapply simple_typelike; eauto; apply P; constructor|eapply complex_typelike; eauto]. intros x Px. apply P. auto.
Qed.
Lemma field_fine n anc e : (forall x, part x n -> good x) -> tag "element" n -> good_kids (kids u n anc) -> parse_field_of_sequence n anc (kids u n anc) = Ok e -> outcome e.
Proof.
  intros P T G H. assert (Fn := P n (part_self n)). unfold parse_field_of_sequence in H. cbv zeta in H. unfold has_attribute, attr_type, attr_ref, attr_name in H.
  assert (O : one ["element"; "attribute"] n) by (exists "element"%string; split; [left; auto|auto]).
  destruct (attribute n (lit "type")) as [t|] eqn:At; cbn [orb] in H.
  - injection H as <-. apply lf_plain; [reflexivity|]. apply okr_K, (K_ref n); auto. left. split; auto.
  - destruct (attribute n (lit "ref")) as [r|] eqn:Ar.
    + injection H as <-. apply lf_plain; [reflexivity|]. apply okr_K, (K_ref n); auto. left. split; auto.
    + bo H l Hl. bo H k Hk. apply expect_ok, last_opt_in in Hk. bo H x Hx. injection H as <-.
      destruct Fn as [_ (_ & N & Pn & _)]. destruct (Pn T At Ar) as (nm & Hn). assert (C := N nm Hn). unfold has in Hn. rewrite Hn. cbn [unwrap_or].
      destruct (nodes_sat _ _ _ _ _ Hl Hk) as (t & Ht & Oo). assert (Ik := rfilter_in _ _ _ _ Hl Hk). assert (Ox := G k x Ik Hx).
      destruct (kids_in u n anc k Ik) as [Ic Ek]. assert (Tk : one ["simpleType"; "complexType"] (fst k)) by (eapply one_of_tags; [|eauto|exact Oo]; reflexivity).
      assert (Ty : typelike x). { rewrite Ek in Hx. eapply type_typelike; [|exact Tk|exact Hx]. intros y Py. apply P. eapply part_type; eauto. }
      assert (En : entity_name (set_name (nm ++ lit "Type") x) = nm ++ lit "Type") by (destruct x; reflexivity).
      apply lf_nested with (x := set_name (nm ++ lit "Type") x); cbn [fl_subtypes fl_type].
      * reflexivity.
      * apply typelike_set. auto.
      * reflexivity.
      * rewrite En. apply type_name_nested. auto.
      * destruct x; try exact Logic.I. cbn. apply (clear_M u tns xsd nm C).
      * apply outcome_lu; [apply typelike_set; auto|]. apply set_name_outcome. auto.
Qed.
Lemma element_fine n anc e : (forall x, part x n -> good x) -> tag "element" n -> good_kids (kids u n anc) -> parse_element n anc (kids u n anc) = Ok e -> outcome e.
Proof.
  intros P T G H. unfold parse_element in H. bo H pt Hp.
  assert (Df : Ok (element_default n) = Ok e -> outcome e) by (intros [= <-]; exact Logic.I).
  destruct pt as [k| | | | |]; auto. destruct k; auto; try (eapply field_fine; eauto; fail).
  - injection H as <-. apply case_fine; auto. apply P. constructor.
  - unfold parse_global_element in H. bo H nm Hn. destruct (attr_type n); [injection H as <-; exact Logic.I|]. bo H l Hl.
    destruct (last_opt l) as [k|] eqn:Lk; [|injection H as <-; constructor; cbn; auto].
    apply rmap_iff in H as (x & Hx & <-). apply last_opt_in in Lk. apply set_name_outcome. eapply G; eauto. eapply rfilter_in; eauto.
Qed.
Lemma attribute_fine n anc e : good n -> tag "attribute" n -> good_kids (kids u n anc) -> parse_attribute n anc (kids u n anc) = Ok e -> outcome e.
Proof.
  intros Fn T G H. unfold parse_attribute in H. bo H pt Hp. destruct (is_kind KSchema pt).
  - unfold parse_global_attribute in H. destruct (attr_ref n); [injection H as <-; exact Logic.I|]. bo H nm Hn.
    destruct (attr_type n); [injection H as <-; exact Logic.I|]. bo H l Hl.
    destruct (last_opt l) as [k|] eqn:Lk; [|injection H as <-; constructor; cbn; auto].
    apply rmap_iff in H as (x & Hx & <-). apply last_opt_in in Lk. apply set_name_outcome. eapply G; eauto. eapply rfilter_in; eauto.
  - bo H nm Hn. bo H us Hu. injection H as <-. apply lf_plain; [reflexivity|]. apply okr_K. cbn [fl_type]. unfold attr_type, attr_ref, or_else.
    assert (O : one ["element"; "attribute"] n) by (exists "attribute"%string; split; [right; left; auto|auto]).
    destruct (attribute n (lit "type")) as [t|] eqn:At; cbn; [apply (K_ref n); auto; left; split; auto|].
    destruct (attribute n (lit "ref")) as [r|] eqn:Ar; cbn; [apply (K_ref n); auto; left; split; auto|]. apply K_string.
Qed.
Lemma group_fine n anc e : good_kids (kids u n anc) -> parse_attribute_group n anc (kids u n anc) = Ok e -> outcome e.
Proof.
  intros G H. unfold parse_attribute_group in H. bo H pt Hp. destruct (is_kind KSchema pt).
  - bo H nm Hn. bo H fs Hf. injection H as <-. destruct (attributes_fine _ _ _ _ G Hf) as [Fa _]. constructor; cbn; auto.
  - bo H nm Hn. injection H as <-. exact Logic.I.
Qed.

(** What a simple type becomes. *)
Lemma particle_part c n y : In c (particles n) -> part y c -> part y n.
Proof. intros I. apply in_particles in I as (I & _ & N). intros P. eapply part_child; eauto. Qed.
Lemma simple_shape n p anc e : (forall x, part x n -> good x) -> Forall named_clear (p :: anc) -> tag "simpleType" n -> parse_node u n (p :: anc) = Ok e ->
  (exists t, e = ETuple t) \/ (exists en, e = EEnum en /\ (~ tag "schema" p -> (exists k, final (particles n) k /\ tag "union" k) \/ own_name (en_name en))).
Proof.
  intros P A T H. destruct (simple_type_ok _ _ _ _ _ T H) as (c & e0 & Fc & Hc & R).
  assert (Ic := final_in _ _ Fc). assert (Fn := P n (part_self n)). assert (Gc : good c) by (apply P; eapply particle_part; eauto; constructor).
  assert (S : (exists t, e0 = ETuple t) \/ (exists en, e0 = EEnum en /\ (tag "union" c \/ own_name (en_name en)))).
  { destruct Fn as [(_ & _ & _ & _ & Tn & _) _]. destruct (Tn T c Ic) as (s & [<-|[<-|[<-|[]]]] & Tc).
    - destruct (restriction_ok _ _ _ _ _ Tc T Hc) as (b & Hb & R1 & R2).
      rewrite (step_simple_restriction u c n (p :: anc) Tc T) in Hc. unfold simple_type_restriction in Hc. bo Hc b' Hb'. bo Hc fs Hf. cbv zeta in Hc.
      destruct (_ && _); [|injection Hc as <-; eauto]. bo Hc pn Hn. injection Hc as <-. right. eexists. split; [reflexivity|]. right. cbn [en_name].
      apply enum_name. eapply parent_simple; [|exact Hn]. constructor; auto. apply good_named. apply P. constructor.
    - rewrite (step_kind u c _ KList) in Hc by exact Tc. unfold parse_list in Hc. bo Hc t Ht. injection Hc as <-. eauto.
    - destruct (union_ok _ _ _ _ Tc Hc) as (fs & _ & U & _). destruct Gc as [_ (_ & _ & _ & Nu & _)].
      destruct (U (Nu Tc)) as (en & -> & _). right. eauto. }
  destruct R as [[Sp (nm & _ & ->)]|(Sp & _ & ->)].
  - destruct S as [(t & ->)|(en & -> & _)]; [left|right]; cbn; eauto. eexists. split; [reflexivity|]. intros N. contradiction.
  - destruct S as [(t & ->)|(en & -> & X)]; [left|right]; cbn; eauto. eexists. split; [reflexivity|]. intros _. destruct X as [X|X]; [left; eauto|right; exact X].
Qed.
Lemma list_fine n anc e : (forall x, part x n -> good x) -> Forall named_clear anc -> tag "list" n -> good_kids (kids u n anc) -> parse_list n (kids u n anc) = Ok e -> outcome e.
Proof.
  intros P A T G H. assert (Fn := P n (part_self n)). unfold parse_list in H. bo H t Ht. injection H as <-.
  enough (D : lu [] (ETuple t)) by (cbn; inversion D; subst; constructor; cbn; auto; intros X; apply in_app_or in X as [X|[X|[]]]; [auto|discriminate X]).
  destruct (attribute n (lit "itemType")) as [it|] eqn:I.
  - injection Ht as <-. constructor; cbn; auto. apply okr_K, (K_ref n); auto. right. right. left. exact I.
  - bo Ht k Hk. apply expect_ok, find_some in Hk as [Ik E]. apply andb_true_iff in E as [_ E]. apply str_eqb_eq in E. bo Ht x Hx.
    assert (D := G k x Ik Hx). destruct (kids_in u n anc k Ik) as [Ic Ek]. rewrite Ek in Hx.
    assert (Pk : forall y, part y (fst k) -> good y) by (intros y Py; apply P; eapply part_type; eauto; eexists; split; [left; reflexivity|exact E]).
    destruct (simple_shape (fst k) n anc x Pk) as [(t' & ->)|(en & -> & X)]; auto; [constructor; auto using good_named|injection Ht as <-; exact D|].
    injection Ht as <-. destruct X as [(c & Fc & Tc)|X]; [unfold tag in *; rewrite T; discriminate| |].
    + exfalso. destruct Fn as [_ (_ & _ & _ & _ & L & _)]. exact (L T (fst k) c Ic E Fc Tc).
    + constructor; cbn [tu_subtypes tu_type]; auto.
      * right. split; [|exact X]. left. reflexivity.
      * constructor; [|constructor]. eapply lu_mono; [|exact D]. intros z [].
      * constructor; [exact Logic.I|constructor].
Qed.
Lemma union_subs ks : (forall k e, In k ks -> snd k = Ok e -> lu [] e /\ ((exists t, e = ETuple t) \/ (exists en, e = EEnum en))) ->
  forall i es, union_subtypes i ks = Ok es -> Forall (fun e => lu [] e /\ flat_fields u tns e /\ In (entity_name e) (here e) /\ own_name (entity_name e)) es.
Proof.
  induction ks as [|k ks IH]; intros G i es H; cbn in H; [injection H as <-; constructor|]. bo H e He. bo H l Hl. injection H as <-.
  destruct (G k e (or_introl eq_refl) He) as [L S]. constructor; [|eapply IH; eauto; intros; eapply G; eauto; right; auto].
  assert (L' : outcome (set_name (lit "EnumCaseType_" ++ dec i) e)) by (apply set_name_outcome; destruct S as [(t & ->)|(en & ->)]; exact L).
  destruct S as [(t & ->)|(en & ->)]; (split; [exact L'|]); (split; [exact Logic.I|]); (split; [left; reflexivity|]); apply case_name.
Qed.
Lemma union_cases_fine es sc : Forall (fun e => In (entity_name e) (here e) /\ own_name (entity_name e)) es -> incl (heres es) sc ->
  forall i, Forall (fun c => forall t, ec_type c = Some t -> okr sc t /\ ~ In MEmpty (ec_mods c)) (union_sub_cases i es).
Proof.
  induction es as [|e es IH]; intros F I i; cbn; [constructor|]. inversion F as [|? ? [N O] F']; subst. constructor; [|apply IH; auto; intros z Hz; apply I; cbn; apply in_or_app; auto].
  cbn. intros t [= <-]. split; [|auto]. right. split; auto. apply I. cbn. apply in_or_app. auto.
Qed.
Lemma union_fine n anc e : (forall x, part x n -> good x) -> Forall named_clear anc -> tag "union" n -> good_kids (kids u n anc) -> parse_union n anc (kids u n anc) = Ok e -> outcome e.
Proof.
  intros P A T G H. assert (Fn := P n (part_self n)). unfold parse_union in H. cbv zeta in H. bo H l Hl. bo H subs Hs. bo H fs Hf.
  assert (NS : ~ tag "schema" n) by (unfold tag in *; rewrite T; discriminate).
  assert (E : fs = []).
  { assert (Ca : ParserFacts.calm n) by (apply (calm_kind n KUnion); exact T). destruct (ParserProofs.attributes_ok u n anc fs NS Ca Hf) as [X _].
    destruct Fn as [_ (_ & _ & _ & Nu & _)]. unfold attribute_children in X. rewrite (Nu T) in X. inversion X. auto. }
  subst fs. injection H as <-.
  assert (F : Forall (fun e => lu [] e /\ flat_fields u tns e /\ In (entity_name e) (here e) /\ own_name (entity_name e)) subs).
  { eapply union_subs; [|eauto]. intros k x I Hx. assert (Ik := rfilter_in _ _ _ _ Hl I). assert (Ox := G k x Ik Hx). destruct (kids_in u n anc k Ik) as [Ic Ek].
    destruct (elements_sat _ _ _ _ _ Hl I) as (_ & t & Ht & O).
    assert (X : one ["simpleType"] (fst k)) by (apply (one_of_tags [KSimpleType] ["simpleType"] (fst k) _ t eq_refl Ht); cbn; rewrite O; auto).
    destruct X as (s & [<-|[]] & Ts). rewrite Ek in Hx.
    assert (S : (exists t, x = ETuple t) \/ (exists en, x = EEnum en)).
    { destruct (simple_shape (fst k) n anc x) as [?|(en & ? & _)]; eauto; [|constructor; auto using good_named].
      intros y Py. apply P. eapply part_type; eauto. eexists. split; [left; reflexivity|exact Ts]. }
    split; auto. destruct S as [(t' & ->)|(en & ->)]; exact Ox. }
  constructor; cbn [en_subtypes en_type en_cases].
  - apply okr_K, K_string.
  - apply Forall_app. split.
    + destruct (attribute n (lit "memberTypes")) as [m|] eqn:Mt; [|constructor]. destruct (members_ok m) as (ts & Bt & F2).
      apply Forall_forall. intros c Ic t Ht. destruct (Forall2_in_r _ _ _ _ F2 Ic) as (q & Iq & Mc). unfold member_case in Mc.
      assert (Eq : ec_type c = Some q) by apply Mc. rewrite Eq in Ht. injection Ht as <-. assert (Em : ec_mods c = []) by apply Mc. rewrite Em. split; [|auto]. apply okr_K, (K_ref n); auto. right. right. right. exists m, ts. auto.
    + apply union_cases_fine; [|rewrite app_nil_r; apply incl_refl]. eapply Forall_impl; [|exact F]. intros x (_ & _ & X). exact X.
  - eapply Forall_impl; [|exact F]. intros x (X & _). eapply lu_mono; [|exact X]. intros z [].
  - eapply Forall_impl; [|exact F]. intros x (_ & X & _). exact X.
Qed.
Lemma cases_untyped fs : Forall (fun c => ec_type c = None) (cases fs).
Proof. induction fs as [|f fs IH]; cbn; [constructor|]. destruct (fa_type f); auto. Qed.
Lemma restriction_fine n anc e : good n -> simple_type_restriction u n anc (kids u n anc) = Ok e -> outcome e.
Proof.
  intros Fn H. unfold simple_type_restriction in H. bo H b Hb. bo H fs Hf. cbv zeta in H. apply expect_ok in Hb.
  assert (Kb : K b) by (apply (K_ref n); auto; right; left; exact Hb).
  destruct (_ && _); [bo H pn Hn|]; injection H as <-; constructor; cbn; auto using okr_K.
  eapply Forall_impl; [|apply cases_untyped]. cbn. intros c Hc t Ht. congruence.
Qed.

Lemma step_fine n anc e : (forall x, part x n -> good x) -> Forall named_clear anc -> good_kids (kids u n anc) -> parse_step u n anc (kids u n anc) = Ok e -> result n e.
Proof.
  intros P A G H. assert (Fn := P n (part_self n)). unfold parse_step in H. bo H t Ht.
  assert (W : outcome e -> result n e) by (left; auto).
  destruct t as [k|x|r|f| |]; try discriminate.
  - assert (Tk := kind_tag _ _ _ Ht). destruct k; try discriminate.
    + apply W. eapply sequence_fine; eauto.
    + apply W. injection H as <-. apply lf_plain; [reflexivity|apply okr_K, K_string].
    + apply W. injection H as <-. apply lf_plain; [reflexivity|apply okr_K, K_string].
    + apply W. eapply attribute_fine; eauto.
    + apply W. eapply group_fine; eauto.
    + apply W. destruct (choice_fine _ _ _ _ G H) as (en & -> & X & Y & Z). apply choice_lu; auto.
    + apply W. unfold parse_content in H. bo H l Hl. bo H k Hk. apply expect_ok, last_opt_in in Hk. eapply G; eauto. eapply rfilter_in; eauto.
    + eapply complex_fine; eauto. intros c Ic Na. apply P. eapply part_child; eauto. constructor.
    + apply W. eapply element_fine; eauto.
    + apply W. injection H as <-. exact Logic.I.
    + apply W. injection H as <-. exact Logic.I.
    + apply W. eapply list_fine; eauto.
    + apply W. eapply sequence_fine; eauto.
    + apply W. unfold parse_content in H. bo H l Hl. bo H k Hk. apply expect_ok, last_opt_in in Hk. eapply G; eauto. eapply rfilter_in; eauto.
    + apply W. unfold parse_simple_type in H. cbv zeta in H. bo H pt Hp. destruct (negb _); [discriminate|]. bo H l Hl. bo H k Hk.
      apply expect_ok, last_opt_in in Hk. bo H x Hx. injection H as <-. apply set_comment_outcome.
      assert (Ox := G k x (rfilter_in _ _ _ _ Hl Hk) Hx). destruct (attr_name n); auto. apply set_name_outcome. auto.
    + apply W. eapply union_fine; eauto.
  - apply W. destruct x; cbn in H; [eapply derivation_fine; eauto|]. unfold simple_content_extension in H. bo H b Hb. bo H fs Hf. bo H gs Hg. injection H as <-.
    apply expect_ok in Hb. destruct (attributes_fine _ _ _ _ G Hf) as [Fa _]. constructor; cbn; auto. apply Forall_app. split; auto. constructor; [|constructor].
    apply lf_plain; [reflexivity|]. apply okr_K, (K_ref n); auto. right. left. exact Hb.
  - apply W. destruct r; cbn in H; [eapply derivation_fine; eauto|discriminate|]. eapply restriction_fine; eauto.
Qed.
Lemma not_bare n c : good n -> ~ tag "schema" n -> In c (children n) -> bare_choice c -> False.
Proof. intros [_ (_ & _ & _ & _ & _ & N)] S I (T & k & F & Tk & E). exact (N S c k I T F Tk E). Qed.
Lemma node_fine n : forall anc e, (forall x, part x n -> good x) -> Forall named_clear anc -> parse_node u n anc = Ok e -> result n e.
Proof.
  induction n as [t a ns cs IH|s|] using node_tree_ind; intros anc e P A H; assert (H' := H); rewrite parse_node_eq in H; (eapply step_fine; [exact P|exact A| |exact H]).
  - intros k x I Hx. unfold kids in I. apply in_map_iff in I as (c & <- & Ic). cbn [fst snd children] in *.
    rewrite Forall_forall in IH. destruct (IH c Ic (Elem t a ns cs :: anc) x) as [R|[B _]]; auto.
    + intros y Py. apply P. eapply part_child; eauto. intros T. rewrite parse_node_eq in Hx. unfold parse_step in Hx. unfold tag in T.
      rewrite (xsd_kind c _ KAnnotation) in Hx by exact T. discriminate.
    + constructor; auto. apply good_named, P. constructor.
    + exfalso. eapply (not_bare (Elem t a ns cs) c); eauto; [apply P; constructor|]. intros T. rewrite (step_kind u _ _ KSchema) in H' by exact T. discriminate.
  - intros k x [].
  - intros k x [].
Qed.

(** ** Declarations *)
Lemma named_M c s : good c -> has c "name" (st_name s) -> struct_named u tns (EStruct s).
Proof. intros G H. apply (clear_M u tns xsd (st_name s)). apply (good_named c G). exact H. Qed.
Notation top := (top u tns xsd K).
Lemma lf_mono f : forall sc sc', incl sc sc' -> lf sc f -> lf sc' f.
Proof.
  intros sc sc' I L. inversion L; subst; [apply lf_plain; [auto|eapply okr_mono; eauto]|]. eapply lf_nested; eauto. eapply lu_mono; eauto.
Qed.
Lemma nil_incl {A} (l : list A) : incl [] l. Proof. intros z []. Qed.
Lemma schema_child n c e : tag "schema" n -> good n -> (forall x, part x c -> good x) -> parse_node u c [n] = Ok e -> result c e.
Proof. intros T Gn P H. apply (node_fine c [n]); auto. constructor; [apply good_named; auto|constructor]. Qed.
Lemma global_typelike n c e : tag "schema" n -> (forall x, part x c -> good x) -> one ["element"; "attribute"] c -> parse_node u c [n] = Ok e ->
  typelike e \/ exists a, e = EAlias a /\ K (al_original a) /\ (has c "type" (al_original a) \/ has c "ref" (al_original a)) /\ al_comment a = get_documentation c /\ (tag "element" c -> has c "name" (al_name a)).
Proof.
  intros T P O H. assert (G := P c (part_self c)).
  assert (Q : forall k p x nm, In k (kids u c [n]) -> xsd_type (fst k) [c; n] = Ok p -> one_of [KSimpleType; KComplexType] p = true -> snd k = Ok x -> typelike (set_name nm x)).
  { intros k p x nm Ik Ht Oo Hx. apply typelike_set. destruct (kids_in u c [n] k Ik) as [Ic Ek]. rewrite Ek in Hx.
    assert (Tk : one ["simpleType"; "complexType"] (fst k)) by (eapply one_of_tags; [|eauto|exact Oo]; reflexivity).
    eapply type_typelike; [|exact Tk|exact Hx]. intros y Py. apply P. eapply part_type; eauto. }
  destruct O as (t & [<-|[<-|[]]] & Tc).
  - rewrite (step_kind u c _ KElement) in H by exact Tc. unfold parse_element in H. rewrite (parent_kind _ n [] KSchema eq_refl T) in H. cbn [bind] in H.
    unfold parse_global_element, attr_type, attr_name in H. bo H nm Hn. apply expect_ok in Hn. destruct (attribute c (lit "type")) as [q|] eqn:At.
    + injection H as <-. right. eexists. split; [reflexivity|]. cbn. split; [|split; [left; exact At|auto]]. apply (K_ref c); auto. left. split; [eexists; split; [left; reflexivity|exact Tc]|left; exact At].
    + bo H l Hl. destruct (last_opt l) as [k|] eqn:Lk; [|injection H as <-; left; exact Logic.I]. apply rmap_iff in H as (x & Hx & <-). apply last_opt_in in Lk.
      destruct (nodes_sat _ _ _ _ _ Hl Lk) as (p & Ht & Oo). left. eapply Q; eauto. eapply rfilter_in; eauto.
  - rewrite (step_kind u c _ KAttribute) in H by exact Tc. unfold parse_attribute in H. rewrite (parent_kind _ n [] KSchema eq_refl T) in H. cbn [bind is_kind kind_beq] in H.
    unfold parse_global_attribute, attr_ref, attr_type, attr_name in H.
    assert (NE : tag "element" c -> False) by (intros X; unfold tag in *; rewrite Tc in X; discriminate).
    assert (Oc : one ["element"; "attribute"] c) by (eexists; split; [right; left; reflexivity|exact Tc]).
    destruct (attribute c (lit "ref")) as [r|] eqn:Ar.
    + injection H as <-. right. eexists. split; [reflexivity|]. cbn. split; [|split; [right; exact Ar|split; [auto|intros X; destruct (NE X)]]]. apply (K_ref c); auto. left. split; auto.
    + bo H nm Hn. destruct (attribute c (lit "type")) as [q|] eqn:At.
      * injection H as <-. right. eexists. split; [reflexivity|]. cbn. split; [|split; [left; exact At|split; [auto|intros X; destruct (NE X)]]]. apply (K_ref c); auto. left. split; auto.
      * bo H l Hl. destruct (last_opt l) as [k|] eqn:Lk; [|injection H as <-; left; exact Logic.I]. apply rmap_iff in H as (x & Hx & <-). apply last_opt_in in Lk.
        destruct (elements_sat _ _ _ _ _ Hl Lk) as (_ & p & Ht & Oo). left. eapply Q; eauto; [eapply rfilter_in; eauto|]. cbn. rewrite Oo. auto.
Qed.
Lemma declaration_top n c e : ok_schema n -> (forall x, part x n -> good x) -> In c (declarations n) -> declares c e -> parse_node u c [n] = Ok e -> top e.
Proof.
  intros O P Ic D H. destruct (in_declarations _ _ Ic) as (I & E & N & NG).
  assert (Pc : forall x, part x c -> good x) by (intros x Px; apply P; eapply part_child; eauto).
  assert (Tc : forall x, part x c -> tidy_element x) by (intros x Px; apply Pc; auto).
  assert (R := schema_child n c e (proj1 O) (P n (part_self n)) Pc H).
  assert (TL : typelike e -> top e).
  { intros Ty. split.
    - destruct R as [R|(_ & en & -> & L)]; auto. eapply lu_mono; [apply nil_incl|apply outcome_lu; auto].
    - destruct e; try exact Logic.I. eapply named_M; [apply Pc; constructor|]. eapply struct_name; eauto. }
  destruct (declared_tags _ _ O I E N) as (t & It & Tt). cbn in It.
  assert (GL : In t ["element"; "attribute"] -> top e).
  { intros X. destruct (global_typelike n c e (proj1 O) Pc) as [Y|(a & -> & Ka & _)]; auto; [exists t; auto|]. split; [constructor; apply okr_K; auto|exact Logic.I]. }
  assert (TT : In t ["simpleType"; "complexType"] -> top e) by (intros X; apply TL; eapply type_typelike; eauto; exists t; auto).
  destruct It as [<-|[<-|[<-|[<-|[<-|[<-|[<-|[]]]]]]]]; try (apply GL; cbn; auto; fail); try (apply TT; cbn; auto; fail).
  - rewrite (step_kind u c _ KImport) in H by exact Tt. injection H as <-. split; [constructor|exact Logic.I].
  - rewrite (step_kind u c _ KInclude) in H by exact Tt. injection H as <-. split; [constructor|exact Logic.I].
Qed.
Definition linkable (e : entity) : Prop := match e with EStruct s => st_subtypes s = [] /\ Forall (lf []) (st_fields s) | _ => True end.
Lemma result_linkable c e : result c e -> linkable e.
Proof. intros [R|(_ & en & -> & _)]; [|exact Logic.I]. destruct e; try exact Logic.I. cbn in *. inversion R; auto. Qed.
Lemma file_top n f : ok_schema n -> (forall x, part x n -> good x) -> parse_schema u n [] = Ok f -> Forall top (rf_types f) /\ Forall linkable (top_level f).
Proof.
  intros O P H. destruct (schema_inv _ _ _ _ H) as (_ & H1 & H2 & _). destruct (schema_ok _ _ _ _ (proj1 O) H) as [D _].
  assert (X : forall c e, In c (children n) -> ~ tag "annotation" c -> parse_node u c [n] = Ok e -> linkable e).
  { intros c e I N Hc. eapply result_linkable, schema_child; [apply O|apply P; constructor| |exact Hc]. intros x Px. apply P. eapply part_child; eauto. }
  assert (F3 : forall (A B : node -> entity -> Prop) l r, Forall2 A l r -> Forall2 B l r -> forall e, In e r -> exists c, In c l /\ A c e /\ B c e).
  { intros A B l r F. induction F; intros G e I; [destruct I|]. inversion G; subst. destruct I as [<-|I]; [eexists; split; [left; reflexivity|auto]|].
    edestruct IHF as (z & Z1 & Z2); eauto. exists z. split; [right; auto|auto]. }
  split; [|apply Forall_app; split]; apply Forall_forall; intros e Ie.
  - destruct (F3 _ _ _ _ H1 D e Ie) as (c & Ic & Hc & Dc). eapply declaration_top; eauto.
  - destruct (Forall2_in_r _ _ _ _ H1 Ie) as (c & Ic & Hc). apply in_declarations in Ic as (I & E & N & _). eauto.
  - destruct (Forall2_in_r _ _ _ _ H2 Ie) as (c & Ic & Hc). apply in_tagged in Ic as [I (t & [<-|[]] & Tc)]. eapply X; eauto. unfold tag in *. rewrite Tc. discriminate.
Qed.

(** ** Linking *)
Lemma assembled_lf (S : str -> list (field entity) -> Prop) sc own out : (forall q c, S q c -> Forall (lf []) c) ->
  Forall (lf sc) own -> assembled S own out -> Forall (lf sc) out.
Proof.
  intros HP Ho (cs & F & ->). apply Forall_app. split.
  - apply Forall_forall. intros f I. apply in_proper in I as [I _]. rewrite Forall_forall in Ho. auto.
  - apply Forall_forall. intros f I. apply in_not_redeclared in I as [I _]. destruct (in_concat_2 _ _ _ _ F I) as (b & c & _ & H & Ic).
    apply HP in H. rewrite Forall_forall in H. eapply lf_mono; [apply nil_incl|auto].
Qed.
Definition same_head (e e' : entity) : Prop := entity_name e' = entity_name e /\ (typelike e -> typelike e') /\ (struct_named u tns e -> struct_named u tns e').
Lemma completed_head S e e' : completed S e e' -> same_head e e'.
Proof.
  intros C. inversion C; subst; [|split; auto]. match goal with X : same_struct _ _ |- _ => destruct X as (E & _) end. split; [exact E|]. split; auto. cbn. rewrite E. auto.
Qed.
Lemma same_fields_lf (R : entity -> entity -> Prop) sc fs gs :
  (forall f e e', In f fs -> In e (fl_subtypes f) -> R e e' -> lu sc e -> lu sc e') -> (forall e e', R e e' -> same_head e e') ->
  Forall (lf sc) fs -> Forall2 (same_field R) fs gs -> Forall (lf sc) gs.
Proof.
  intros HR HH F H. apply Forall_forall. intros g I. destruct (Forall2_in_r _ _ _ _ H I) as (f & If & (E1 & E2 & _ & _ & _ & Hs)).
  rewrite Forall_forall in F. assert (D := F f If). inversion D as [f' Ef Oq|f' x Ef Ty En Nn Sn L]; subst.
  - rewrite Ef in Hs. inversion Hs; subst. apply lf_plain; [auto|rewrite E2; auto].
  - assert (Ix : In x (fl_subtypes f)) by (rewrite Ef; left; auto). rewrite Ef in Hs. inversion Hs as [|? y ? ys Hy Hys]; subst. inversion Hys; subst. destruct (HH _ _ Hy) as (N1 & N2 & N3).
    apply lf_nested with (x := y); auto; rewrite ?E2; try congruence; auto. eapply HR; eauto.
Qed.
Lemma completed_lu (S : str -> list (field entity) -> Prop) e : (forall q c, S q c -> Forall (lf []) c) ->
  forall sc e', completed S e e' -> lu sc e -> lu sc e'.
Proof.
  intros HP. induction e as [s IHf IHs|t IH|n IH|f|c|a|i] using entity_sub_ind; intros sc e' C D; inversion C; subst; auto.
  inversion D; subst. match goal with X : same_struct _ _ |- _ => destruct X as (E1 & E2 & E3 & E4) end. constructor; [congruence|].
  eapply assembled_lf; [exact HP| |eassumption]. eapply same_fields_lf; [|apply completed_head|eassumption|eassumption]. intros f e e' If Ie. eapply IHf; eauto.
Qed.
Lemma link_top f f' : link f = Ok f' -> Forall top (rf_types f) -> Forall linkable (top_level f) -> Forall top (rf_types f').
Proof.
  intros L Tf D. destruct (link_ok _ _ L) as (Eg & _ & _ & Len & Other & Str).
  assert (G : forall i e, nth_error (rf_types f') i = Some e -> linkable e /\ top e).
  { induction i as [i IH] using (well_founded_induction lt_wf). intros e' He'.
    assert (Li : (i < List.length (rf_types f))%nat) by (rewrite <- Len; apply nth_error_Some; congruence).
    destruct (nth_error (rf_types f) i) as [e|] eqn:He; [|apply nth_error_None in He; lia].
    assert (De : linkable e). { rewrite Forall_forall in D. apply D. unfold top_level. apply in_or_app. left. eapply nth_error_In; eauto. }
    assert (Te : top e). { rewrite Forall_forall in Tf. apply Tf. eapply nth_error_In; eauto. }
    destruct e as [s|fl|t|n|c|a|im]; try (rewrite (Other i _ He) in He' by discriminate; injection He' as <-; auto; fail).
    destruct (Str i s He) as (t & Ht & own & out & gs & Same & Ho & As & Hg & Ef). unfold struct_at in Ht. rewrite Ht in He'. injection He' as <-.
    assert (SD : forall q c, snapshot (top_level f) (top_level f') i q c -> Forall (lf []) c).
    { intros q c [[_ ->]|(j & Rf & [(Lj & x & Hx & ->)|(Lj & x & Hx & ->)])]; [constructor| |].
      - unfold struct_at, top_level in Hx. rewrite nth_error_app1 in Hx by (rewrite Len; lia). apply IH in Hx; [|auto]. apply Hx.
      - apply nth_error_In in Hx. rewrite Forall_forall in D. apply D in Hx. apply Hx. }
    destruct De as [D1 D2]. destruct Same as (E1 & E2 & E3 & E4).
    assert (Down : Forall (lf []) own).
    { eapply same_fields_lf; [|apply completed_head|exact D2|exact Ho]. intros f0 e e' _ _. apply completed_lu. exact SD. }
    assert (Dout : Forall (lf []) out).
    { eapply assembled_lf; [|exact Down|exact As]. intros q c [X|[_ ->]]; [eauto|constructor]. }
    assert (Lt : st_subtypes t = [] /\ Forall (lf []) (st_fields t)).
    { split; [congruence|]. rewrite Ef. apply Forall_app. split; auto. apply Forall_concat. apply Forall_forall. intros g Ig.
      destruct (Forall2_in_r _ _ _ _ Hg Ig) as (a & _ & [X|[_ ->]]); eauto. }
    split; [exact Lt|]. destruct Te as [_ Ts]. split; [|cbn; rewrite E1; exact Ts].
    constructor; [apply Lt|]. eapply Forall_impl; [|apply Lt]. intros g Lg. eapply lf_mono; [apply nil_incl|exact Lg]. }
  apply Forall_forall. intros e I. apply In_nth_error in I as (i & Hi). apply (G i e Hi).
Qed.
End Parsed.

(** ** The names of a document *)
Lemma library_text u s : In s (map snd built_in_table) -> exists c, within u (lexemes u s) c /\ exists t, In t library_types /\ c = rust u t.
Proof.
  assert (X : forallb (fun s => existsb (fun t => str_eqb s (lit t)) library_types || str_eqb s (lit "Vec<String>")) (map snd built_in_table) = true) by (vm_compute; reflexivity).
  rewrite forallb_forall in X. intros I. apply X in I. apply orb_true_iff in I as [I|I].
  - apply existsb_exists in I as (t & It & E). apply str_eqb_eq in E. subst s. exists (rust u t). split; [constructor|eauto].
  - apply str_eqb_eq in I. subst s. exists (rust u "String"). split; [|exists "String"%string; split; [left; auto|auto]].
    change (lexemes u (lit "Vec<String>")) with (rust u "Vec<" ++ rust u "String" ++ rust u ">"). constructor. constructor.
Qed.
Section Document.
Context (u : uni) (schema : node) (tns xsd : option namespace) (D : list (list str * list token)).
Notation own := (ns_prefix tns).
Notation xs := (ns_prefix xsd).
Notation tid := (fun q => format_type_name u q xsd tns).
Notation ty := (SpecGen.ty u tid).
Notation resolves := (resolves u (namespaces schema) own xs D).
Context (HD : forall nm, introduced schema nm -> In ([], ty nm) D).
Context (HN : forall nm, introduced schema nm -> clear_name u own xs nm).

Lemma string_text : ty (lit "String") = rust u "String".
Proof.
  assert (O : own_name xsd (lit "String")).
  { apply own_of; [split; [exists 83, (lit "tring"); split; [reflexivity|right; unfold upper; lia]|apply no_colon_ok; reflexivity]|]. intros _.
    apply builtin_check with (p := fun k => negb (str_eqb k (lit "String"))); vm_compute; reflexivity. }
  unfold SpecGen.ty. rewrite (own_text u tns xsd _ O). rewrite pascal_canonical.
  - reflexivity.
  - exists 83, 116, (lit "ring"). split; [reflexivity|]. split; [unfold upper; lia|]. split; [unfold lower; lia|]. intros c I. vm_compute in I. unfold letter, upper, lower. repeat (destruct I as [<-|I]; [lia|]). destruct I.
Qed.
Lemma foreign_text q x l ns : qualified q (Some x) l -> In ns (namespaces schema) -> ns_name ns = Some x -> own <> Some x -> xs <> Some x -> x <> lit "xs" -> plain_word x -> letter_first l ->
  foreign u (namespaces schema) own xs (ty q).
Proof.
  clear HD HN. intros Q In_ En No Nx Nl [L Wx] Ll.
  exists ns, x, (pascal_name u l). split; auto. split; auto. split; auto. split; auto. split; auto.
    unfold SpecGen.ty. rewrite (format_type_foreign u q x l); auto.
  - assert (E : match x with c :: _ => if is_numeric u c then [95] else [] | [] => [] end = ([] : str)).
      { destruct L as (c & t & -> & L). rewrite numeric_ascii by (unfold letter, lower, upper in L; lia).
        assert (Dg : is_ascii_digit c = false) by (unfold is_ascii_digit; unfold letter, lower, upper in L; lia). rewrite Dg. reflexivity. }
      rewrite E. rewrite app_nil_l. rewrite (opened_lexemes u _ (word x ++ rust u "::" ++ word (pascal_name u l))).
      { rewrite !word_nonempty; auto; [apply pascal_nonempty; auto|destruct L as (c & t & -> & _); discriminate]. }
      apply opened_opened; [apply opened_word|reflexivity|].
      * apply Forall_forall. intros c I. destruct (Wx c I) as [A| ->]; [|reflexivity]. apply alnum_word. auto.
      * apply closed_open_app; [reflexivity|apply opened_word, pascal_word].
  - apply (built_in_none q (Some x) l xsd Q). intros [E _]. congruence.
Qed.
Lemma known_resolves q : K schema tns xsd q -> forall path, resolves path (ty q).
Proof.
  intros [->|(p & l & Q & [[-> B]|[(NB & P & I)|(x & ns & -> & In_ & En & No & Nx & Nl & Wx & Ll)]])] path.
  - rewrite string_text. exists (rust u "String"). split; [constructor|]. left. exists "String"%string. split; [left; auto|auto].
  - destruct (match_built_in_type q xsd) as [t|] eqn:E.
    + assert (X : In t (map snd built_in_table)). { apply built_in_iff in E as (l' & _ & A). apply assoc_in in A. apply (in_map snd) in A. exact A. }
      destruct (library_text u t X) as (c & W & s & Is & ->). unfold SpecGen.ty, format_type_name. rewrite E. exists (rust u s). split; auto. left. eauto.
    + exfalso. apply (built_in_none q (ns_prefix xsd) l xsd Q) in E. apply E. auto.
  - assert (C := HN l I). assert (O := clear_own u tns xsd l C).
    assert (Eq : tid q = tid l). { rewrite (own_text u tns xsd l O). apply (format_type_own u q p l); auto. apply (built_in_none q p l xsd Q). auto. }
    assert (Et : ty q = ty l) by (unfold SpecGen.ty; rewrite Eq; auto). rewrite Et. assert (J := HD l I). destruct (own_token u tns xsd l O) as (w & W). rewrite W in *.
    exists [TWord w]. split; [constructor|]. right. right. apply scope_above with (p := []) (q := path); auto.
  - exists (ty q). split; [constructor|]. right. left. eapply foreign_text; eauto.
Qed.
End Document.

(** What a declaration introduces, in the linked file too. *)
Lemma named_present e nm : typelike e -> named nm e -> In nm (here e).
Proof.
  intros T [<-|(en & s & -> & _ & Es & <-)]; [apply named_here; auto|]. cbn. rewrite Es. right. left. auto.
Qed.
Definition present_as (nm : str) (e : entity) : Prop := typelike e /\ named nm e \/ exists a, e = EAlias a /\ al_name a = nm /\ SpecGen.documented (al_comment a).
Lemma present_linked f f' nm : link f = Ok f' -> (exists e, In e (rf_types f) /\ present_as nm e) -> exists e, In e (rf_types f') /\ present_as nm e.
Proof.
  intros L (e & I & [[T N]|(a & -> & E & D)]).
  - destruct (named_linked _ _ L nm e I T N) as (e' & I' & T' & N'). exists e'. split; auto. left. auto.
  - destruct (link_ok _ _ L) as (_ & _ & _ & _ & Other & _). apply In_nth_error in I as (i & Hi). apply Other in Hi; [|discriminate]. exists (EAlias a). split; [eapply nth_error_In; eauto|]. right. eauto.
Qed.
Definition introduces_type (d : node) : Prop :=
  (tag "attribute" d -> absent d "ref") /\
  (one ["simpleType"; "complexType"] d \/ one ["element"; "attribute"] d /\ absent d "type" \/
   one ["element"; "attribute"] d /\ present d "type" /\ exists c, SpecSchema.documented d c /\ SpecGen.documented (Some c)).
Lemma introduced_at u n f nm : ok_schema n -> (forall x, part x n -> tidy_element x) -> parse_schema u n [] = Ok f -> introduced n nm ->
  exists d, In d (children n) /\ has d "name" nm /\ introduces_type d /\
  exists i e, nth_error (declarations n) i = Some d /\ nth_error (rf_types f) i = Some e /\ present_as nm e.
Proof.
  intros O T H (d & I & Hn & Ar & Hd). exists d. split; auto. split; auto. split; [split; auto|].
  assert (X : one ["simpleType"; "complexType"] d \/ tag "element" d /\ absent d "type" -> exists i e, nth_error (declarations n) i = Some d /\ nth_error (rf_types f) i = Some e /\ present_as nm e).
  { intros Y. destruct (declaration_named_at u n f d nm O T H I Hn Y) as (i & e & Hi & Ie & Te & Ne). exists i, e. split; auto. split; auto. left. auto. }
  assert (Y : tag "attribute" d /\ absent d "type" \/ one ["element"; "attribute"] d /\ present d "type" /\ (exists c, SpecSchema.documented d c /\ SpecGen.documented (Some c)) ->
    exists i e, nth_error (declarations n) i = Some d /\ nth_error (rf_types f) i = Some e /\ present_as nm e).
  2:{ destruct Hd as [Hd|[[(t & [<-|[<-|[]]] & Td) Hd]|Hd]]; auto. }
  clear X Hd. intros Hd.
  assert (Td : one ["element"; "attribute"] d) by (destruct Hd as [[X _]|[X _]]; [eexists; split; [right; left; reflexivity|exact X]|exact X]).
  assert (Nd : forall t, In t ["annotation"; "attributeGroup"] -> ~ tag t d).
  { intros t It X. destruct Td as (s & Is & Ts). unfold tag in *. rewrite X in Ts. cbn in It, Is. clear - It Is Ts.
    repeat (destruct It as [<-|It]; [repeat (destruct Is as [<-|Is]; [discriminate|]); destruct Is|]). destruct It. }
  assert (Ed : is_element d = true) by (destruct Td as (s & Is & Ts); apply (nonempty_element s d); auto; cbn in Is; clear - Is; repeat (destruct Is as [<-|Is]; [discriminate|]); destruct Is).
  assert (Id : In d (declarations n)).
  { unfold declarations. rewrite filter_In, !andb_true_iff, !negb_true_iff. split; auto. split; [split; auto|].
    - destruct (tagged "annotation" d) eqn:X; auto. apply tagged_iff in X. exfalso. eapply (Nd "annotation"%string); eauto. cbn; auto.
    - destruct (tagged "attributeGroup" d) eqn:X; auto. apply tagged_iff in X. exfalso. eapply (Nd "attributeGroup"%string); eauto. cbn; auto. }
  destruct (schema_inv _ _ _ _ H) as (_ & H1 & _).
  apply In_nth_error in Id as (i & Hi).
  assert (F2 : forall (P : node -> entity -> Prop) l r j x, Forall2 P l r -> nth_error l j = Some x -> exists y, nth_error r j = Some y /\ P x y).
  { intros P l r j x F. revert j. induction F; intros [|j] E1; try discriminate; cbn in *; [injection E1 as <-; eauto|eauto]. }
  destruct (F2 _ _ _ _ _ H1 Hi) as (e & Ie & Pe). cbn beta in Pe. exists i, e. split; auto. split; auto. clear Hi Ie. unfold has, absent, present in *.
  destruct Hd as [(Tt & At)|((t & [<-|[<-|[]]] & Tt) & (q & At) & c & Dc & Sc)].
  - left. rewrite (step_kind u d _ KAttribute) in Pe by exact Tt. unfold parse_attribute in Pe. rewrite (parent_kind _ n [] KSchema eq_refl (proj1 O)) in Pe. cbn [bind is_kind kind_beq] in Pe.
    unfold parse_global_attribute, attr_ref, attr_name, attr_type in Pe. rewrite (Ar Tt), Hn, At in Pe. cbn [expect bind] in Pe. bo Pe l Hl.
    destruct (last_opt l) as [k|] eqn:Lk; [|injection Pe as <-; split; [exact Logic.I|left; auto]].
    apply rmap_iff in Pe as (x & Hx & <-). apply last_opt_in in Lk. destruct (elements_sat _ _ _ _ _ Hl Lk) as (_ & p & Ht & Oo).
    assert (X : one ["simpleType"] (fst k)) by (apply (one_of_tags [KSimpleType] ["simpleType"] (fst k) _ p eq_refl Ht); cbn; rewrite Oo; auto).
    destruct X as (s & [<-|[]] & Ts). destruct (kids_in u d [n] k (rfilter_in _ _ _ _ Hl Lk)) as [Ik Ek]. rewrite Ek in Hx.
    split; [apply typelike_set; eapply simple_typelike; eauto|left; destruct x; reflexivity].
    apply T. eapply part_child; [exact I|apply (Nd "annotation"%string); cbn; auto|]. eapply part_child; [exact Ik| |constructor]. unfold tag in *. rewrite Ts. discriminate.
  - right. rewrite (step_kind u d _ KElement) in Pe by exact Tt. unfold parse_element in Pe. rewrite (parent_kind _ n [] KSchema eq_refl (proj1 O)) in Pe. cbn [bind] in Pe.
    unfold parse_global_element, attr_name, attr_type in Pe. rewrite Hn, At in Pe. cbn in Pe. injection Pe as <-. eexists. split; [reflexivity|]. cbn. split; auto.
    apply documented_iff in Dc. rewrite Dc. auto.
  - right. rewrite (step_kind u d _ KAttribute) in Pe by exact Tt. unfold parse_attribute in Pe. rewrite (parent_kind _ n [] KSchema eq_refl (proj1 O)) in Pe. cbn [bind is_kind kind_beq] in Pe.
    unfold parse_global_attribute, attr_ref, attr_name, attr_type in Pe. rewrite (Ar Tt), Hn, At in Pe. cbn in Pe. injection Pe as <-. eexists. split; [reflexivity|]. cbn. split; auto.
    apply documented_iff in Dc. rewrite Dc. auto.
Qed.
Lemma introduced_present u n f nm : ok_schema n -> (forall x, part x n -> tidy_element x) -> parse_schema u n [] = Ok f -> introduced n nm ->
  exists e, In e (rf_types f) /\ present_as nm e.
Proof.
  intros O T H I. destruct (introduced_at u n f nm O T H I) as (d & _ & _ & _ & i & e & _ & He & P). exists e. split; auto. eapply nth_error_In; eauto.
Qed.
Lemma present_introduced u tns xsd nm l its : all_items u tns (fun q => format_type_name u q xsd tns) (format_name u) (variant_name u tns) l its -> (exists e, In e l /\ present_as nm e) ->
  In ([], SpecGen.ty u (fun q => format_type_name u q xsd tns) nm) (concat (map (introduces []) its)).
Proof.
  intros A (e & I & P). induction A as [|x l a b A1 A2 IH]; [destruct I|]. rewrite map_app, concat_app. apply in_or_app. destruct I as [<-|I]; [left|auto].
  destruct P as [[T N]|(al & -> & En & Dc)].
  - eapply here_introduced; eauto. apply named_present; auto.
  - inversion A1; subst; [contradiction|]. left. auto.
Qed.

(** ** Resolution *)
Lemma good_parts u schema tns xsd x : tidy schema -> (forall y, part y schema -> orderly u schema (ns_prefix tns) (ns_prefix xsd) y) -> part x schema -> good u schema tns xsd x.
Proof. intros [T _] O P. split; auto. Qed.
Lemma introduced_clear u schema own xs nm : (forall y, part y schema -> orderly u schema own xs y) -> introduced schema nm -> clear_name u own xs nm.
Proof.
  intros O (d & I & Hn & _ & Hd). assert (P : part d schema).
  { eapply part_child; [exact I| |constructor]. intros Ta. unfold tag in *.
    assert (X : forall t, tag t d -> lit t <> lit "annotation" -> False) by (unfold tag; intros t Tt N; congruence).
    destruct Hd as [(t & [<-|[<-|[]]] & Td)|[[(t & [<-|[<-|[]]] & Td) _]|[(t & [<-|[<-|[]]] & Td) _]]]; eapply X; try exact Td; discriminate. }
  destruct (O d P) as (_ & N & _). auto.
Qed.
Lemma schema_resolves u schema f its : ok_schema schema -> tidy schema -> parse_schema u schema [] = Ok f ->
  (forall x, part x schema -> orderly u schema (ns_prefix (rf_target_ns f)) (ns_prefix (rf_xsd_ns f)) x) ->
  all_items u (rf_target_ns f) (fun q => format_type_name u q (rf_xsd_ns f) (rf_target_ns f)) (format_name u) (variant_name u (rf_target_ns f)) (rf_types f) its ->
  forall P t, In (P, t) (concat (map (mentions []) its)) -> resolves u (namespaces schema) (ns_prefix (rf_target_ns f)) (ns_prefix (rf_xsd_ns f)) (concat (map (introduces []) its)) P t.
Proof.
  intros O T H Or A. destruct (file_top u schema (rf_target_ns f) (rf_xsd_ns f) schema f O) as [Tp _]; auto; [intros; apply good_parts; auto|].
  eapply top_resolves; [|exact A|apply incl_refl|exact Tp]. intros q Kq. apply known_resolves; auto.
  - intros nm I. eapply present_introduced; eauto. eapply introduced_present; eauto. apply T.
  - intros nm I. eapply introduced_clear; eauto.
Qed.
Lemma document_resolves u roots schema f its : document roots schema -> ok_schema schema -> tidy schema -> parse u roots = Ok f ->
  (forall x, part x schema -> orderly u schema (ns_prefix (rf_target_ns f)) (ns_prefix (rf_xsd_ns f)) x) ->
  all_items u (rf_target_ns f) (fun q => format_type_name u q (rf_xsd_ns f) (rf_target_ns f)) (format_name u) (variant_name u (rf_target_ns f)) (rf_types f) its ->
  forall P t, In (P, t) (concat (map (mentions []) its)) -> resolves u (namespaces schema) (ns_prefix (rf_target_ns f)) (ns_prefix (rf_xsd_ns f)) (concat (map (introduces []) its)) P t.
Proof.
  intros (a & b & -> & E & L) O T H Or A. destruct (parse_document u (a ++ schema :: b)) as [PD _].
  destruct (proj1 (proj1 (PD a schema b eq_refl E L) f) H) as (f0 & Hp & Hl). destruct (link_ok _ _ Hl) as (_ & Et & Ex & _).
  destruct (file_top u schema (rf_target_ns f) (rf_xsd_ns f) schema f0 O) as [Tp Lk]; auto; [intros; apply good_parts; auto|].
  assert (Tp' := link_top _ _ _ _ _ _ Hl Tp Lk).
  eapply top_resolves; [|exact A|apply incl_refl|exact Tp']. intros q Kq. apply known_resolves; auto.
  - intros nm I. eapply present_introduced; eauto. eapply present_linked; eauto. eapply introduced_present; eauto. apply T.
  - intros nm I. eapply introduced_clear; eauto.
Qed.
