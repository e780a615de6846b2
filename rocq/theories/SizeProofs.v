(** Proofs about sizes: generated types contain themselves only through vectors. *)
From Coq Require Import Arith NArith ZArith Bool Ascii String List Lia Relations Wellfounded.Transitive_Closure.
From Verif Require Import Str StrFacts SpecLex SpecNames SpecBuiltin SpecSerde SerdeProofs Xml Comment CommentProofs Names NamesProofs Entity Parser ParserFacts SpecSchema ParserProofs Link SpecLink LinkProofs Gen SpecRust SpecGen RustFacts GenProofs GenProofs2 SpecDoc DocProofs SpecScope ScopeProofs SpecTraits TraitProofs SpecSize.
Import ListNotations.
Local Open Scope string_scope.
Local Open Scope list_scope.
Local Open Scope N_scope.
Notation concat := List.concat.
Arguments lit : simpl never.

(** ** Entities *)
(** The names of an entity whose size matters to what contains it. *)
Fixpoint front (e : entity) : list str :=
  match e with
  | EStruct s => [st_name s]
  | ETuple t => [tu_name t]
  | EEnum n => en_name n :: concat (map front (en_subtypes n))
  | _ => []
  end.
Notation fronts l := (concat (map front l)).
Definition spared (ms : list modifier) : Prop := In MEmpty ms \/ In MArray ms \/ In MRecursive ms.
Definition always (q : str) : Prop := True.

Section Weight.
Context (xsd : option namespace) (K : str -> Prop).
Notation own_name := (own_name xsd).
Definition okh (H : str -> Prop) (sc : list str) (q : str) : Prop := H q \/ In q sc /\ own_name q.
(** [wt H S sc e]: what [e] contains satisfies [H] or is in [sc]; what it splices satisfies
    [S].  Below a vector anything known will do. *)
Inductive wt (H S : str -> Prop) (sc : list str) : entity -> Prop :=
| wt_struct s : Forall (wf H S sc) (st_fields s) -> (forall f, In f (st_fields s) -> placeholder f -> S (fl_type f)) ->
    (forall a, In a (st_groups s) -> S (al_original a)) -> wt H S sc (EStruct s)
| wt_tuple t : tu_subtypes t = [] -> okh H sc (tu_type t) -> wt H S sc (ETuple t)
| wt_list t : In MArray (tu_mods t) -> Forall (wt K always sc) (tu_subtypes t) -> wt H S sc (ETuple t)
| wt_union n : okh H sc (en_type n) -> Forall (fun c => forall t, ec_type c = Some t -> spared (ec_mods c) \/ okh H (fronts (en_subtypes n) ++ sc) t) (en_cases n) ->
    Forall (wt H S sc) (en_subtypes n) -> wt H S sc (EEnum n)
| wt_choice n : okh H sc (en_type n) -> Forall (fun c => forall t, ec_type c = Some t -> spared (ec_mods c) \/ okh H sc t) (en_cases n) ->
    Forall (wt H S (en_name n :: sc)) (en_subtypes n) -> wt H S sc (EEnum n)
| wt_alias a : okh H sc (al_original a) -> wt H S sc (EAlias a)
| wt_import i : wt H S sc (EImport i)
with wf (H S : str -> Prop) (sc : list str) : field entity -> Prop :=
| wf_spared f : fl_subtypes f = [] -> spared (fl_mods f) -> wf H S sc f
| wf_plain f : fl_subtypes f = [] -> okh H sc (fl_type f) -> wf H S sc f
| wf_nested f x : fl_subtypes f = [x] -> wt H S sc x -> wf H S sc f
| wf_vec f x : fl_subtypes f = [x] -> spared (fl_mods f) -> wt K always sc x -> wf H S sc f.

Lemma okh_mono (H H' : str -> Prop) sc sc' q : (forall x, H x -> H' x) -> incl sc sc' -> okh H sc q -> okh H' sc' q.
Proof. intros A B [X|[X Y]]; [left; auto|right; auto]. Qed.
Lemma wt_mono e : forall (H H' S S' : str -> Prop) sc sc', (forall q, H q -> H' q) -> (forall q, S q -> S' q) -> incl sc sc' -> wt H S sc e -> wt H' S' sc' e.
Proof.
  induction e as [s IHf IHs|t IH|n IH|f|c|a|i] using entity_sub_ind; intros H H' S S' sc sc' HH SS I D;
    inversion D as [s' F Pl Gr|t' Es O|t' Ma F|n' O C F|n' O C F|a' O|i']; subst.
  - constructor; auto. apply Forall_forall. intros f If. rewrite Forall_forall in F. specialize (F f If).
    inversion F as [f' E Sp|f' E O|f' x E W|f' x E Sp W]; subst.
    + apply wf_spared; auto.
    + apply wf_plain; auto. eapply okh_mono; eauto.
    + eapply wf_nested; eauto. eapply IHf; eauto. rewrite E. left. auto.
    + eapply wf_vec; eauto. eapply (IHf f x If) with (H := K) (S := always); eauto. rewrite E. left. auto.
  - apply wt_tuple; auto. eapply okh_mono; eauto.
  - apply wt_list; auto. rewrite Forall_forall in *. intros x Ix. eapply (IH x Ix) with (H := K) (S := always); eauto.
  - apply wt_union; [eapply okh_mono; eauto| |].
    + eapply Forall_impl; [|exact C]. cbn. intros c Hc t Ht. destruct (Hc t Ht) as [X|X]; auto. right. eapply okh_mono; eauto. apply incl_app; [apply incl_appl, incl_refl|apply incl_appr; auto].
    + rewrite Forall_forall in *. intros x Ix. eapply IH; eauto.
  - apply wt_choice; [eapply okh_mono; eauto| |].
    + eapply Forall_impl; [|exact C]. cbn. intros c Hc t Ht. destruct (Hc t Ht) as [X|X]; auto. right. eapply okh_mono; eauto.
    + rewrite Forall_forall in *. intros x Ix. eapply IH; eauto. intros z [<-|Z]; [left; auto|right; auto].
  - apply wt_alias. eapply okh_mono; eauto.
  - constructor.
Qed.
Lemma wf_mono f (H H' S S' : str -> Prop) sc sc' : (forall q, H q -> H' q) -> (forall q, S q -> S' q) -> incl sc sc' -> wf H S sc f -> wf H' S' sc' f.
Proof.
  intros HH SS I F. inversion F as [f' E Sp|f' E O|f' x E W|f' x E Sp W]; subst.
  - apply wf_spared; auto.
  - apply wf_plain; auto. eapply okh_mono; eauto.
  - eapply wf_nested; eauto. eapply wt_mono; eauto.
  - eapply wf_vec; eauto. eapply wt_mono; [| |exact I|exact W]; auto.
Qed.

(** ** The generated code *)
Section Generated.
Context (u : uni) (tns : option namespace) (nss : list namespace) (P : list (list str * item)).
Notation tid := (fun q => format_type_name u q xsd tns).
Notation ty := (SpecGen.ty u tid).
Notation items := (items u tns tid (format_name u) (variant_name u tns)).
Notation all_items := (all_items u tns tid (format_name u) (variant_name u tns)).
Notation sized := (sized u nss (ns_prefix tns) (ns_prefix xsd) P).
Notation lu := (lu u tns xsd K).
Notation lf := (lf u tns xsd K).
Notation flat_fields := (flat_fields u tns).
Notation M := (M u tns).
Context (US : unshadowed P).

(** A name whose definition has been dealt with. *)
Definition sz (path : list str) (q : str) : Prop :=
  exists p r i, path = p ++ r /\ In (p, i) P /\ defines i (ty q) /\ forall c, In c (parts_of i) -> sized p c.
Lemma sz_inner path m q : sz path q -> sz (path ++ [m]) q.
Proof. intros (p & r & i & -> & H). exists p, (r ++ [m]), i. rewrite app_assoc. auto. Qed.
Lemma app_split {A} : forall (a b c d : list A), a ++ b = c ++ d -> (exists e, c = a ++ e) \/ (exists e, a = c ++ e).
Proof.
  intros a. induction a as [|x a IH]; intros b c d E; [left; exists c; auto|]. destruct c as [|y c]; [right; exists (x :: a); auto|].
  cbn in E. injection E as -> E. destruct (IH _ _ _ E) as [(e & ->)|(e & ->)]; [left|right]; exists e; auto.
Qed.
Lemma same_place p q i j n path r r' : path = p ++ r -> path = q ++ r' -> In (p, i) P -> In (q, j) P -> defines i n -> defines j n -> p = q /\ i = j.
Proof.
  intros E1 E2 I J Di Dj. rewrite E1 in E2. apply app_split in E2 as [(e & ->)|(e & ->)].
  - destruct (proj1 US _ _ _ _ _ I J Di Dj) as [-> ->]. rewrite app_nil_r. auto.
  - destruct (proj1 US _ _ _ _ _ J I Dj Di) as [-> ->]. rewrite app_nil_r. auto.
Qed.
Lemma sz_sized path q : own_name q -> sz path q -> sized path (ty q).
Proof.
  intros O (p & r & i & E & I & D & H). destruct (own_token u tns xsd q O) as (w & W). rewrite W in *. apply sized_name.
  - exists p, i. eapply seen_above; eauto.
  - intros p' j c S J. inversion S as [w' p0 r' i0 E' I' D'|m w' i0 I' D' E']; subst.
    destruct (same_place p p' i j [TWord w] _ r r' eq_refl E') as [<- <-]; auto.
Qed.
Lemma sz_here path q j : sz path q -> In (path, j) P -> defines j (ty q) -> forall c, In c (parts_of j) -> sized path c.
Proof.
  intros (p & r & i & E & I & D & H) J Dj. destruct (same_place p path i j (ty q) path r [] E) as [<- <-]; auto. rewrite app_nil_r. auto.
Qed.
Lemma sz_module path m q : own_name q -> m <> [] -> sz (path ++ [m]) q -> (exists j, In (path ++ [m], j) P /\ defines j (ty q)) ->
  sized path ([TWord m] ++ rust u "::" ++ ty q).
Proof.
  intros O Ne S (j & J & Dj). destruct (own_token u tns xsd q O) as (w & W). assert (H := sz_here _ _ _ S J Dj). rewrite W in *. apply sized_name.
  - exists (path ++ [m]), j. apply seen_module; auto.
  - intros p i c Se Ic. inversion Se as [w' p0 r' i0 E' I' D' E''|m' w' i0 I' D' E']; subst. destruct (same_place (path ++ [m]) (path ++ [m]) j i [TWord w] (path ++ [m]) [] []) as [_ <-]; auto; rewrite app_nil_r; auto.
Qed.
Lemma sized_fold path ms : forall t, sized path t \/ In MArray ms -> sized path (fold_left (wrap u) ms t).
Proof.
  induction ms as [|m ms IH]; intros t H; cbn [fold_left]; [destruct H as [H|[]]; auto|]. apply IH.
  destruct m; cbn; destruct H as [H|[H|H]]; try discriminate; auto; left; first [apply sized_vec|apply sized_option; auto].
Qed.
Lemma sized_modified path t ms : ~ In MEmpty ms -> sized path t \/ spared ms -> sized path (modified u t ms).
Proof.
  intros N H. unfold modified. rewrite (not_in_existsb _ _ N). destruct (existsb (modifier_eqb MRecursive) ms) eqn:E; [apply sized_vec|].
  apply sized_fold. destruct H as [H|[H|[H|H]]]; auto; [contradiction|]. exfalso. enough (existsb (modifier_eqb MRecursive) ms = true) by congruence. apply existsb_exists. exists MRecursive. auto.
Qed.
Definition settled (H : str -> Prop) : Prop := forall q, H q -> forall path, sized path (ty q).
Lemma okh_sized (H : str -> Prop) sc path q : settled H -> (forall x, In x sc -> sz path x) -> okh H sc q -> sized path (ty q).
Proof. intros St V [X|[X O]]; [apply St; auto|]. apply sz_sized; auto. Qed.

Notation put path its := (concat (map (placed path) its)).
Lemma put_top path its i : In i its -> In (path, i) (put path its).
Proof. intros I. apply in_placed_concat. exists i. split; auto. destruct i; left; auto. Qed.
Lemma front_list l : (forall e, In e l -> forall its q, items e its -> In q (front e) -> exists i, In i its /\ defines i (ty q)) ->
  forall its q, all_items l its -> In q (fronts l) -> exists i, In i its /\ defines i (ty q).
Proof.
  intros H its q A. revert q. induction A as [|e l a b A1 A2 IH]; intros q I; [destruct I|]. cbn [map List.concat] in I.
  apply in_app_or in I as [I|I].
  - destruct (H e (or_introl eq_refl) _ _ A1 I) as (i & X & Y). exists i. split; auto. apply in_or_app. auto.
  - destruct (IH (fun x J => H x (or_intror J)) q I) as (i & X & Y). exists i. split; auto. apply in_or_app. auto.
Qed.
Lemma front_defined e : forall its q, items e its -> In q (front e) -> exists i, In i its /\ defines i (ty q).
Proof.
  induction e as [s IHf IHs|t IH|n IH|f|c|a|i] using entity_sub_ind; intros its q A I; inversion A; subst; try destruct I; subst.
  - eexists. split; [left; reflexivity|reflexivity].
  - destruct H.
  - eexists. split; [left; reflexivity|reflexivity].
  - destruct H.
  - eexists. split; [left; reflexivity|reflexivity].
  - edestruct front_list as (i & X & Y); eauto. exists i. split; auto. apply in_or_app. right. exact X.
Qed.
Lemma named_front e : typelike e -> In (entity_name e) (front e).
Proof. destruct e; cbn; intros []; left; auto. Qed.

(** Members of a struct. *)
Notation mod_of s := (format_name u (st_name s)).
Definition inner_ready (H S : str -> Prop) (sc : list str) (path : list str) (s : strukt entity) : Prop :=
  forall f x, In f (st_fields s) -> fl_subtypes f = [x] -> typelike x -> wt H S sc x ->
    sz (path ++ [mod_of s]) (entity_name x) /\ exists j, In (path ++ [mod_of s], j) P /\ defines j (ty (entity_name x)).
Lemma member_sized H S sc sc' path s f : settled H -> (forall x, In x sc -> sz path x) -> flat_fields (EStruct s) ->
  lf sc' f -> wf H S sc f -> In f (st_fields s) -> ~ In MEmpty (fl_mods f) -> inner_ready H S sc path s ->
  sized path (rf_type (member u tns tid (format_name u) (mod_of s) f)).
Proof.
  intros St V F Lf Wf If NE R. cbn [member rf_type]. apply sized_modified; auto.
  inversion Wf as [f' E Sp|f' E O|f' x E W|f' x E Sp W]; subst; auto.
  - left. rewrite E. eapply okh_sized; eauto.
  - left. inversion Lf as [f' Ef O|f' x' Ef Tx Ex Nx Sx Lx]; subst; [congruence|]. rewrite E in Ef. injection Ef as <-. rewrite E.
    assert (Mn : M (st_name s)). { destruct F as [F|F]; auto. rewrite Forall_forall in F. rewrite (F f If) in E. discriminate. }
    destruct Mn as [Ne Np]. destruct Nx as [Ox Ux]. assert (Ox' := Ox). destruct Ox' as [[_ Cx] Bx].
    rewrite (nested_ty u tns xsd (st_name s) (fl_type f)); auto.
    2:{ intros [X Y]. apply (built_in_none (fl_type f) None (fl_type f) xsd) in Bx; [|split; auto]. apply Bx. split; auto. apply builtins_names. auto. }
    destruct (R f x If E Tx W) as [R1 R2]. rewrite Ex in *. rewrite (word_nonempty _ Ne). apply sz_module; auto.
Qed.
Lemma incl_mid {A} (a b c d : list A) : incl (a ++ b ++ c) d -> incl b d.
Proof. intros I x X. apply I. apply in_or_app. right. apply in_or_app. auto. Qed.
Lemma struct_inner s inner path : all_items (nested s) inner ->
  incl (put path match nested s with [] => [] | _ => [IMod (mod_of s) inner] end) P -> incl (put (path ++ [mod_of s]) inner) P.
Proof.
  intros A I x X. destruct (nested s) as [|y l]; [inversion A; subst; destruct X|]. apply I. cbn [map List.concat placed]. rewrite app_nil_r. right. exact X.
Qed.

Definition Ga (e : entity) : Prop := forall H S sc sc' path its, items e its -> incl (put path its) P -> wt H S sc e -> lu sc' e -> flat_fields e ->
  settled H -> (forall q, In q sc -> sz path q) -> forall q, In q (front e) -> sz path q.
Lemma Ga_list l : (forall e, In e l -> Ga e) -> forall H S sc sc' path its, all_items l its -> incl (put path its) P -> Forall (wt H S sc) l -> Forall (lu sc') l -> Forall flat_fields l ->
  settled H -> (forall q, In q sc -> sz path q) -> forall q, In q (fronts l) -> sz path q.
Proof.
  intros G H S sc sc' path its A. induction A as [|e l a b A1 A2 IH]; intros J W L F St V q I; [destruct I|]. rewrite map_app, concat_app in J. inversion W; subst. inversion L; subst. inversion F; subst.
  cbn [map List.concat] in I. apply in_app_or in I as [I|I].
  - eapply (G e); eauto; [left; auto|]. intros x X. apply J. apply in_or_app. auto.
  - eapply IH; eauto; [intros; apply G; right; auto|]. intros x X. apply J. apply in_or_app. auto.
Qed.
Lemma item_sz path its i q : incl (put path its) P -> In i its -> defines i (ty q) -> (forall c, In c (parts_of i) -> sized path c) -> sz path q.
Proof. intros J I D H. exists path, [], i. rewrite app_nil_r. split; auto. split; [apply J, put_top; auto|auto]. Qed.
Lemma struct_ready H S sc sc' path s inner : (forall f e, In f (st_fields s) -> In e (fl_subtypes f) -> Ga e) -> all_items (nested s) inner ->
  incl (put path match nested s with [] => [] | _ => [IMod (mod_of s) inner] end) P ->
  st_subtypes s = [] -> Forall (lf sc') (st_fields s) -> settled H -> (forall q, In q sc -> sz path q) -> inner_ready H S sc path s.
Proof.
  intros G A J Es LF St V f x If Ef Tx Wx. assert (J' := struct_inner s inner path A J).
  assert (Inx : In x (nested s)) by (apply nested_nil; auto; exists f; split; auto; rewrite Ef; left; auto).
  assert (B : exists its, items x its /\ incl its inner).
  { clear - A Inx. induction A as [|e l a b A1 A2 IH]; [destruct Inx|]. destruct Inx as [<-|I]; [exists a; split; auto; apply incl_appl, incl_refl|].
    destruct (IH I) as (its & X & Y). exists its. split; auto. apply incl_appr. auto. }
  destruct B as (its & Ax & Ix). assert (Jx : incl (put (path ++ [mod_of s]) its) P).
  { intros z Z. apply J'. apply in_placed_concat in Z as (i & I1 & I2). apply in_placed_concat. exists i. split; auto. }
  rewrite Forall_forall in LF. assert (Lf := LF f If). inversion Lf as [f' Ef' O|f' x' Ef' Tx' Ex Nx Sx Lx]; subst; [congruence|]. rewrite Ef in Ef'. injection Ef' as <-.
  split.
  - eapply (G f x If); [rewrite Ef; left; auto|exact Ax|exact Jx|exact Wx|exact Lx| |exact St| |apply named_front; auto].
    + destruct x; auto. left. exact Sx.
    + intros q Iq. apply sz_inner. auto.
  - destruct (front_defined x its (entity_name x) Ax (named_front x Tx)) as (i & I1 & I2). exists i. split; auto. apply Jx, put_top; auto.
Qed.
Lemma struct_parts H S sc sc' path s : settled H -> (forall x, In x sc -> sz path x) -> flat_fields (EStruct s) ->
  Forall (lf sc') (st_fields s) -> Forall (wf H S sc) (st_fields s) -> inner_ready H S sc path s ->
  forall c, In c (map rf_type (members u tns tid (format_name u) (mod_of s) (st_fields s))) -> sized path c.
Proof.
  intros St V F LF WF R c I. apply in_map_iff in I as (m & <- & I). unfold members in I. apply in_map_iff in I as (f & <- & I). apply filter_In in I as [I Em].
  apply negb_true_iff in Em. rewrite Forall_forall in LF, WF. eapply member_sized; eauto.
  intros X; enough (existsb (modifier_eqb MEmpty) (fl_mods f) = true) by congruence; apply existsb_exists; exists MEmpty; auto.
Qed.
Lemma tuple_parts H S sc sc' path t : settled H -> (forall x, In x sc -> sz path x) -> wt H S sc (ETuple t) -> lu sc' (ETuple t) ->
  sized path (modified u (ty (tu_type t)) (tu_mods t)).
Proof.
  intros St V W L. inversion L as [|t' O NE LS FS| | |]; subst. apply sized_modified; auto.
  inversion W as [|t' Es O'|t' Ma F| | | |]; subst; [left; eapply okh_sized; eauto|right; right; left; auto].
Qed.
Lemma enum_parts H sc sc' path n d a m : settled H -> (forall x, In x sc -> sz path x) -> okh H sc (en_type n) -> lu sc' (EEnum n) ->
  Forall (fun c => forall t, ec_type c = Some t -> spared (ec_mods c) \/ okh H sc t) (en_cases n) ->
  forall c, In c (parts_of (IEnum d a m (map (case_variant u tid (variant_name u tns)) (en_cases n) ++ [{| va_doc := []; va_attrs := []; va_name := lit "__Unknown__"; va_type := Some (ty (en_type n)) |}]))) -> sized path c.
Proof.
  intros St V O L C c I. inversion L as [| |n' _ LC _ _| |]; subst. cbn [parts_of components] in I. rewrite map_app, concat_app in I. apply in_app_or in I as [I|I].
  - apply in_concat in I as (z & Iz & I). rewrite map_map in Iz. apply in_map_iff in Iz as (k & <- & Ik).
    rewrite Forall_forall in LC, C. assert (Lc := LC k Ik). assert (Ck := C k Ik). unfold case_variant, payload in I. destruct (colon_split (ec_name k)). cbn [va_type] in I.
    destruct (ec_type k) as [tt|] eqn:Et; [|destruct I]. destruct I as [<-|[]]. destruct (Lc tt eq_refl). apply sized_modified; auto. destruct (Ck tt eq_refl) as [X|X]; auto. left. eapply okh_sized; eauto.
  - cbn in I. destruct I as [<-|[]]. eapply okh_sized; eauto.
Qed.
Lemma Ga_all e : Ga e.
Proof.
  induction e as [s IHf IHs|t IH|n IH|f|c|a|i] using entity_sub_ind; intros H S sc sc' path its A J W L F St V q I;
    inversion A as [s' inner AI|t' inner ks AI FC|n' inner AI|a' ND|a' ND|i']; subst; try (destruct I; fail).
  - destruct I as [<-|[]]. inversion L as [s' E LF| | | |]; subst. inversion W as [s' WF Pl Gr| | | | | |]; subst.
    eapply item_sz; [exact J|left; reflexivity|reflexivity|]. cbn [parts_of components]. eapply struct_parts; eauto. eapply struct_ready; eauto.
    intros z Z. apply J. rewrite map_app, concat_app. apply in_or_app. right. exact Z.
  - destruct I as [<-|[]]. eapply item_sz; [exact J|left; reflexivity|reflexivity|]. cbn [parts_of components]. intros c [<-|[]]. eapply tuple_parts; eauto.
  - assert (J' : incl (put path inner) P) by (intros z Z; apply J; rewrite map_app, concat_app; apply in_or_app; right; exact Z).
    assert (L' := L). inversion L' as [| |n' _ _ LS FS| |]; subst.
    inversion W as [| | |n' O C WS|n' O C WS| |]; subst.
    + assert (Vs : forall x, In x (fronts (en_subtypes n)) -> sz path x) by (eapply Ga_list; eauto).
      destruct I as [<-|I]; [|auto]. eapply item_sz; [exact J|left; reflexivity|reflexivity|].
      eapply enum_parts with (sc := fronts (en_subtypes n) ++ sc); eauto.
      * intros x X. apply in_app_or in X as [X|X]; auto.
      * eapply okh_mono; [|apply incl_appr, incl_refl|exact O]. auto.
    + assert (Vn : sz path (en_name n)).
      { eapply item_sz; [exact J|left; reflexivity|reflexivity|]. eapply enum_parts with (sc := sc); eauto. }
      destruct I as [<-|I]; [auto|]. eapply Ga_list with (sc := en_name n :: sc); eauto. intros x [<-|X]; auto.
Qed.

(** All parts. *)
Context (SK : settled K).
Definition Gb (e : entity) : Prop := forall H S sc sc' path its, items e its -> incl (put path its) P -> wt H S sc e -> lu sc' e -> flat_fields e ->
  settled H -> (forall q, In q sc -> sz path q) -> forall p i c, In (p, i) (put path its) -> In c (parts_of i) -> sized p c.
Lemma Gb_list l : (forall e, In e l -> Gb e) -> forall H S sc sc' path its, all_items l its -> incl (put path its) P -> Forall (wt H S sc) l -> Forall (lu sc') l -> Forall flat_fields l ->
  settled H -> (forall q, In q sc -> sz path q) -> forall p i c, In (p, i) (put path its) -> In c (parts_of i) -> sized p c.
Proof.
  intros G H S sc sc' path its A. induction A as [|e l a b A1 A2 IH]; intros J W L F St V p i c I Ic; [destruct I|]. rewrite map_app, concat_app in J, I. inversion W; subst. inversion L; subst. inversion F; subst.
  apply in_app_or in I as [I|I].
  - eapply (G e) with (its := a); eauto; [left; auto|]. intros x X. apply J. apply in_or_app. auto.
  - eapply IH; eauto; [intros; apply G; right; auto|]. intros x X. apply J. apply in_or_app. auto.
Qed.
Lemma nested_parts s : (forall f e, In f (st_fields s) -> In e (fl_subtypes f) -> Gb e) -> st_subtypes s = [] ->
  forall H S sc sc' path l its, incl l (nested s) -> all_items l its -> incl (put path its) P -> Forall (wf H S sc) (st_fields s) -> Forall (lf sc') (st_fields s) ->
  settled H -> (forall q, In q sc -> sz path q) -> forall p i c, In (p, i) (put path its) -> In c (parts_of i) -> sized p c.
Proof.
  intros G Es H S sc sc' path l its Il A. induction A as [|e l a b A1 A2 IH]; intros J WF LF St V p i c I Ic; [destruct I|]. rewrite map_app, concat_app in J, I.
  apply in_app_or in I as [I|I].
  - destruct (proj1 (nested_nil s Es e) (Il e (or_introl eq_refl))) as (f & If & Ie). rewrite Forall_forall in WF, LF. assert (Wf := WF f If). assert (Lf := LF f If).
    assert (Ja : incl (put path a) P) by (intros x X; apply J; apply in_or_app; auto).
    inversion Lf as [f' Ef' O|f' x' Ef' Tx' Ex Nx Sx Lx]; subst; rewrite Ef' in Ie; [destruct Ie|]. destruct Ie as [->|[]].
    assert (Fe : flat_fields e) by (destruct e; auto; left; exact Sx). assert (Ge : Gb e) by (eapply G; eauto; rewrite Ef'; left; auto).
    inversion Wf as [f' E Sp|f' E O|f' x E W|f' x E Sp W]; subst; rewrite Ef' in E; try discriminate; injection E as <-.
    + eapply Ge; eauto.
    + eapply (Ge K always); eauto.
  - eapply IH; eauto.
    + intros x X. apply Il. right. auto.
    + intros x X. apply J. apply in_or_app. auto.
Qed.
Lemma Gb_all e : Gb e.
Proof.
  induction e as [s IHf IHs|t IH|n IH|f|c|a|i] using entity_sub_ind; intros H S sc sc' path its A J W L F St V p i0 c0 I Ic;
    inversion A as [s' inner AI|t' inner ks AI FC|n' inner AI|a' ND|a' ND|i']; subst; try (inversion L; fail).
  - inversion L as [s' E LF| | | |]; subst. inversion W as [s' WF Pl Gr| | | | | |]; subst. rewrite map_app, concat_app in I. apply in_app_or in I as [I|I].
    + cbn in I. destruct I as [[= <- <-]|[[= <- <-]|[]]]; [|destruct Ic]. cbn [parts_of components] in Ic. eapply struct_parts; eauto. eapply struct_ready; eauto.
      * intros; apply Ga_all.
      * intros z Z. apply J. rewrite map_app, concat_app. apply in_or_app. right. exact Z.
    + assert (J' : incl (put (path ++ [mod_of s]) inner) P).
      { eapply struct_inner; eauto. intros z Z. apply J. rewrite map_app, concat_app. apply in_or_app. right. exact Z. }
      assert (I' : i0 = IMod (mod_of s) inner \/ In (p, i0) (put (path ++ [mod_of s]) inner)).
      { destruct (nested s) as [|y l] eqn:En; [destruct I|]. cbn [map List.concat placed] in I. rewrite app_nil_r in I. destruct I as [[= <- <-]|I]; auto. }
      destruct I' as [->|I']; [destruct Ic|]. eapply nested_parts with (its := inner); eauto; [apply incl_refl|]. intros q Iq. apply sz_inner. auto.
  - rewrite !map_app, !concat_app in I. apply in_app_or in I as [I|I]; [|apply in_app_or in I as [I|I]].
    + cbn in I. destruct I as [[= <- <-]|[]]. cbn [parts_of components] in Ic. destruct Ic as [<-|[]]. eapply tuple_parts; eauto.
    + inversion L as [|t' O NE LS FS| | |]; subst. assert (J' : incl (put path inner) P) by (intros z Z; apply J; rewrite !map_app, !concat_app; apply in_or_app; right; apply in_or_app; left; exact Z).
      inversion W as [|t' Es O'|t' Ma F'| | | |]; subst; [rewrite Es in AI; inversion AI; subst; destruct I|]. eapply Gb_list with (its := inner) (H := K) (S := always); eauto.
    + cbn in I. destruct I as [[= <- <-]|[]]. destruct Ic.
  - rewrite map_app, concat_app in I. assert (J' : incl (put path inner) P) by (intros z Z; apply J; rewrite map_app, concat_app; apply in_or_app; right; exact Z).
    assert (L' := L). inversion L' as [| |n' _ _ LS FS| |]; subst. apply in_app_or in I as [I|I].
    + cbn in I. destruct I as [[= <- <-]|[[= <- <-]|[[= <- <-]|[]]]]; try (destruct Ic; fail). inversion W as [| | |n' O C WS|n' O C WS| |]; subst.
      * assert (Vs : forall x, In x (fronts (en_subtypes n)) -> sz path x) by (eapply Ga_list; eauto; intros; apply Ga_all).
        eapply enum_parts with (sc := fronts (en_subtypes n) ++ sc); eauto; [|eapply okh_mono; [|apply incl_appr, incl_refl|exact O]; auto].
        intros x X. apply in_app_or in X as [X|X]; auto.
      * eapply enum_parts with (sc := sc); eauto.
    + inversion W as [| | |n' O C WS|n' O C WS| |]; subst.
      * eapply Gb_list with (its := inner); eauto.
      * eapply Gb_list with (its := inner) (sc := en_name n :: sc); eauto. intros x [<-|X]; auto.
        eapply Ga_all; [exact A|exact J|exact W|exact L|exact F|exact St|exact V|left; auto].
  - cbn in I. destruct I as [[= <- <-]|[]]. destruct Ic.
  - cbn in I. destruct I as [[= <- <-]|[]]. destruct Ic as [<-|[]]. inversion W as [| | | | |a' O|]; subst. eapply okh_sized; eauto.
  - cbn in I. destruct I as [[= <- <-]|[]]. destruct Ic.
Qed.
End Generated.
End Weight.

(** ** The parser *)
Lemma kind_not n anc t k s : xsd_type n anc = Ok t -> tag_of k = lit s -> is_kind k t = false -> ~ tag s n.
Proof. intros X E H T. rewrite (is_kind_tag _ _ _ k X) in H. unfold tagb in H. unfold tag in T. rewrite E, T, str_eqb_refl in H. discriminate. Qed.
Lemma enclosing_unique anc : forall a b, enclosing anc a -> enclosing anc b -> a = b.
Proof.
  induction anc as [|p anc IH]; intros a b A B; inversion A; subst; inversion B; subst; auto; try contradiction; unfold has, absent in *; try congruence; eauto.
Qed.
Definition never (q : str) : Prop := False.

Section Parsed.
Context (u : uni) (schema : node) (tns xsd : option namespace).
Notation own := (ns_prefix tns).
Notation xs := (ns_prefix xsd).
Notation K := (K schema tns xsd).
Notation known := (known schema own xs).
Notation wt := (wt xsd K).
Notation wf := (wf xsd K).
Notation okh := (okh xsd).
Notation good := (ScopeProofs.good u schema tns xsd).
Notation named_clear := (named_clear u tns xsd).
Notation own_name := (own_name xsd).
Context (HN : forall nm, introduced schema nm -> clear_name u own xs nm).

Definition Hn (anc : list node) (n : node) (q : str) : Prop := q = lit "String" \/ known q /\ exists anc' x, inline anc n anc' x /\ value anc' x q.
Definition Sn (anc : list node) (n : node) (q : str) : Prop := exists anc' x, inline anc n anc' x /\ splice x q.

(** [B]: the types for which the enclosing sequence will use a vector. *)
Definition outcome (B H S : str -> Prop) (e : entity) : Prop :=
  match e with
  | EField f => ~ placeholder f /\ (wf H S [] f \/ fl_subtypes f = [] /\ (~ B (fl_type f) -> H (fl_type f)))
  | ECase c => forall t, ec_type c = Some t -> spared (ec_mods c) \/ H t
  | EAlias _ | EImport _ => True
  | EEnum n => okh H [] (en_type n) /\ Forall (fun c => forall t, ec_type c = Some t -> spared (ec_mods c) \/ okh H (fronts (en_subtypes n)) t) (en_cases n) /\
      Forall (wt H S []) (en_subtypes n)
  | _ => wt H S [] e
  end.
Definition result (anc : list node) (n : node) (e : entity) : Prop :=
  outcome (boxed anc) (Hn anc n) (Sn anc n) e \/ bare_choice n /\ (exists en, e = EEnum en) /\ wt (Hn anc n) (Sn anc n) [] e.

Lemma outcome_mono B (H H' S S' : str -> Prop) e : (forall q, H q -> H' q) -> (forall q, S q -> S' q) -> outcome B H S e -> outcome B H' S' e.
Proof.
  intros HH SS. assert (I : incl ([] : list str) []) by apply incl_refl. destruct e as [s|f|t|n|c|a|i]; cbn; auto; try (apply wt_mono; auto).
  - intros [N [W|[E W]]]; split; auto. left. eapply wf_mono; eauto.
  - intros (O & C & W). split; [eapply okh_mono; eauto|]. split.
    + eapply Forall_impl; [|exact C]. cbn. intros c Hc t Ht. destruct (Hc t Ht) as [X|X]; auto. right. eapply okh_mono; eauto. apply incl_refl.
    + eapply Forall_impl; [|exact W]. intros x. apply wt_mono; auto.
  - intros C t Ht. destruct (C t Ht); auto.
Qed.
Lemma outcome_settled B B' H S e : (forall q, ~ B q) -> outcome B H S e -> outcome B' H S e.
Proof. destruct e as [s|f|t|n|c|a|i]; cbn; auto. intros N [P [W|[E W]]]; split; auto. Qed.
Lemma outcome_wt B H S e : typelike e -> outcome B H S e -> wt H S [] e.
Proof. destruct e; cbn; intros []; auto. intros (O & C & W). apply wt_union; auto. rewrite app_nil_r. exact C. Qed.
Lemma set_name_outcome B H S nm e : typelike e -> outcome B H S e -> outcome B H S (set_name nm e).
Proof.
  destruct e as [s|f|t|n|c|a|i]; cbn; intros []; auto; intros W; inversion W; subst; first [constructor; solve [auto]|apply wt_list; auto].
Qed.
Lemma set_comment_outcome B H S c e : outcome B H S e -> outcome B H S (set_comment c e).
Proof.
  destruct e as [s|f|t|n|k|a|i]; cbn; auto; intros W; try (inversion W; subst; first [constructor; solve [auto]|apply wt_list; auto]).
  destruct W as [N [W|[E W]]]; split; auto. left. inversion W; subst; [apply wf_spared; auto|apply wf_plain; auto|eapply wf_nested; eauto|eapply wf_vec; eauto].
Qed.

Definition good_kids (anc : list node) (n : node) (ks : list kid) : Prop :=
  forall k e, In k ks -> snd k = Ok e -> In (fst k) (children n) /\ ~ tag "annotation" (fst k) /\ outcome (boxed (n :: anc)) (Hn (n :: anc) (fst k)) (Sn (n :: anc) (fst k)) e.
Lemma Hn_K anc n q : Hn anc n q -> K q.
Proof. intros [->|[X _]]; [left; auto|right; auto]. Qed.
Lemma kids_here anc n ks k e : ~ indirect anc n -> good_kids anc n ks -> In k ks -> snd k = Ok e -> outcome (boxed (n :: anc)) (Hn anc n) (Sn anc n) e.
Proof.
  intros NI G I Hk. destruct (G k e I Hk) as (Ic & Na & O). eapply outcome_mono; [| |exact O].
  - intros q [->|(Kq & anc' & x & J & V)]; [left; auto|]. right. split; auto. exists anc', x. split; auto. eapply inline_child; eauto.
  - intros q (anc' & x & J & V). exists anc', x. split; auto. eapply inline_child; eauto.
Qed.
Lemma kids_any anc n ks k e : good_kids anc n ks -> In k ks -> snd k = Ok e -> outcome (boxed (n :: anc)) K always e.
Proof. intros G I Hk. destruct (G k e I Hk) as (_ & _ & O). eapply outcome_mono; [| |exact O]; [apply Hn_K|intros; exact Logic.I]. Qed.
Lemma not_boxed anc n q : ~ one ["sequence"; "all"] n -> ~ boxed (n :: anc) q.
Proof. intros N (p & r & e & [= <- <-] & O & _). contradiction. Qed.
Lemma H_string anc n : Hn anc n (lit "String"). Proof. left. auto. Qed.
Lemma H_value anc n q : good n -> referring n q -> value anc n q -> Hn anc n q.
Proof. intros [_ [R _]] F V. right. split; auto. exists anc, n. split; auto. constructor. Qed.

(** Names. *)
Lemma first_proper nm (f : field entity) : fl_name f = nm -> letter_first nm -> ~ placeholder f.
Proof. intros E (c & t & -> & L) P. unfold placeholder in P. rewrite E in P. injection P as -> _. unfold letter, lower, upper in L. lia. Qed.
Lemma base_unknown q : known q -> q <> lit "__base__".
Proof.
  intros (p & l & Q & H) ->. assert (X : qualified (lit "__base__") None (lit "__base__")) by (split; [reflexivity|apply no_colon_ok; reflexivity]).
  destruct (qualified_unique _ _ _ _ _ Q X) as [-> ->].
  destruct H as [[_ B]|[(_ & _ & I)|(x & ns & E & _)]]; [|apply HN in I|discriminate].
  - revert B. apply builtin_check with (p := fun k => negb (str_eqb k (lit "__base__"))); vm_compute; reflexivity.
  - destruct I as [(c & t & [= <- <-] & L) _]. unfold letter, lower, upper in L. lia.
Qed.
Lemma ref_proper n q (f : field entity) : good n -> referring n q -> fl_name f = q -> ~ placeholder f.
Proof. intros [_ [R _]] F E P. unfold placeholder in P. rewrite E in P. revert P. apply base_unknown. auto. Qed.

Definition fields_fine (H S : str -> Prop) (fs : list (field entity)) : Prop := Forall (fun f => ~ placeholder f /\ wf H S [] f) fs.
Lemma attributes_fine anc n fs : ~ indirect anc n -> ~ one ["sequence"; "all"] n -> good_kids anc n (kids u n anc) ->
  attributes_to_fields (n :: anc) (kids u n anc) = Ok fs -> fields_fine (Hn anc n) (Sn anc n) fs.
Proof.
  intros NI NS G H. unfold attributes_to_fields in H. bo H l Hl. apply rmapm_ok in H. apply Forall_forall. intros f I.
  destruct (Forall2_in_r _ _ _ _ H I) as (k & Ik & Hk). bo Hk e He. destruct e; try discriminate. injection Hk as <-.
  assert (O := kids_here _ _ _ _ _ NI G (rfilter_in _ _ _ _ Hl Ik) He). destruct O as [P [W|[E W]]]; split; auto. apply wf_plain; auto. left. apply W. apply not_boxed. auto.
Qed.
Lemma fields_wf H S fs : fields_fine H S fs -> Forall (wf H S []) fs /\ forall f, In f fs -> placeholder f -> S (fl_type f).
Proof. intros F. unfold fields_fine in F. rewrite Forall_forall in F. split; [apply Forall_forall; intros f I; apply F; auto|]. intros f I P. destruct (F f I). contradiction. Qed.
Lemma groups_fine anc n gs : ~ indirect anc n -> ~ tag "schema" n -> ParserFacts.calm n -> attribute_groups_to_aliases (n :: anc) (kids u n anc) = Ok gs ->
  forall a, In a gs -> Sn anc n (al_original a).
Proof.
  intros NI NS C H a I. apply groups_ok in H; auto. destruct (Forall2_in_r _ _ _ _ H I) as (c & Ic & (R & _)). apply in_tagged in Ic as [Ic (t & [<-|[]] & T)].
  exists (n :: anc), c. split; [|right; auto]. eapply inline_child; eauto; [|constructor]. unfold tag in *. rewrite T. discriminate.
Qed.
Lemma sequence_fine n anc ks e : Forall named_clear anc -> one ["sequence"; "all"] n -> ~ indirect anc n -> good_kids anc n ks -> parse_sequence n anc ks = Ok e ->
  outcome (boxed anc) (Hn anc n) (Sn anc n) e.
Proof.
  intros A O NI G H. unfold parse_sequence in H. bo H nm Hn'. bo H fs Hf. injection H as <-. assert (S := parent_simple _ _ _ _ _ A Hn'). apply parent_name_ok in Hn'.
  enough (F : fields_fine (Hn anc n) (Sn anc n) fs) by (apply fields_wf in F as [F1 F2]; constructor; cbn; auto; intros a []).
  unfold elements_to_fields in Hf. bo Hf l Hl. apply rmapm_ok in Hf. apply Forall_forall. intros f I.
  destruct (Forall2_in_r _ _ _ _ Hf I) as (k & Ik & Hk). bo Hk x Hx. assert (F := kids_here _ _ _ _ _ NI G (rfilter_in _ _ _ _ Hl Ik) Hx).
  unfold to_field in Hk. destruct x as [| |t|en| | |]; try discriminate; injection Hk as <-.
  - destruct F as [P F]. split; [destruct (ends_with nm (fl_type f0)); auto|]. destruct (ends_with nm (fl_type f0)) eqn:E.
    + assert (Sp : spared (fl_mods f0 ++ [MRecursive])) by (right; right; apply in_or_app; right; left; auto).
      destruct F as [F|[F1 F2]]; [|apply wf_spared; auto]. inversion F; subst; [apply wf_spared; auto|apply wf_spared; auto|eapply wf_nested; eauto|eapply wf_vec; eauto].
    + destruct F as [F|[F1 F2]]; auto. apply wf_plain; auto. left. apply F2. intros (p & r & e & [= <- <-] & _ & En & Su).
      rewrite (enclosing_unique _ _ _ En Hn') in Su. apply ends_with_iff in Su. congruence.
  - split.
    + eapply first_proper; [reflexivity|]. cbn. apply letter_first_app. apply S.
    + eapply wf_nested; [reflexivity|]. apply (outcome_wt never); [exact Logic.I|]. exact F.
Qed.
Lemma choice_fine n anc e : ~ indirect anc n -> good_kids anc n (kids u n anc) -> parse_choice n anc (kids u n anc) = Ok e ->
  exists en, e = EEnum en /\ en_subtypes en = [] /\ en_type en = lit "String" /\ Forall (fun c => forall t, ec_type c = Some t -> spared (ec_mods c) \/ okh (Hn anc n) [] t) (en_cases en).
Proof.
  intros NI G H. unfold parse_choice in H. bo H l Hl. bo H cs Hc. injection H as <-. apply rmapm_ok in Hc. eexists. split; [reflexivity|]. split; [reflexivity|]. split; [reflexivity|]. cbn.
  apply Forall_forall. intros c I. destruct (Forall2_in_r _ _ _ _ Hc I) as (k & Ik & Hk). bo Hk x Hx. destruct x; try discriminate. injection Hk as <-.
  assert (F := kids_here _ _ _ _ _ NI G (rfilter_in _ _ _ _ Hl Ik) Hx). intros t Ht. destruct (F t Ht); auto. right. left. auto.
Qed.

Lemma complex_fine n anc e : good n -> (forall c, In c (children n) -> ~ tag "annotation" c -> good c) -> tag "complexType" n -> Forall named_clear anc -> good_kids anc n (kids u n anc) ->
  parse_complex_type n anc (kids u n anc) = Ok e -> result anc n e.
Proof.
  intros Fn Fc T A G H. unfold parse_complex_type in H. bo H pt Hp. bo H nm Hn'. bo H fs Hf. bo H l Hl. cbv zeta in H.
  assert (Ca : ParserFacts.calm n) by (apply (calm_kind n KComplexType); exact T).
  assert (NI : ~ indirect anc n) by (intros [X|[X _]]; unfold tag in *; rewrite T in X; discriminate).
  assert (NS : ~ one ["sequence"; "all"] n) by (intros (s & [<-|[<-|[]]] & X); unfold tag in *; rewrite T in X; discriminate).
  assert (Nsc : ~ tag "schema" n) by (unfold tag in *; rewrite T; discriminate).
  assert (Fa := attributes_fine _ _ _ NI NS G Hf). destruct (fields_wf _ _ _ Fa) as [F1 F2].
  assert (Sn' : simple nm).
  { destruct (is_kind KSchema pt); [apply expect_ok in Hn'; apply (clear_simple u tns xsd); apply (good_named u schema tns xsd n Fn); exact Hn'|eapply parent_simple; eauto]. }
  assert (X : forall e, bind (attribute_groups_to_aliases (n :: anc) (kids u n anc)) (fun groups => Ok (EStruct {| st_name := nm; st_comment := get_documentation n;
     st_fields := fs; st_groups := groups; st_subtypes := [] |})) = Ok e -> result anc n e).
  { intros e' H'. bo H' gs Hg. injection H' as <-. left. constructor; cbn; auto. eapply groups_fine; eauto. }
  destruct (last_opt l) as [k|] eqn:Lk; [|auto]. destruct (existsb is_element (children (fst k))) eqn:Ex; [|auto]. bo H x Hx.
  assert (Ik := last_opt_in _ _ Lk). assert (O := kids_here _ _ _ _ _ NI G (rfilter_in _ _ _ _ Hl Ik) Hx).
  unfold finish_complex in H. destruct x; try (injection H as <-; left; eapply outcome_settled; [|exact O]; intros q; apply not_boxed; auto).
  - injection H as <-. left. cbn in *. inversion O; subst. constructor; cbn; auto; [apply Forall_app; auto|].
    intros f I. apply in_app_or in I as [I|I]; auto.
  - cbv zeta in H. bo H gs Hg. injection H as <-. right.
    destruct (element_kids u _ _ _ _ _ _ (by_tag_one_of complex_content_types) Hl Lk) as (c & Fin & ->). cbn [fst snd] in *.
    destruct (elements_sat _ _ _ _ _ Hl Ik) as (_ & t & Ht & Oo). cbn [fst] in *. assert (C : one content_tags c) by (eapply one_of_tags; [|eauto|exact Oo]; reflexivity).
    assert (Ic : In c (children n)) by (apply final_in in Fin; apply filter_In in Fin; tauto).
    assert (Na : ~ tag "annotation" c). { intros Ta. destruct C as (s & I & Ts). unfold tag in *. rewrite Ta in Ts. cbn in I. repeat (destruct I as [<-|I]; [discriminate|]). destruct I. }
    assert (Tc := content_enum u c _ _ (proj1 (Fc c Ic Na)) C Hx).
    rewrite (step_kind u c _ KChoice) in Hx by exact Tc.
    split; [|split; [eauto|]].
    + split; auto. exists c. split; [|split; auto; apply has_elements_iff; auto].
      assert (Ef : tagged_children content_tags n = filter (fun x => is_element x && existsb (fun k => tagb k x) complex_content_types) (children n)).
      { unfold tagged_children. apply filter_ext. intros y. unfold tagb, tagged. cbn. destruct y; reflexivity. }
      rewrite Ef. exact Fin.
    + assert (Es : en_subtypes e0 = []) by (unfold parse_choice in Hx; bo Hx l' Hl'; bo Hx cs Hc; injection Hx as <-; reflexivity).
      destruct O as (Ot & Oc & _). rewrite Es in Oc. apply wt_choice; cbn [en_type en_cases en_subtypes en_name]; auto.
      constructor; [|constructor]. constructor; cbn [st_fields st_groups].
      * apply Forall_app. split.
        -- eapply Forall_impl; [|exact F1]. intros f. apply wf_mono; auto. apply nil_incl.
        -- constructor; [|constructor]. apply wf_plain; [reflexivity|]. cbn [fl_type]. right. split; [left; reflexivity|]. apply (choice_name u tns xsd nm Sn').
      * intros f I P. apply in_app_or in I as [I|[<-|[]]]; auto. exfalso. revert P. eapply first_proper; [reflexivity|]. cbn. apply letter_first_app. apply Sn'.
      * eapply groups_fine; eauto.
Qed.
Lemma derivation_fine kinds n anc t e : good n -> xsd_type n anc = Ok t -> (forall k, is_kind k t = false) -> good_kids anc n (kids u n anc) ->
  complex_derivation kinds n anc (kids u n anc) = Ok e -> outcome (boxed anc) (Hn anc n) (Sn anc n) e.
Proof.
  intros Fn Ht Nk G H. unfold complex_derivation in H. bo H b Hb. bo H fs Hf. cbv zeta in H. bo H l Hl.
  assert (NT : forall k s, tag_of k = lit s -> ~ tag s n) by (intros k s E; eapply kind_not; eauto).
  assert (NI : ~ indirect anc n) by (intros [X|[X _]]; revert X; [apply (NT KList)|apply (NT KElement)]; reflexivity).
  assert (NS : ~ one ["sequence"; "all"] n) by (intros (s & [<-|[<-|[]]] & X); revert X; [apply (NT KSequence)|apply (NT KAll)]; reflexivity).
  assert (Nsc : ~ tag "schema" n) by (apply (NT KSchema); reflexivity).
  assert (Fa := attributes_fine _ _ _ NI NS G Hf). destruct (fields_wf _ _ _ Fa) as [F1 F2]. apply expect_ok in Hb.
  assert (Hb1 : Hn anc n b) by (apply H_value; auto; [right; left; exact Hb|apply value_base; exact Hb]).
  assert (Hb2 : Sn anc n b) by (exists anc, n; split; [constructor|left; exact Hb]).
  assert (Fb : Forall (wf (Hn anc n) (Sn anc n) []) (fs ++ [base_field n b])).
  { apply Forall_app. split; auto. constructor; [|constructor]. apply wf_plain; [reflexivity|]. left. exact Hb1. }
  assert (Pb : forall f, In f (fs ++ [base_field n b]) -> placeholder f -> Sn anc n (fl_type f)).
  { intros f I. apply in_app_or in I as [I|[<-|[]]]; auto. }
  assert (X : forall e, bind (attribute_groups_to_aliases (n :: anc) (kids u n anc)) (fun groups => Ok (EStruct {| st_name := []; st_comment := get_documentation n;
     st_fields := fs ++ [base_field n b]; st_groups := groups; st_subtypes := [] |})) = Ok e -> outcome (boxed anc) (Hn anc n) (Sn anc n) e).
  { intros e' H'. bo H' gs Hg. injection H' as <-. constructor; cbn; auto. eapply groups_fine; eauto. eapply calm_any; eauto. }
  destruct (last_opt l) as [k|] eqn:Lk; [|auto]. bo H x Hx. apply last_opt_in in Lk.
  assert (F := kids_here _ _ _ _ _ NI G (rfilter_in _ _ _ _ Hl Lk) Hx).
  destruct x; auto. injection H as <-. cbn in F. inversion F; subst. constructor; cbn; auto; [apply Forall_app; auto|].
  intros f I. apply in_app_or in I as [I|I]; auto.
Qed.
Lemma extension_fine n anc t e : good n -> xsd_type n anc = Ok t -> (forall k, is_kind k t = false) -> good_kids anc n (kids u n anc) ->
  simple_content_extension n anc (kids u n anc) = Ok e -> outcome (boxed anc) (Hn anc n) (Sn anc n) e.
Proof.
  intros Fn Ht Nk G H. unfold simple_content_extension in H. bo H b Hb. bo H fs Hf. bo H gs Hg. injection H as <-.
  assert (NT : forall k s, tag_of k = lit s -> ~ tag s n) by (intros k s E; eapply kind_not; eauto).
  assert (NI : ~ indirect anc n) by (intros [X|[X _]]; revert X; [apply (NT KList)|apply (NT KElement)]; reflexivity).
  assert (NS : ~ one ["sequence"; "all"] n) by (intros (s & [<-|[<-|[]]] & X); revert X; [apply (NT KSequence)|apply (NT KAll)]; reflexivity).
  assert (Nsc : ~ tag "schema" n) by (apply (NT KSchema); reflexivity).
  assert (Fa := attributes_fine _ _ _ NI NS G Hf). destruct (fields_wf _ _ _ Fa) as [F1 F2]. apply expect_ok in Hb.
  constructor; cbn.
  - apply Forall_app. split; auto. constructor; [|constructor]. apply wf_plain; [reflexivity|]. left. apply H_value; auto; [right; left; exact Hb|apply value_base; exact Hb].
  - intros f I P. apply in_app_or in I as [I|[<-|[]]]; auto. exists anc, n. split; [constructor|left; exact Hb].
  - eapply groups_fine; eauto. eapply calm_any; eauto.
Qed.
Lemma modifier_many n : element_modifier n = MArray \/ ~ repeated n.
Proof.
  destruct (element_modifier_cases n) as [V|E1 E2|N E]; auto; right.
  - intros R. assert (X : container n MArray) by (apply c_vec; exact R). assert (Y : container n MOption) by (apply c_option; auto). pose proof (container_unique _ _ _ X Y). discriminate.
  - intros R. assert (X : container n MArray) by (apply c_vec; exact R). assert (Y : container n MNone) by (apply c_plain; auto). pose proof (container_unique _ _ _ X Y). discriminate.
Qed.
Lemma array_spared n : element_modifier n = MArray -> spared [element_modifier n].
Proof. intros ->. right. left. left. auto. Qed.
Lemma case_fine n p r : good n -> tag "element" n -> tag "choice" p -> outcome (boxed (p :: r)) (Hn (p :: r) n) (Sn (p :: r) n) (parse_case_of_choice n).
Proof.
  intros Fn T Tp. unfold parse_case_of_choice, attr_ref, attr_name, attr_type. cbv zeta.
  assert (O : one ["element"; "attribute"] n) by (exists "element"%string; split; [left; auto|auto]).
  assert (X : forall q, has n "type" q \/ has n "ref" q -> spared [element_modifier n] \/ Hn (p :: r) n q).
  { intros q Hq. destruct (modifier_many n) as [E|E]; [left; apply array_spared; auto|right]. apply H_value; auto; [left; auto|]. apply value_element; auto.
    apply not_boxed. intros (s & [<-|[<-|[]]] & Y); unfold tag in *; rewrite Tp in Y; discriminate. }
  destruct (attribute n (lit "ref")) as [q|] eqn:R; cbn; intros t Ht.
  - injection Ht as <-. apply X. right. exact R.
  - apply X. left. exact Ht.
Qed.
Lemma field_fine n anc e : (forall x, part x n -> good x) -> tag "element" n -> ~ global anc -> good_kids anc n (kids u n anc) -> parse_field_of_sequence n anc (kids u n anc) = Ok e ->
  outcome (boxed anc) (Hn anc n) (Sn anc n) e.
Proof.
  intros P T NG G H. assert (Fn := P n (part_self n)). unfold parse_field_of_sequence in H. cbv zeta in H. unfold has_attribute, attr_type, attr_ref, attr_name in H.
  assert (O : one ["element"; "attribute"] n) by (exists "element"%string; split; [left; auto|auto]).
  assert (Nm : forall f : field entity, fl_name f = unwrap_or (unwrap_or (lit "UNSUPPORTED_ELEMENT_NAME") (attribute n (lit "ref"))) (attribute n (lit "name")) -> ~ placeholder f).
  { intros f E. destruct (attribute n (lit "name")) as [v|] eqn:An; cbn in E; [eapply first_proper; [exact E|]; apply (good_named u schema tns xsd n Fn v An)|].
    destruct (attribute n (lit "ref")) as [r|] eqn:Ar; cbn in E; [eapply ref_proper; eauto; left; auto|]. intros Pl. unfold placeholder in Pl. rewrite E in Pl. discriminate. }
  assert (X : forall q f, has n "type" q \/ has n "ref" q -> fl_type f = q -> fl_subtypes f = [] -> fl_mods f = [element_modifier n] ->
     wf (Hn anc n) (Sn anc n) [] f \/ fl_subtypes f = [] /\ (~ boxed anc (fl_type f) -> Hn anc n (fl_type f))).
  { intros q f Hq Et Es Em. destruct (modifier_many n) as [E|E]; [left; apply wf_spared; auto; rewrite Em; apply array_spared; auto|right]. split; auto. intros NB. rewrite Et in *.
    apply H_value; auto; [left; auto|]. apply value_element; auto. }
  destruct (attribute n (lit "type")) as [t|] eqn:At; cbn [orb] in H.
  - injection H as <-. split; [apply Nm; reflexivity|]. apply (X t); auto.
  - destruct (attribute n (lit "ref")) as [r|] eqn:Ar.
    + injection H as <-. split; [apply Nm; cbn [fl_name]; rewrite ?Ar; reflexivity|]. apply (X r); auto.
    + bo H l Hl. bo H k Hk. apply expect_ok, last_opt_in in Hk. bo H x Hx. injection H as <-. split; [apply Nm; cbn [fl_name]; rewrite ?Ar; reflexivity|]. left.
      destruct (nodes_sat _ _ _ _ _ Hl Hk) as (t & Ht & Oo). assert (Ik := rfilter_in _ _ _ _ Hl Hk).
      destruct (kids_in u n anc k Ik) as [Ic Ek]. assert (Tk : one ["simpleType"; "complexType"] (fst k)) by (eapply one_of_tags; [|eauto|exact Oo]; reflexivity).
      assert (Ty : typelike x). { rewrite Ek in Hx. eapply (type_typelike u schema tns xsd); [|exact Tk|exact Hx]. intros y Py. apply P. eapply part_type; eauto. }
      destruct (modifier_many n) as [E|E].
      * eapply wf_vec; [reflexivity|apply array_spared; auto|]. apply (outcome_wt (boxed (n :: anc))); [apply typelike_set; auto|]. apply set_name_outcome; auto. eapply kids_any; eauto.
      * eapply wf_nested; [reflexivity|]. apply (outcome_wt (boxed (n :: anc))); [apply typelike_set; auto|]. apply set_name_outcome; auto. eapply kids_here; eauto.
        intros [Y|(_ & Y & _)]; [|auto]. unfold tag in *. rewrite T in Y. discriminate.
Qed.
Lemma empty_wt H S nm c : wt H S [] (EStruct (st_set_comment c (empty_struct nm))).
Proof. constructor; cbn; [constructor| |]; intros ? []. Qed.
Lemma global_kid n p r ks k e : tag "schema" p -> one ["element"; "attribute"] n -> good_kids (p :: r) n ks -> In k ks -> snd k = Ok e -> typelike e ->
  forall nm, outcome (boxed (p :: r)) (Hn (p :: r) n) (Sn (p :: r) n) (set_name nm e).
Proof.
  intros Tp O G I Hk Ty nm. apply set_name_outcome; auto. eapply outcome_settled; [|eapply kids_here; [|exact G|exact I|exact Hk]].
  - intros q. apply not_boxed. intros (s & [<-|[<-|[]]] & X); destruct O as (s & [<-|[<-|[]]] & Y); unfold tag in *; rewrite X in Y; discriminate.
  - intros [X|(_ & _ & X)]; [|apply X; exists p, r; auto]. destruct O as (s & [<-|[<-|[]]] & Y); unfold tag in *; rewrite X in Y; discriminate.
Qed.
Lemma parent_tag anc k : parent_type anc = Ok (TKind k) -> exists p r, anc = p :: r /\ tag_name p = tag_of k.
Proof. destruct anc as [|p r]; cbn; [discriminate|]. intros H. exists p, r. split; auto. eapply kind_tag; eauto. Qed.
Lemma element_fine n anc e : (forall x, part x n -> good x) -> tag "element" n -> good_kids anc n (kids u n anc) -> parse_element n anc (kids u n anc) = Ok e ->
  outcome (boxed anc) (Hn anc n) (Sn anc n) e.
Proof.
  intros P T G H. unfold parse_element in H. bo H pt Hp.
  assert (Df : Ok (element_default n) = Ok e -> outcome (boxed anc) (Hn anc n) (Sn anc n) e) by (intros [= <-]; exact Logic.I).
  assert (NG : forall k, parent_type anc = Ok (TKind k) -> k <> KSchema -> ~ global anc).
  { intros k Hk Nk (p & r & -> & Ts). destruct (parent_tag _ _ Hk) as (p' & r' & [= <- <-] & Tk). cbn in Hk. rewrite (xsd_kind p r KSchema) in Hk by exact Ts. congruence. }
  destruct pt as [k| | | | |]; auto. destruct k; auto; try (eapply field_fine; eauto; eapply NG; [exact Hp|discriminate]).
  - destruct (parent_tag _ _ Hp) as (p & r & -> & Tp). injection H as <-. apply case_fine; auto. apply P. constructor.
  - destruct (parent_tag _ _ Hp) as (p & r & -> & Tp). unfold parse_global_element in H. bo H nm Hn'. destruct (attr_type n); [injection H as <-; exact Logic.I|]. bo H l Hl.
    destruct (last_opt l) as [k|] eqn:Lk; [|injection H as <-; apply empty_wt].
    apply rmap_iff in H as (x & Hx & <-). apply last_opt_in in Lk. assert (Ik := rfilter_in _ _ _ _ Hl Lk). destruct (nodes_sat _ _ _ _ _ Hl Lk) as (t & Ht & Oo).
    destruct (kids_in u n _ k Ik) as [Ic Ek]. assert (Tk : one ["simpleType"; "complexType"] (fst k)) by (eapply one_of_tags; [|eauto|exact Oo]; reflexivity).
    eapply global_kid; eauto; [eexists; split; [left; reflexivity|exact T]|]. rewrite Ek in Hx. eapply (type_typelike u schema tns xsd); [|exact Tk|exact Hx]. intros y Py. apply P. eapply part_type; eauto.
Qed.
Lemma attribute_fine n anc e : (forall x, part x n -> good x) -> tag "attribute" n -> good_kids anc n (kids u n anc) -> parse_attribute n anc (kids u n anc) = Ok e ->
  outcome (boxed anc) (Hn anc n) (Sn anc n) e.
Proof.
  intros P T G H. assert (Fn := P n (part_self n)). unfold parse_attribute in H. bo H pt Hp. destruct (is_kind KSchema pt) eqn:Ks.
  - assert (X : pt = TKind KSchema). { destruct pt as [k| | | | |]; try discriminate. f_equal. symmetry. apply kind_beq_eq. exact Ks. } subst pt.
    destruct (parent_tag _ _ Hp) as (p & r & -> & Tp). unfold parse_global_attribute in H. destruct (attr_ref n); [injection H as <-; exact Logic.I|]. bo H nm Hn'.
    destruct (attr_type n); [injection H as <-; exact Logic.I|]. bo H l Hl.
    destruct (last_opt l) as [k|] eqn:Lk; [|injection H as <-; apply (empty_wt _ _ nm None)].
    apply rmap_iff in H as (x & Hx & <-). apply last_opt_in in Lk. assert (Ik := rfilter_in _ _ _ _ Hl Lk). destruct (elements_sat _ _ _ _ _ Hl Lk) as (_ & t & Ht & Oo).
    destruct (kids_in u n _ k Ik) as [Ic Ek].
    assert (Tk : one ["simpleType"; "complexType"] (fst k)).
    { eapply one_of_tags with (ks := [KSimpleType; KComplexType]); [|eauto|]; [reflexivity|]. cbn. rewrite Oo. auto. }
    eapply global_kid; eauto; [eexists; split; [right; left; reflexivity|exact T]|]. rewrite Ek in Hx. eapply (type_typelike u schema tns xsd); [|exact Tk|exact Hx]. intros y Py. apply P. eapply part_type; eauto.
  - bo H nm Hn'. bo H us Hu. injection H as <-. unfold attr_type, attr_ref, attr_name, or_else in *.
    assert (O : one ["element"; "attribute"] n) by (exists "attribute"%string; split; [right; left; auto|auto]). split.
    + apply expect_ok in Hn'. destruct (attribute n (lit "name")) as [v|] eqn:An.
      * injection Hn' as <-. eapply first_proper; [reflexivity|]. apply (good_named u schema tns xsd n Fn v An).
      * apply (ref_proper n nm); [exact Fn| |reflexivity]. left. auto.
    + left. apply wf_plain; [reflexivity|]. left. cbn [fl_type].
      assert (Y : forall q, has n "type" q \/ has n "ref" q -> Hn anc n q) by (intros q Hq; apply H_value; auto; [left; auto|apply value_attribute; auto]).
      destruct (attribute n (lit "type")) as [t|] eqn:At; cbn; [apply Y; left; exact At|].
      destruct (attribute n (lit "ref")) as [r|] eqn:Ar; cbn; [apply Y; right; exact Ar|]. apply H_string.
Qed.
Lemma group_fine n anc e : tag "attributeGroup" n -> good_kids anc n (kids u n anc) -> parse_attribute_group n anc (kids u n anc) = Ok e -> outcome (boxed anc) (Hn anc n) (Sn anc n) e.
Proof.
  intros T G H. unfold parse_attribute_group in H. bo H pt Hp. destruct (is_kind KSchema pt).
  - bo H nm Hn'. bo H fs Hf. injection H as <-.
    assert (NI : ~ indirect anc n) by (intros [X|[X _]]; unfold tag in *; rewrite T in X; discriminate).
    assert (NS : ~ one ["sequence"; "all"] n) by (intros (s & [<-|[<-|[]]] & X); unfold tag in *; rewrite T in X; discriminate).
    assert (Fa := attributes_fine _ _ _ NI NS G Hf). destruct (fields_wf _ _ _ Fa) as [F1 F2]. constructor; cbn; auto. intros a [].
  - bo H nm Hn'. injection H as <-. exact Logic.I.
Qed.
Lemma list_fine n anc e : good_kids anc n (kids u n anc) -> parse_list n (kids u n anc) = Ok e -> outcome (boxed anc) (Hn anc n) (Sn anc n) e.
Proof.
  intros G H. unfold parse_list in H. bo H t Ht. injection H as <-.
  enough (D : Forall (wt K always []) (tu_subtypes t)) by (apply wt_list; cbn; [apply in_or_app; right; left; auto|exact D]).
  destruct (attribute n (lit "itemType")) as [it|] eqn:I.
  - injection Ht as <-. constructor.
  - bo Ht k Hk. apply expect_ok, find_some in Hk as [Ik E]. bo Ht x Hx. assert (D := kids_any _ _ _ _ _ G Ik Hx). destruct x; try discriminate; injection Ht as <-.
    + inversion D; subst; auto. match goal with X : tu_subtypes _ = [] |- _ => rewrite X end. constructor.
    + constructor; [|constructor]. apply (outcome_wt (boxed (n :: anc))); [exact Logic.I|exact D].
Qed.
Lemma union_subs (H S : str -> Prop) ks : (forall k e, In k ks -> snd k = Ok e -> wt H S [] e /\ typelike e /\ outcome never H S e) ->
  forall i es, union_subtypes i ks = Ok es -> Forall (fun e => wt H S [] e /\ In (entity_name e) (front e) /\ own_name (entity_name e)) es.
Proof.
  induction ks as [|k ks IH]; intros G i es Hk; cbn in Hk; [injection Hk as <-; constructor|]. bo Hk e He. bo Hk l Hl. injection Hk as <-.
  destruct (G k e (or_introl eq_refl) He) as (L & Ty & Oe). constructor; [|eapply IH; eauto; intros; eapply G; eauto; right; auto].
  assert (Ty' := typelike_set (lit "EnumCaseType_" ++ dec i) e Ty). split; [|split].
  - eapply outcome_wt; [exact Ty'|]. apply set_name_outcome; eauto.
  - apply named_front. auto.
  - destruct e; destruct Ty; apply case_name.
Qed.
Lemma union_cases_fine (H : str -> Prop) es sc : Forall (fun e => In (entity_name e) (front e) /\ own_name (entity_name e)) es -> incl (fronts es) sc ->
  forall i, Forall (fun c => forall t, ec_type c = Some t -> spared (ec_mods c) \/ okh H sc t) (union_sub_cases i es).
Proof.
  induction es as [|e es IH]; intros F I i; cbn; [constructor|]. inversion F as [|? ? [N O] F']; subst. constructor; [|apply IH; auto; intros z Hz; apply I; cbn; apply in_or_app; auto].
  cbn. intros t [= <-]. right. right. split; auto. apply I. cbn. apply in_or_app. auto.
Qed.
Lemma union_fine n anc e : (forall x, part x n -> good x) -> tag "union" n -> good_kids anc n (kids u n anc) -> parse_union n anc (kids u n anc) = Ok e ->
  outcome (boxed anc) (Hn anc n) (Sn anc n) e.
Proof.
  intros P T G H. assert (Fn := P n (part_self n)). unfold parse_union in H. cbv zeta in H. bo H l Hl. bo H subs Hs. bo H fs Hf.
  assert (NI : ~ indirect anc n) by (intros [X|[X _]]; unfold tag in *; rewrite T in X; discriminate).
  assert (NS : ~ tag "schema" n) by (unfold tag in *; rewrite T; discriminate).
  assert (NB : forall q, ~ boxed (n :: anc) q) by (intros q; apply not_boxed; intros (s & [<-|[<-|[]]] & X); unfold tag in *; rewrite T in X; discriminate).
  assert (E : fs = []).
  { assert (Ca : ParserFacts.calm n) by (apply (calm_kind n KUnion); exact T). destruct (ParserProofs.attributes_ok u n anc fs NS Ca Hf) as [X _].
    destruct Fn as [_ (_ & _ & _ & Nu & _)]. unfold attribute_children in X. rewrite (Nu T) in X. inversion X. auto. }
  subst fs. injection H as <-.
  assert (F : Forall (fun e => wt (Hn anc n) (Sn anc n) [] e /\ In (entity_name e) (front e) /\ own_name (entity_name e)) subs).
  { eapply union_subs; [|eauto]. intros k x I Hx. assert (Ik := rfilter_in _ _ _ _ Hl I). assert (Ox := kids_here _ _ _ _ _ NI G Ik Hx). destruct (kids_in u n anc k Ik) as [Ic Ek].
    destruct (elements_sat _ _ _ _ _ Hl I) as (_ & t & Ht & O).
    assert (X : one ["simpleType"; "complexType"] (fst k)) by (apply (one_of_tags [KSimpleType; KComplexType] ["simpleType"; "complexType"] (fst k) _ t eq_refl Ht); cbn; rewrite O; auto).
    assert (Ty : typelike x). { rewrite Ek in Hx. eapply (type_typelike u schema tns xsd); [|exact X|exact Hx]. intros y Py. apply P. eapply part_type; eauto. }
    split; [eapply outcome_wt; eauto|]. split; auto. eapply outcome_settled; eauto. }
  split; [left; apply H_string|]. cbn [en_subtypes en_cases]. split.
  - apply Forall_app. split.
    + destruct (attribute n (lit "memberTypes")) as [m|] eqn:Mt; [|constructor]. destruct (members_ok m) as (ts & Bt & F2).
      apply Forall_forall. intros c Ic t Ht. destruct (Forall2_in_r _ _ _ _ F2 Ic) as (q & Iq & Mc). unfold member_case in Mc.
      assert (Eq : ec_type c = Some q) by apply Mc. rewrite Eq in Ht. injection Ht as <-. right. left. apply H_value; auto; [right; right; right; exists m, ts; auto|eapply value_member; eauto].
    + apply union_cases_fine; [|apply incl_refl]. eapply Forall_impl; [|exact F]. intros x (_ & X). exact X.
  - eapply Forall_impl; [|exact F]. intros x (X & _). exact X.
Qed.
Lemma restriction_fine n anc e : good n -> simple_type_restriction u n anc (kids u n anc) = Ok e -> outcome (boxed anc) (Hn anc n) (Sn anc n) e.
Proof.
  intros Fn H. unfold simple_type_restriction in H. bo H b Hb. bo H fs Hf. cbv zeta in H. apply expect_ok in Hb.
  assert (Kb : Hn anc n b) by (apply H_value; auto; [right; left; exact Hb|apply value_base; exact Hb]).
  destruct (_ && _); [bo H pn Hn'|]; injection H as <-.
  - split; [left; exact Kb|]. split; [|constructor]. eapply Forall_impl; [|apply cases_untyped]. cbn. intros c Hc t Ht. congruence.
  - apply wt_tuple; [reflexivity|]. left. exact Kb.
Qed.
Lemma content_fine n anc e : ~ indirect anc n -> ~ one ["sequence"; "all"] n -> good_kids anc n (kids u n anc) -> parse_content n anc (kids u n anc) = Ok e ->
  outcome (boxed anc) (Hn anc n) (Sn anc n) e.
Proof.
  intros NI NS G H. unfold parse_content in H. bo H l Hl. bo H k Hk. apply expect_ok, last_opt_in in Hk. eapply outcome_settled; [|eapply kids_here; eauto; eapply rfilter_in; eauto].
  intros q. apply not_boxed. auto.
Qed.
Lemma wild_fine B H S nm n : nm <> lit "__base__" ->
  outcome B H S (EField {| fl_name := nm; fl_type := lit "String"; fl_comment := get_documentation n; fl_subtypes := []; fl_source := FromElement; fl_mods := [MEmpty] |}) /\
  outcome B H S (EField {| fl_name := nm; fl_type := lit "String"; fl_comment := get_documentation n; fl_subtypes := []; fl_source := FromAttribute; fl_mods := [MEmpty] |}).
Proof. intros N. split; (split; [exact N|left; apply wf_spared; [reflexivity|left; left; auto]]). Qed.
Lemma step_fine n anc e : (forall x, part x n -> good x) -> Forall named_clear anc -> good_kids anc n (kids u n anc) -> parse_step u n anc (kids u n anc) = Ok e -> result anc n e.
Proof.
  intros P A G H. assert (Fn := P n (part_self n)). unfold parse_step in H. bo H t Ht.
  assert (W : outcome (boxed anc) (Hn anc n) (Sn anc n) e -> result anc n e) by (left; auto).
  assert (NI : is_kind KList t = false -> is_kind KElement t = false -> ~ indirect anc n).
  { intros X Y [Z|[Z _]]; revert Z; [apply (kind_not _ _ _ KList "list" Ht)|apply (kind_not _ _ _ KElement "element" Ht)]; auto. }
  assert (NS : is_kind KSequence t = false -> is_kind KAll t = false -> ~ one ["sequence"; "all"] n).
  { intros X Y (s & [<-|[<-|[]]] & Z); revert Z; [apply (kind_not _ _ _ KSequence "sequence" Ht)|apply (kind_not _ _ _ KAll "all" Ht)]; auto. }
  destruct t as [k|x|r|f| |]; try discriminate.
  - assert (Tk := kind_tag _ _ _ Ht). destruct k; try discriminate.
    + apply W. eapply sequence_fine; eauto. eexists. split; [right; left; reflexivity|exact Tk].
    + apply W. injection H as <-. apply wild_fine. discriminate.
    + apply W. injection H as <-. apply wild_fine. discriminate.
    + apply W. eapply attribute_fine; eauto.
    + apply W. eapply group_fine; eauto.
    + apply W. destruct (choice_fine _ _ _ (NI eq_refl eq_refl) G H) as (en & -> & X & Y & Z). split; [rewrite Y; left; apply H_string|]. rewrite X. split; [exact Z|constructor].
    + apply W. eapply content_fine; eauto.
    + eapply complex_fine; eauto. intros c Ic Na. apply P. eapply part_child; eauto. constructor.
    + apply W. eapply element_fine; eauto.
    + apply W. injection H as <-. exact Logic.I.
    + apply W. injection H as <-. exact Logic.I.
    + apply W. eapply list_fine; eauto.
    + apply W. eapply sequence_fine; eauto. eexists. split; [left; reflexivity|exact Tk].
    + apply W. eapply content_fine; eauto.
    + apply W. assert (H0 : parse_node u n anc = Ok e) by (rewrite parse_node_eq; unfold parse_step; rewrite Ht; exact H). unfold parse_simple_type in H. cbv zeta in H. bo H pt Hp. destruct (negb _) eqn:Nb; [discriminate|]. bo H l Hl. bo H k Hk.
      apply expect_ok, last_opt_in in Hk. bo H x Hx. injection H as E. rewrite <- E in H0. rewrite <- E. apply set_comment_outcome.
      assert (Ik := rfilter_in _ _ _ _ Hl Hk). assert (Ox := kids_here _ _ _ _ _ (NI eq_refl eq_refl) G Ik Hx).
      assert (Ox' : outcome (boxed anc) (Hn anc n) (Sn anc n) x) by (eapply outcome_settled; [|exact Ox]; intros q; apply not_boxed; auto).
      destruct (attr_name n) as [v|]; auto. apply set_name_outcome; auto.
      destruct anc as [|p r]; [injection Hp as <-; discriminate Nb|]. destruct (simple_shape u schema tns xsd n p r _ P A Tk H0) as [(t & E')|(en & E' & _)]; destruct x; cbn in E'; try discriminate; exact Logic.I.
    + apply W. eapply union_fine; eauto.
  - apply W. destruct x; cbn in H; [eapply derivation_fine; eauto|eapply extension_fine; eauto].
  - apply W. destruct r; cbn in H; [eapply derivation_fine; eauto|discriminate|]. eapply restriction_fine; eauto.
Qed.
Lemma node_fine n : forall anc e, (forall x, part x n -> good x) -> Forall named_clear anc -> parse_node u n anc = Ok e -> result anc n e.
Proof.
  induction n as [t a ns cs IH|s|] using node_tree_ind; intros anc e P A H; assert (H' := H); rewrite parse_node_eq in H; (eapply step_fine; [exact P|exact A| |exact H]).
  - intros k x I Hx. unfold kids in I. apply in_map_iff in I as (c & <- & Ic). cbn [fst snd children] in *.
    assert (Na : ~ tag "annotation" c).
    { intros T. rewrite parse_node_eq in Hx. unfold parse_step in Hx. unfold tag in T. rewrite (xsd_kind c _ KAnnotation) in Hx by exact T. discriminate. }
    split; [exact Ic|]. split; [exact Na|].
    rewrite Forall_forall in IH. destruct (IH c Ic (Elem t a ns cs :: anc) x) as [R|[B _]]; auto.
    + intros y Py. apply P. eapply part_child; eauto.
    + constructor; auto. apply (good_named u schema tns xsd), P. constructor.
    + exfalso. eapply (not_bare u schema tns xsd (Elem t a ns cs) c); eauto; [apply P; constructor|]. intros T. rewrite (step_kind u _ _ KSchema) in H' by exact T. discriminate.
  - intros k x [].
  - intros k x [].
Qed.
End Parsed.

(** ** Declarations and linking *)
Section Linked.
Context (u : uni) (schema : node) (tns xsd : option namespace).
Notation own := (ns_prefix tns).
Notation xs := (ns_prefix xsd).
Notation K := (K schema tns xsd).
Notation known := (known schema own xs).
Notation wt := (wt xsd K).
Notation wf := (wf xsd K).
Notation good := (ScopeProofs.good u schema tns xsd).
Notation Hn := (Hn schema tns xsd).
Notation direct := (direct schema own xs).
Notation contains := (contains schema own xs).
Context (HN : forall nm, introduced schema nm -> clear_name u own xs nm).
Context (OS : ok_schema schema) (GP : forall x, part x schema -> good x).

Lemma silent_alias d e : silent d -> parse_node u d [schema] = Ok e -> exists a, e = EAlias a /\ ~ SpecGen.documented (al_comment a).
Proof.
  intros [Sd ND] H.
  assert (C : ~ SpecGen.documented (get_documentation d)).
  { intros X. apply ND. destruct (get_documentation d) as [c|] eqn:E; [|destruct X as (? & ? & ? & ? & X & _); discriminate X]. exists c. split; auto. apply documented_iff. auto. }
  assert (Cs : tag "element" d /\ present d "type" \/ tag "attribute" d).
  { destruct Sd as [[(t & [<-|[<-|[]]] & T) P]|[T P]]; auto. }
  destruct Cs as [[T (q & At)]|T].
  - rewrite (step_kind u d _ KElement) in H by exact T. unfold parse_element in H. rewrite (parent_kind _ schema [] KSchema eq_refl (proj1 OS)) in H. cbn [bind] in H.
    unfold parse_global_element, attr_type in H. bo H nm Hnm. unfold has in At. rewrite At in H. injection H as <-. eauto.
  - rewrite (step_kind u d _ KAttribute) in H by exact T. unfold parse_attribute in H. rewrite (parent_kind _ schema [] KSchema eq_refl (proj1 OS)) in H. cbn [bind is_kind kind_beq] in H.
    unfold parse_global_attribute, attr_ref, attr_type in H. destruct (attribute d (lit "ref")) as [r|] eqn:Ar; [injection H as <-; eauto|]. bo H nm Hnm.
    destruct (attribute d (lit "type")) as [q|] eqn:At; [injection H as <-; eauto|]. exfalso. unfold present, has in Sd. destruct Sd as [[_ (v & V)]|[_ (v & V)]]; congruence.
Qed.
Lemma introduces_loud d : introduces_type d -> ~ silent d.
Proof.
  intros [Ar Hd] [Sd ND].
  assert (X : forall t t', tag t d -> tag t' d -> lit t = lit t') by (unfold tag; congruence).
  destruct Hd as [(t & It & T)|[[_ A]|(_ & _ & D)]]; [|unfold absent in *|contradiction].
  - destruct Sd as [[(s & Is & Ts) _]|[Ts _]].
    + assert (E := X _ _ T Ts). cbn in It, Is. clear - It Is E. repeat (destruct It as [<-|It]; [repeat (destruct Is as [<-|Is]; [discriminate|]); destruct Is|]). destruct It.
    + assert (E := X _ _ T Ts). cbn in It. clear - It E. repeat (destruct It as [<-|It]; [discriminate|]). destruct It.
  - destruct Sd as [[_ (v & V)]|[T (v & V)]]; unfold has in V; [congruence|]. rewrite (Ar T) in V. discriminate.
Qed.

Lemma declaration_wt c e : In c (declarations schema) -> parse_node u c [schema] = Ok e -> wt (Hn [schema] c) (Sn [schema] c) [] e.
Proof.
  intros Ic H. destruct (in_declarations _ _ Ic) as (I & E & N & NG).
  assert (Pc : forall x, part x c -> good x) by (intros x Px; apply GP; eapply part_child; eauto).
  assert (R : result schema tns xsd [schema] c e).
  { eapply node_fine; eauto. constructor; [|constructor]. apply (good_named u schema tns xsd). apply GP. constructor. }
  destruct R as [R|(_ & _ & R)]; auto.
  assert (TL : typelike e -> wt (Hn [schema] c) (Sn [schema] c) [] e) by (intros Ty; eapply outcome_wt; eauto).
  destruct (declared_tags _ _ OS I E N) as (t & It & Tt). cbn in It.
  assert (GL : In t ["element"; "attribute"] -> wt (Hn [schema] c) (Sn [schema] c) [] e).
  { intros X. assert (Oc : one ["element"; "attribute"] c) by (exists t; auto).
    destruct (global_typelike u schema tns xsd schema c e (proj1 OS) Pc Oc H) as [Y|(a & -> & Ka & Ha & _)]; auto. apply wt_alias. left.
    destruct Ka as [Ka|Ka]; [left; auto|]. right. split; auto. exists [schema], c. split; [constructor|].
    destruct Oc as (s & [<-|[<-|[]]] & Ts); [|apply value_attribute; auto]. apply value_element; auto.
    - right. exists schema, []. split; auto. apply OS.
    - apply not_boxed. intros (s & [<-|[<-|[]]] & Y); pose proof (proj1 OS) as Z; unfold tag in *; rewrite Z in Y; discriminate. }
  assert (TT : In t ["simpleType"; "complexType"] -> wt (Hn [schema] c) (Sn [schema] c) [] e) by (intros X; apply TL; eapply (type_typelike u schema tns xsd); eauto; exists t; auto).
  destruct It as [<-|[<-|[<-|[<-|[<-|[<-|[<-|[]]]]]]]]; try (apply GL; cbn; auto; fail); try (apply TT; cbn; auto; fail).
  - rewrite (step_kind u c _ KImport) in H by exact Tt. injection H as <-. constructor.
  - rewrite (step_kind u c _ KInclude) in H by exact Tt. injection H as <-. constructor.
Qed.
Lemma group_wt c s : In c (tagged_children ["attributeGroup"] schema) -> parse_node u c [schema] = Ok (EStruct s) -> wt (Hn [schema] c) (Sn [schema] c) [] (EStruct s).
Proof.
  intros Ic H. apply in_tagged in Ic as [I (t & [<-|[]] & T)].
  assert (Pc : forall x, part x c -> good x) by (intros x Px; apply GP; eapply part_child; eauto; unfold tag in *; rewrite T; discriminate).
  assert (R : result schema tns xsd [schema] c (EStruct s)).
  { eapply node_fine; eauto. constructor; [|constructor]. apply (good_named u schema tns xsd). apply GP. constructor. }
  destruct R as [R|(_ & _ & R)]; auto.
Qed.

(** [below b a]: [a] contains [b]. *)
Definition below (b a : str) : Prop := contains a b.
Definition reach (c : node) (l : str) : Prop := exists l1, direct c l1 /\ clos_refl_trans str below l l1.
Definition Hp (c : node) (q : str) : Prop := q = lit "String" \/ known q /\ forall l, to_own own xs q l -> reach c l.
Lemma Hn_Hp c q : Hn [schema] c q -> Hp c q.
Proof.
  intros [->|(Kq & anc & x & J & V)]; [left; auto|right]. split; auto. intros l T. exists l. split; [|apply rt_refl]. exists anc, x, q. split; auto.
Qed.
Lemma Hp_K c q : Hp c q -> K q.
Proof. intros [->|[X _]]; [left; auto|right; auto]. Qed.
(** What a spliced component contains is contained in what it is spliced into. *)
Lemma Hp_splice c d q l : Sn [schema] c q -> local q l -> In d (children schema) -> has d "name" l -> ~ silent d -> forall x, Hp d x -> Hp c x.
Proof.
  intros (anc & x & J & V) Q I Hd Ns y [->|[Ky R]]; [left; auto|right]. split; auto. intros m T. destruct (R m T) as (l1 & D & C).
  exists l. split; [exists anc, x, q; split; auto|]. eapply rt_trans; [exact C|]. apply rt_step. exists d. auto.
Qed.

Lemma same_fields_wt (R : entity -> entity -> Prop) (H S H' : str -> Prop) sc fs gs : (forall q, H q -> H' q) ->
  (forall f e e', In f fs -> In e (fl_subtypes f) -> R e e' -> wt H S sc e -> wt H' always sc e') ->
  (forall f e e', In f fs -> In e (fl_subtypes f) -> R e e' -> wt K always sc e -> wt K always sc e') ->
  Forall (wf H S sc) fs -> Forall2 (same_field R) fs gs -> Forall (wf H' always sc) gs.
Proof.
  intros HH HR HK F X. apply Forall_forall. intros g I. destruct (Forall2_in_r _ _ _ _ X I) as (f & If & (E1 & E2 & _ & _ & E5 & Hs)).
  rewrite Forall_forall in F. assert (D := F f If). inversion D as [f' E Sp|f' E O|f' x E W|f' x E Sp W]; subst.
  - rewrite E in Hs. inversion Hs; subst. apply wf_spared; [auto|rewrite E5; auto].
  - rewrite E in Hs. inversion Hs; subst. apply wf_plain; [auto|rewrite E2]. eapply okh_mono; eauto. apply incl_refl.
  - assert (Ix : In x (fl_subtypes f)) by (rewrite E; left; auto). rewrite E in Hs. inversion Hs as [|? y ? ys Hy Hys]; subst. inversion Hys; subst. eapply wf_nested; eauto.
  - assert (Ix : In x (fl_subtypes f)) by (rewrite E; left; auto). rewrite E in Hs. inversion Hs as [|? y ? ys Hy Hys]; subst. inversion Hys; subst. eapply wf_vec; eauto. rewrite E5. auto.
Qed.
Lemma assembled_wf (src : str -> list (field entity) -> Prop) (H S : str -> Prop) sc own0 out : (forall q c, S q -> src q c -> Forall (wf H always []) c) ->
  Forall (wf H always sc) own0 -> (forall f, In f own0 -> placeholder f -> S (fl_type f)) -> assembled src own0 out -> Forall (wf H always sc) out.
Proof.
  intros HP Ho Pl (cs & F & ->). apply Forall_app. split.
  - apply Forall_forall. intros f I. apply in_proper in I as [I _]. rewrite Forall_forall in Ho. auto.
  - apply Forall_forall. intros f I. apply in_not_redeclared in I as [I _]. destruct (in_concat_2 _ _ _ _ F I) as (b & c & Ib & Hb & Ic).
    unfold placeholders in Ib. apply filter_In in Ib as [Ib Eb]. apply str_eqb_eq in Eb.
    apply HP in Hb; [|apply Pl; auto]. rewrite Forall_forall in Hb. eapply wf_mono; [| |apply nil_incl|apply Hb; auto]; auto.
Qed.
Lemma same_placeholders (R : entity -> entity -> Prop) (S : str -> Prop) fs gs : Forall2 (same_field R) fs gs ->
  (forall f, In f fs -> placeholder f -> S (fl_type f)) -> forall f, In f gs -> placeholder f -> S (fl_type f).
Proof.
  intros X Pl g I Pg. destruct (Forall2_in_r _ _ _ _ X I) as (f & If & (E1 & E2 & _)). unfold placeholder in *. rewrite E2. apply Pl; auto. congruence.
Qed.
Lemma completed_wt (src : str -> list (field entity) -> Prop) e : (forall q c, src q c -> Forall (wf K always []) c) ->
  forall (H S H' : str -> Prop) sc e', (forall q, H q -> H' q) -> (forall q c, S q -> src q c -> Forall (wf H' always []) c) ->
  completed src e e' -> wt H S sc e -> wt H' always sc e'.
Proof.
  intros HA. induction e as [s IHf IHs|t IH|n IH|f|c|a|i] using entity_sub_ind; intros H S H' sc e' HH HB C D;
    inversion C as [s' t' o Ss Sf As|x Nx]; subst; try (eapply wt_mono; [exact HH| |apply incl_refl|exact D]; intros; exact Logic.I).
  inversion D as [s' F Pl Gr| | | | | |]; subst. constructor; try (intros; exact Logic.I).
  eapply assembled_wf; [exact HB| |eapply same_placeholders; eauto|exact As].
  eapply same_fields_wt; [exact HH| | |exact F|exact Sf].
  - intros f e e' If Ie Re We. eapply (IHf f e If Ie) with (H := H) (S := S); eauto.
  - intros f e e' If Ie Re We. eapply (IHf f e If Ie) with (H := K) (S := always); eauto.
Qed.

(** The declaration behind a name. *)
Lemma source f f' i q x : parse_schema u schema [] = Ok f -> link f = Ok f' ->
  (forall j c s, (j < i)%nat -> nth_error (declarations schema) j = Some c -> struct_at (rf_types f') j s -> Forall (wf (Hp c) always []) (st_fields s)) ->
  snapshot (top_level f) (top_level f') i q x ->
  x = [] \/ exists d l, local q l /\ In d (children schema) /\ has d "name" l /\ ~ silent d /\ Forall (wf (Hp d) always []) x.
Proof.
  intros H L IH. destruct (link_ok _ _ L) as (Eg & _ & _ & Len & Other & Str). destruct (schema_inv _ _ _ _ H) as (_ & H1 & H2 & _). destruct (schema_ok _ _ _ _ (proj1 OS) H) as [D1 D2].
  assert (F2 : forall (P : node -> entity -> Prop) l r j y, Forall2 P l r -> nth_error r j = Some y -> exists x, nth_error l j = Some x /\ P x y).
  { intros P l r j y F. revert j. induction F; intros [|j] E1; try discriminate; cbn in *; [injection E1 as <-; eauto|eauto]. }
  assert (At : forall j s, struct_at (top_level f) j s -> exists d, In d (children schema) /\ has d "name" (st_name s) /\ ~ silent d /\ wt (Hn [schema] d) (Sn [schema] d) [] (EStruct s) /\
     ((j < List.length (rf_types f))%nat -> nth_error (declarations schema) j = Some d)).
  { intros j s Hs. unfold struct_at, top_level in Hs. destruct (Nat.lt_ge_cases j (List.length (rf_types f))) as [Lj|Lj].
    - rewrite nth_error_app1 in Hs by auto. destruct (F2 _ _ _ _ _ H1 Hs) as (d & Hd & Pd). destruct (F2 _ _ _ _ _ D1 Hs) as (d' & Hd' & Dd). rewrite Hd in Hd'. injection Hd' as <-. cbn beta in Pd.
      assert (Id := nth_error_In _ _ Hd). exists d. destruct (in_declarations _ _ Id) as (I & _ & N & _). split; auto. split; [|split; [|split]].
      + eapply struct_name; eauto. intros y Py. apply GP. eapply part_child; eauto.
      + intros Sd. destruct (silent_alias _ _ Sd Pd) as (a & X & _). discriminate.
      + apply declaration_wt; auto.
      + auto.
    - rewrite nth_error_app2 in Hs by auto. destruct (F2 _ _ _ _ _ H2 Hs) as (d & Hd & Pd). destruct (F2 _ _ _ _ _ D2 Hs) as (d' & Hd' & Dd). rewrite Hd in Hd'. injection Hd' as <-. cbn beta in Pd.
      assert (Id := nth_error_In _ _ Hd). exists d. split; [apply in_tagged in Id; apply Id|]. split; [|split; [|split; [apply group_wt; auto|lia]]].
      + destruct Dd as (s' & X & Y & _). congruence.
      + intros Sd. destruct (silent_alias _ _ Sd Pd) as (a & X & _). discriminate. }
  intros [[_ ->]|(j & (k & s & Lq & Hs & Ek & _) & Cs)]; [left; auto|right].
  destruct (At j s Hs) as (d & Id & Nd & Sd & Wd & Ij). exists d, k. split; auto. split; auto. split; [congruence|]. split; auto.
  destruct Cs as [(Lj & t & Ht & ->)|(Lj & t & Ht & ->)].
  - unfold struct_at, top_level in Ht. destruct (Nat.lt_ge_cases j (List.length (rf_types f))) as [Lj'|Lj'].
    + rewrite nth_error_app1 in Ht by lia. eapply IH; eauto.
    + rewrite nth_error_app2 in Ht by lia. rewrite Eg, Len in Ht. unfold struct_at, top_level in Hs. rewrite nth_error_app2 in Hs by auto. rewrite Hs in Ht. injection Ht as <-.
      inversion Wd as [s' F Pl Gr| | | | | |]; subst. eapply Forall_impl; [|exact F]. intros y. apply wf_mono; [apply Hn_Hp|intros; exact Logic.I|apply incl_refl].
  - unfold struct_at in *. rewrite Hs in Ht. injection Ht as <-. inversion Wd as [s' F Pl Gr| | | | | |]; subst. eapply Forall_impl; [|exact F]. intros y. apply wf_mono; [apply Hn_Hp|intros; exact Logic.I|apply incl_refl].
Qed.
Lemma link_wt f f' : parse_schema u schema [] = Ok f -> link f = Ok f' ->
  forall i c e, nth_error (declarations schema) i = Some c -> nth_error (rf_types f') i = Some e -> wt (Hp c) always [] e.
Proof.
  intros H L. destruct (link_ok _ _ L) as (Eg & _ & _ & Len & Other & Str). destruct (schema_inv _ _ _ _ H) as (_ & H1 & _).
  assert (F2 : forall (P : node -> entity -> Prop) l r j x, Forall2 P l r -> nth_error l j = Some x -> exists y, nth_error r j = Some y /\ P x y).
  { intros P l r j x F. revert j. induction F; intros [|j] E1; try discriminate; cbn in *; [injection E1 as <-; eauto|eauto]. }
  induction i as [i IH] using (well_founded_induction lt_wf). intros c e' Hc He'.
  destruct (F2 _ _ _ _ _ H1 Hc) as (e & He & Pe). cbn beta in Pe. assert (W := declaration_wt c e (nth_error_In _ _ Hc) Pe).
  assert (Wk : wt (Hp c) always [] e) by (eapply wt_mono; [apply Hn_Hp| |apply incl_refl|exact W]; intros; exact Logic.I).
  destruct e as [s|fl|t|n|k|a|im]; try (rewrite (Other i _ He) in He' by discriminate; injection He' as <-; auto; fail).
  destruct (Str i s He) as (t & Ht & o & out & gs & Same & Ho & As & Hg & Ef). unfold struct_at in Ht. rewrite Ht in He'. injection He' as <-.
  assert (SRC : forall q x, snapshot (top_level f) (top_level f') i q x -> x = [] \/ exists d l, local q l /\ In d (children schema) /\ has d "name" l /\ ~ silent d /\ Forall (wf (Hp d) always []) x).
  { intros q x. apply (source f f' i q x H L). intros j d s' Lj Hd Hs'. specialize (IH j Lj d _ Hd Hs'). inversion IH; subst; auto. }
  assert (SA : forall q x, snapshot (top_level f) (top_level f') i q x -> Forall (wf K always []) x).
  { intros q x X. apply SRC in X as [->|(d & l & _ & _ & _ & _ & F)]; [constructor|]. eapply Forall_impl; [|exact F]. intros y. apply wf_mono; [apply Hp_K|auto|apply incl_refl]. }
  assert (SB : forall q x, Sn [schema] c q -> snapshot (top_level f) (top_level f') i q x -> Forall (wf (Hp c) always []) x).
  { intros q x Sq X. apply SRC in X as [->|(d & l & Lq & Id & Nd & Sd & F)]; [constructor|]. eapply Forall_impl; [|exact F]. intros y. apply wf_mono; [|auto|apply incl_refl]. eapply Hp_splice; eauto. }
  inversion W as [s' F Pl Gr| | | | | |]; subst. destruct Same as (E1 & E2 & E3 & E4).
  assert (Wo : Forall (wf (Hp c) always []) o).
  { eapply same_fields_wt; [apply Hn_Hp| | |exact F|exact Ho].
    - intros g e e' _ _ Re We. eapply completed_wt; [exact SA|apply Hn_Hp|exact SB|exact Re|exact We].
    - intros g e e' _ _ Re We. eapply completed_wt with (H := K) (S := always); eauto. }
  assert (Wout : Forall (wf (Hp c) always []) out).
  { eapply assembled_wf; [|exact Wo|eapply same_placeholders; eauto|exact As]. intros q x Sq [X|[_ ->]]; [eauto|constructor]. }
  constructor; try (intros; exact Logic.I). rewrite Ef. apply Forall_app. split; auto. apply Forall_concat. apply Forall_forall. intros g Ig.
  destruct (Forall2_in_r _ _ _ _ Hg Ig) as (a & Ia & [X|[_ ->]]); auto. eapply SB; eauto.
Qed.
Lemma parsed_wt f : parse_schema u schema [] = Ok f ->
  forall i c e, nth_error (declarations schema) i = Some c -> nth_error (rf_types f) i = Some e -> wt (Hp c) always [] e.
Proof.
  intros H i c e' Hc He'. destruct (schema_inv _ _ _ _ H) as (_ & H1 & _).
  assert (F2 : forall (P : node -> entity -> Prop) l r j x, Forall2 P l r -> nth_error l j = Some x -> exists y, nth_error r j = Some y /\ P x y).
  { intros P l r j x F. revert j. induction F; intros [|j] E1; try discriminate; cbn in *; [injection E1 as <-; eauto|eauto]. }
  destruct (F2 _ _ _ _ _ H1 Hc) as (e & He & Pe). cbn beta in Pe. rewrite He in He'. injection He' as <-. assert (W := declaration_wt c e (nth_error_In _ _ Hc) Pe).
  eapply wt_mono; [apply Hn_Hp| |apply incl_refl|exact W]; intros; exact Logic.I.
Qed.
End Linked.

(** ** All together *)
Section Whole.
Context (u : uni) (schema : node) (tns xsd : option namespace) (l : list entity) (its : list item).
Notation own := (ns_prefix tns).
Notation xs := (ns_prefix xsd).
Notation K := (K schema tns xsd).
Notation known := (known schema own xs).
Notation wt := (wt xsd K).
Notation tid := (fun q => format_type_name u q xsd tns).
Notation ty := (SpecGen.ty u tid).
Notation items := (items u tns tid (format_name u) (variant_name u tns)).
Notation all_items := (all_items u tns tid (format_name u) (variant_name u tns)).
Notation P := (concat (map (placed []) its)).
Notation sized := (sized u (namespaces schema) own xs P).
Notation Hp := (Hp schema tns xsd).
Notation below := (below schema tns xsd).
Notation sz := (sz xsd u tns (namespaces schema) P).
Notation settled := (settled xsd u tns (namespaces schema) P).
Context (HN : forall nm, introduced schema nm -> clear_name u own xs nm).
Context (US : unshadowed P) (GR : grounded schema own xs).
Context (A : all_items l its) (Tp : Forall (ScopeProofs.top u tns xsd K) l).
Context (Len : List.length l = List.length (declarations schema)).
Context (W : forall i c e, nth_error (declarations schema) i = Some c -> nth_error l i = Some e -> wt (Hp c) always [] e).
Context (Pr : forall nm, introduced schema nm -> exists d, In d (children schema) /\ has d "name" nm /\ ~ silent d /\
   exists i e, nth_error (declarations schema) i = Some d /\ nth_error l i = Some e /\ present_as nm e).

Lemma known_sized q : (forall m, to_own own xs q m -> forall path, sized path (ty q)) -> known q -> forall path, sized path (ty q).
Proof.
  intros C (p & m & Q & [[-> B]|[(NB & Po & I)|(x & ns & -> & In_ & En & No & Nx & Nl & Wx & Ll)]]) path.
  - destruct (match_built_in_type q xsd) as [t|] eqn:E.
    + assert (X : In t (map snd built_in_table)). { apply built_in_iff in E as (m' & _ & Am). apply assoc_in in Am. apply (in_map snd) in Am. exact Am. }
      unfold SpecGen.ty, format_type_name. rewrite E.
      assert (Y : forallb (fun s => existsb (fun t => str_eqb s (lit t)) library_types || str_eqb s (lit "Vec<String>")) (map snd built_in_table) = true) by (vm_compute; reflexivity).
      rewrite forallb_forall in Y. apply Y in X. apply orb_true_iff in X as [X|X].
      * apply existsb_exists in X as (s & Is & Es). apply str_eqb_eq in Es. subst t. apply sized_library. auto.
      * apply str_eqb_eq in X. subst t. change (lexemes u (lit "Vec<String>")) with (rust u "Vec<" ++ rust u "String" ++ rust u ">"). apply sized_vec.
    + exfalso. apply (built_in_none q (ns_prefix xsd) m xsd Q) in E. apply E. auto.
  - apply (C m). exists p. auto.
  - apply sized_foreign. eapply foreign_text; eauto.
Qed.
Lemma string_sized path : sized path (ty (lit "String")).
Proof. rewrite (string_text u tns xsd). apply sized_library. left. auto. Qed.
Lemma item_here e : In e l -> exists a, items e a /\ incl (concat (map (placed []) a)) P.
Proof.
  intros I. clear - A I. induction A as [|x l' a b A1 A2 IH]; [destruct I|]. rewrite map_app, concat_app. destruct I as [<-|I].
  - exists a. split; auto. apply incl_appl, incl_refl.
  - destruct (IH A2 I) as (c & X & Y). exists c. split; auto. apply incl_appr. auto.
Qed.
Lemma top_flat e : ScopeProofs.top u tns xsd K e -> flat_fields u tns e.
Proof. intros [_ S]. destruct e; auto. left. exact S. Qed.
Lemma claim : forall m, Acc below m -> forall q path, known q -> to_own own xs q m -> sized path (ty q).
Proof.
  intros m Ac. apply Acc_clos_trans in Ac. induction Ac as [m _ IH]. intros q path Kq (p & Q & NB & Po).
  assert (I : introduced schema m).
  { destruct Kq as (p' & m' & Q' & C). destruct (qualified_unique _ _ _ _ _ Q Q') as [<- <-]. destruct C as [C|[(_ & _ & I)|(x & ns & -> & _ & _ & No & _)]]; [contradiction|auto|].
    destruct Po as [X|X]; [discriminate|]. congruence. }
  assert (O := clear_own u tns xsd m (HN m I)).
  assert (Eq : tid q = tid m). { rewrite (own_text u tns xsd m O). apply (format_type_own u q p m); auto. apply (built_in_none q p m xsd Q). auto. }
  assert (Et : ty q = ty m) by (unfold SpecGen.ty; rewrite Eq; auto). rewrite Et. apply sz_sized; auto.
  enough (S : sz [] m). { destruct S as (p0 & r & i & E & X). destruct p0; [|discriminate]. exists [], path, i. auto. }
  destruct (Pr m I) as (d & Id & Nd & Sd & i & e & Hi & He & Pm). assert (We := W i d e Hi He). assert (Ie := nth_error_In _ _ He).
  assert (St : settled (Hp d)).
  { intros x [->|[Kx R]] p'; [apply string_sized|]. apply known_sized; auto. intros m' T p''. apply (IH m'); auto.
    destruct (R m' T) as (l1 & D1 & C1). eapply clos_rt_t; [exact C1|]. apply t_step. exists d. auto. }
  rewrite Forall_forall in Tp. assert (Te := Tp e Ie). destruct (item_here e Ie) as (a & Ai & Aj).
  destruct Pm as [[Ty Nm]|(al & -> & En & Dc)].
  - eapply (Ga_all xsd K u tns (namespaces schema) P US e (Hp d) always [] (here e) [] a); eauto; [apply Te|apply top_flat; auto|intros x []|].
    destruct Nm as [<-|(en & s & -> & _ & Es & <-)]; [apply named_front; auto|]. cbn. rewrite Es. right. left. auto.
  - inversion Ai; subst; [contradiction|]. eapply item_sz; [exact Aj|left; reflexivity|reflexivity|]. cbn. intros c [<-|[]]. inversion We as [| | | | |al' Oa|]; subst.
    eapply okh_sized; eauto. intros x [].
Qed.
Lemma all_sized : settled K.
Proof. intros q [->|Kq] path; [apply string_sized|]. apply known_sized; auto. intros m T p. eapply claim; eauto. Qed.
Lemma whole : forall path i c, In (path, i) P -> In c (parts_of i) -> sized path c.
Proof.
  intros path i c I Ic.
  assert (X : exists e a, In e l /\ items e a /\ incl (concat (map (placed []) a)) P /\ In (path, i) (concat (map (placed []) a))).
  { clear - A I. revert I. induction A as [|x l' a b A1 A2 IH]; intros I; [destruct I|]. rewrite map_app, concat_app in *. apply in_app_or in I as [I|I].
    - exists x, a. split; [left; auto|]. split; auto. split; auto. apply incl_appl, incl_refl.
    - destruct (IH A2 I) as (e & a' & X1 & X2 & X3 & X4). exists e, a'. split; [right; auto|]. split; auto. split; auto. apply incl_appr. auto. }
  destruct X as (e & a & Ie & Ai & Aj & Ip). assert (Te := proj1 (Forall_forall _ _) Tp e Ie).
  assert (We : wt K always [] e).
  { apply In_nth_error in Ie as (j & Hj). assert (Lj : (j < List.length (declarations schema))%nat) by (rewrite <- Len; apply nth_error_Some; congruence).
    destruct (nth_error (declarations schema) j) as [d|] eqn:Hd; [|apply nth_error_None in Hd; lia].
    eapply wt_mono; [apply (Hp_K schema tns xsd d)|intros; exact Logic.I|apply incl_refl|apply (W j d e Hd Hj)]. }
  eapply (Gb_all xsd K u tns (namespaces schema) P US all_sized e K always [] (here e) [] a); eauto; [apply Te|apply top_flat; auto|apply all_sized|intros x []].
Qed.
End Whole.

Lemma Forall2_same_length {A B} (R : A -> B -> Prop) l r : Forall2 R l r -> List.length l = List.length r.
Proof. intros F. induction F; cbn; auto. Qed.
Lemma document_finite u roots schema f its : document roots schema -> ok_schema schema -> tidy schema -> parse u roots = Ok f ->
  (forall x, part x schema -> orderly u schema (ns_prefix (rf_target_ns f)) (ns_prefix (rf_xsd_ns f)) x) ->
  all_items u (rf_target_ns f) (fun q => format_type_name u q (rf_xsd_ns f) (rf_target_ns f)) (format_name u) (variant_name u (rf_target_ns f)) (rf_types f) its -> unshadowed (concat (map (placed []) its)) ->
  grounded schema (ns_prefix (rf_target_ns f)) (ns_prefix (rf_xsd_ns f)) ->
  finite u (namespaces schema) (ns_prefix (rf_target_ns f)) (ns_prefix (rf_xsd_ns f)) its.
Proof.
  intros (a & b & -> & E & L) O T H Or A US GR. destruct (parse_document u (a ++ schema :: b)) as [PD _].
  destruct (proj1 (proj1 (PD a schema b eq_refl E L) f) H) as (f0 & Hp & Hl). destruct (link_ok _ _ Hl) as (_ & Et & Ex & Len & Other & Str).
  assert (GP : forall x, part x schema -> ScopeProofs.good u schema (rf_target_ns f) (rf_xsd_ns f) x) by (intros; apply ScopeProofs.good_parts; auto).
  destruct (ScopeProofs.file_top u schema (rf_target_ns f) (rf_xsd_ns f) schema f0 O GP Hp) as [Tp Lk].
  assert (Tp' := ScopeProofs.link_top _ _ _ _ _ _ Hl Tp Lk).
  assert (HN : forall nm, introduced schema nm -> clear_name u (ns_prefix (rf_target_ns f)) (ns_prefix (rf_xsd_ns f)) nm) by (intros nm I; eapply introduced_clear; eauto).
  unfold finite. cbv zeta. intros path i c. eapply whole; eauto.
  - rewrite Len. destruct (schema_inv _ _ _ _ Hp) as (_ & H1 & _). symmetry. eapply Forall2_same_length; eauto.
  - intros j d e. eapply link_wt; eauto.
  - intros nm I. destruct (introduced_at u schema f0 nm O (proj1 T) Hp I) as (d & Id & Nd & Ti & j & e & Hj & He & Pm). exists d. split; auto. split; auto. split; [apply introduces_loud; auto|].
    exists j. destruct Pm as [[Ty N]|(al & -> & N & Dc)].
    + destruct e as [s|fl|t|n|k|al|im]; try (eexists; split; [exact Hj|split; [apply (Other j _ He); discriminate|left; auto]]).
      destruct (Str j s He) as (t & Ht & o & out & gs & (E1 & _) & _). exists (EStruct t). split; auto. split; auto. left. split; auto.
      destruct N as [N|(en & s' & X & _)]; [left; cbn in *; congruence|discriminate].
    + exists (EAlias al). split; auto. split; [apply (Other j _ He); discriminate|]. right. eauto.
Qed.
Lemma schema_finite u schema f its : ok_schema schema -> tidy schema -> parse_schema u schema [] = Ok f ->
  (forall x, part x schema -> orderly u schema (ns_prefix (rf_target_ns f)) (ns_prefix (rf_xsd_ns f)) x) ->
  all_items u (rf_target_ns f) (fun q => format_type_name u q (rf_xsd_ns f) (rf_target_ns f)) (format_name u) (variant_name u (rf_target_ns f)) (rf_types f) its -> unshadowed (concat (map (placed []) its)) ->
  grounded schema (ns_prefix (rf_target_ns f)) (ns_prefix (rf_xsd_ns f)) ->
  finite u (namespaces schema) (ns_prefix (rf_target_ns f)) (ns_prefix (rf_xsd_ns f)) its.
Proof.
  intros O T H Or A US GR.
  assert (GP : forall x, part x schema -> ScopeProofs.good u schema (rf_target_ns f) (rf_xsd_ns f) x) by (intros; apply ScopeProofs.good_parts; auto).
  destruct (ScopeProofs.file_top u schema (rf_target_ns f) (rf_xsd_ns f) schema f O GP H) as [Tp Lk].
  assert (HN : forall nm, introduced schema nm -> clear_name u (ns_prefix (rf_target_ns f)) (ns_prefix (rf_xsd_ns f)) nm) by (intros nm I; eapply introduced_clear; eauto).
  unfold finite. cbv zeta. intros path i c. eapply whole; eauto.
  - destruct (schema_inv _ _ _ _ H) as (_ & H1 & _). symmetry. eapply Forall2_same_length; eauto.
  - intros j d e. eapply parsed_wt; eauto.
  - intros nm I. destruct (introduced_at u schema f nm O (proj1 T) H I) as (d & Id & Nd & Ti & X). exists d. split; auto. split; auto. split; [apply introduces_loud; auto|]. exact X.
Qed.
