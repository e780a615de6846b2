(** Property theorems C60: whole documents, from the tree to the text. *)
From Coq Require Import NArith ZArith Bool Ascii String List Lia.
From Verif Require Import Str SpecLex SpecNames SpecBuiltin Xml StrFacts Names Entity Parser ParserFacts SpecSchema ParserProofs PropsParser Link SpecLink PropsLink
  Gen SpecRust SpecGen RustFacts GenProofs PropsGen SpecDoc DocProofs.
Import ListNotations.
Local Open Scope string_scope.
Local Open Scope list_scope.
Local Open Scope N_scope.
Notation concat := List.concat.

(** C60: a document in the supported subset whose names are names and whose lengths are
    32-bit numbers is turned into code: nothing panics on the way, and the text lexes to the
    items of the types. *)
Theorem C60_document : forall u roots schema,
  document roots schema -> ok_schema schema -> tidy schema -> not_self_derived schema ->
  exists f, parse u roots = Ok f /\ exists its f' s, file_items u f (rf_types f) its /\
    generate_rs_file u f = Ok (f', s) /\ lex u s = Some (concat (map (item_tokens u) its)).
Proof. exact document_outcome. Qed.
Print Assumptions C60_document.
(** The same without resolution, as for the schemas embedded in a WSDL document. *)
Theorem C60_schema : forall u schema, ok_schema schema -> tidy schema ->
  exists f, parse_schema u schema [] = Ok f /\ exists its f' s, file_items u f (rf_types f) its /\
    generate_rs_file u f = Ok (f', s) /\ lex u s = Some (concat (map (item_tokens u) its)).
Proof. exact schema_outcome. Qed.
Print Assumptions C60_schema.
(** Every named simple type and complex type, and every global element without a type
    attribute, has a definition outside of all modules under its name. *)
Theorem C60_types : forall u roots schema f its d nm, document roots schema -> ok_schema schema -> tidy schema ->
  parse u roots = Ok f -> file_items u f (rf_types f) its ->
  In d (children schema) -> has d "name" nm -> one ["simpleType"; "complexType"] d \/ tag "element" d /\ absent d "type" ->
  exists k, In ([] : list str, ty_of u f nm, k) (concat (map (defined []) its)).
Proof. exact types_defined. Qed.
Print Assumptions C60_types.

(** A check of the conditions, for the examples. *)
Fixpoint parts (n : node) : list node :=
  n :: match n with
       | Elem _ _ _ cs => (fix go (cs : list node) := match cs with
           | [] => []
           | c :: cs' => (if tagged "annotation" c then [] else parts c) ++ go cs' end) cs
       | _ => [] end.
Lemma parts_all x n : part x n -> In x (parts n).
Proof.
  induction 1 as [n|x c n I A P IH]; [destruct n; left; reflexivity|]. destruct n as [t a ns cs| |]; try destruct I.
  right. cbn [children] in I. induction cs as [|c' cs IHc]; [destruct I|]. apply in_or_app. destruct I as [->|I]; [left|right; auto].
  destruct (tagged "annotation" c) eqn:T; auto. apply tagged_iff in T. contradiction.
Qed.
Definition among (ts : list string) (x : node) : bool := existsb (fun t => tagged t x) ts.
Definition when (x : node) (a : string) (p : str -> bool) : bool := match attribute x (lit a) with Some v => p v | None => true end.
Definition without (l : list N) (s : str) : bool := forallb (fun c => negb (existsb (N.eqb c) l)) s.
Definition tidyb (x : node) : bool :=
  forallb (fun a => when x a (without [34; 47; 92; 10])) naming &&
  (negb (among ["maxExclusive"; "maxInclusive"; "minExclusive"; "minInclusive"] x) || when x "value" (without [34; 92; 10])) &&
  (negb (among ["length"; "maxLength"; "minLength"] x) || when x "value" (fun v => match u32_value v with Ok _ => true | _ => false end)) &&
  (negb (among ["import"; "include"] x) || when x "namespace" (without [10]) && when x "schemaLocation" (without [10])) &&
  (negb (tagged "simpleType" x) || forallb (among ["restriction"; "list"; "union"]) (particles x)) &&
  (negb (among ["complexContent"; "simpleContent"] x) || forallb (among ["extension"; "restriction"]) (particles x)).
Lemma among_iff ts x : among ts x = true <-> one ts x.
Proof. apply one_dec. Qed.
Lemma when_ok x a p v : when x a p = true -> has x a v -> p v = true.
Proof. unfold when, has. intros H E. rewrite E in H. exact H. Qed.
Lemma without_ok l s c : without l s = true -> In c s -> ~ In c l.
Proof.
  unfold without. rewrite forallb_forall. intros H I J. specialize (H c I). apply negb_true_iff in H.
  assert (X : existsb (N.eqb c) l = true) by (apply existsb_exists; exists c; split; auto; apply N.eqb_refl). congruence.
Qed.
Lemma tidyb_ok x : tidyb x = true -> tidy_element x.
Proof.
  unfold tidyb. rewrite !andb_true_iff, !orb_true_iff, !negb_true_iff. intros (((((A & B) & C) & D) & E) & F).
  assert (X : forall ts, among ts x = false -> ~ one ts x) by (intros ts H O; apply among_iff in O; congruence).
  split; [|split; [|split; [|split; [|split]]]].
  - intros a v I H c Ic. rewrite forallb_forall in A. pose proof (without_ok _ _ _ (when_ok _ _ _ _ (A a I) H) Ic) as W. cbn in W. repeat split; intros ->; apply W; auto.
  - intros v O H c Ic. destruct B as [B|B]; [destruct (X _ B O)|]. pose proof (without_ok _ _ _ (when_ok _ _ _ _ B H) Ic) as W. cbn in W. repeat split; intros ->; apply W; auto.
  - intros v O H. destruct C as [C|C]; [destruct (X _ C O)|]. pose proof (when_ok _ _ _ _ C H) as W. cbn beta in W. pose proof (u32_value_ok v) as V.
    destruct (u32_value v) as [k| |]; try discriminate. eauto.
  - intros v O H I. destruct D as [D|D]; [destruct (X _ D O)|]. apply andb_true_iff in D as [D1 D2].
    destruct H as [H|H]; [apply (without_ok _ _ _ (when_ok _ _ _ _ D1 H) I)|apply (without_ok _ _ _ (when_ok _ _ _ _ D2 H) I)]; left; auto.
  - intros T c I. destruct E as [E|E]; [apply tagged_iff in T; congruence|]. rewrite forallb_forall in E. apply among_iff; auto.
  - intros T c I. destruct F as [F|F]; [destruct (X _ F T)|]. rewrite forallb_forall in F. apply among_iff; auto.
Qed.
Definition tidy_nsb (t : namespace) : bool := without [34; 92; 10] (ns_uri t) && match ns_name t with Some p => without [34; 92; 10] p | None => true end.
Lemma tidy_check n : forallb tidyb (parts n) && forallb tidy_nsb (namespaces n) = true -> tidy n.
Proof.
  rewrite andb_true_iff, !forallb_forall. intros [A B]. split; [intros x P; apply tidyb_ok, A, parts_all, P|].
  intros t I. specialize (B t I). unfold tidy_nsb in B. apply andb_true_iff in B as [B1 B2].
  assert (L : forall s, without [34; 92; 10] s = true -> literal s) by (intros s H c Ic; pose proof (without_ok _ _ _ H Ic) as W; cbn in W; repeat split; intros ->; apply W; auto).
  split; auto. intros p E. rewrite E in B2. auto.
Qed.
Definition self_free (n : node) : bool :=
  forallb (fun d => when d "name" (fun nm => forallb (fun x => when x "base" (fun b => negb (str_eqb (last_segment 58 b) nm))) (parts d))) (children n) &&
  forallb (fun x => when x "name" (fun v => negb (str_eqb v (lit "__base__"))) && when x "ref" (fun v => negb (str_eqb v (lit "__base__")))) (parts n).
Lemma self_free_ok n : self_free n = true -> not_self_derived n.
Proof.
  unfold self_free. rewrite andb_true_iff, !forallb_forall. intros [A B]. split.
  - intros d nm x b k I H P Hb L E. pose proof (when_ok _ _ _ _ (A d I) H) as W. cbn beta in W. rewrite forallb_forall in W.
    pose proof (when_ok _ _ _ _ (W x (parts_all _ _ P)) Hb) as V. cbn beta in V. apply negb_true_iff in V.
    assert (X : last_segment 58 b = k) by (apply LinkProofs.key_of_local; auto). rewrite X, E in V. rewrite str_eqb_refl in V. discriminate.
  - intros x P. specialize (B x (parts_all _ _ P)). apply andb_true_iff in B as [B1 B2].
    split; intros H; [apply (when_ok _ _ _ _ B1) in H|apply (when_ok _ _ _ _ B2) in H]; discriminate.
Qed.

(** Without the bound on lengths the generator panics; a length is also refused if there is a blank next to it. *)
Definition named_string (nm : string) (cs : list node) : node := el "simpleType" [("name", nm)] [el "restriction" [("base", "xs:string")] cs].
Ltac conditions := split; [exists [], []; repeat split; intros ? []|split; [|split; [apply tidy_check; reflexivity|apply self_free_ok; reflexivity]]].
Theorem C60_length_refuted : forall u v, In v ["4294967296"; " 5"] -> exists n f, document [n] n /\ ok_schema n /\ not_self_derived n /\
  parse u [n] = Ok f /\ generate_rs_file u f = Panic.
Proof.
  intros u v I. exists (el "schema" [] [named_string "Code" [el "maxLength" [("value", v)] []]]). eexists.
  split; [exists [], []; repeat split; intros ? []|]. split.
  - split; [reflexivity|]. constructor; [|constructor]. do 2 right. left. eapply ok_global_simple; [t1|t1| |].
    + exists [], []. split; [reflexivity|]. split; [reflexivity|]. split; [discriminate|]. split; constructor.
    + left. apply ok_simple_restriction; [t1|t1|]. constructor; [|constructor]. right. exists (FMaxLength (lit v)). constructor; reflexivity.
  - split; [apply self_free_ok; reflexivity|]. split; [cbn; reflexivity|]. destruct I as [<-|[<-|[]]]; vm_compute; reflexivity.
Qed.
Print Assumptions C60_length_refuted.
(** Not even the generated definitions need have distinct names: the enum of a global element
    with a choice is given the name of the struct next to it; two choices in a sequence give
    two enums of the same name; the anonymous members of every union are numbered from zero. *)
Definition listed_union (nm : string) : node :=
  el "simpleType" [("name", nm)] [el "union" [] [el "simpleType" [] [el "list" [("itemType", "xs:int")] []]]].
Definition distinct_definitions (u : uni) (n : node) : Prop := forall f its, parse u [n] = Ok f -> file_items u f (rf_types f) its ->
  NoDup (map fst (concat (map (defined []) its))).
Lemma duplicate u n f : document [n] n -> ok_schema n -> tidy n -> not_self_derived n -> parse u [n] = Ok f ->
  ~ NoDup (map (fun '(p, m, _) => (p, m)) (concat (map (declared (format_name u) []) (rf_types f)))) -> ~ distinct_definitions u n.
Proof.
  intros D O T S P N X. destruct (C60_document u [n] n D O T S) as (f2 & P2 & its & _ & _ & Hi & _). rewrite P in P2. injection P2 as <-.
  specialize (X f its P Hi). destruct (C47_defined u f _ its Hi) as (E & _). cbv zeta in E. rewrite E, map_map in X. clear E. apply N.
  revert X. generalize (concat (map (declared (format_name u) []) (rf_types f))). intros l. induction l as [|[[p m] k] l IH]; [constructor|].
  cbn [map]. intros X. inversion X as [|? ? A B]. subst. constructor; [|auto]. intros I. apply A. apply in_map_iff in I as ([[p' m'] k'] & E & I).
  injection E as <- <-. apply in_map_iff. eexists. split; [|exact I]. reflexivity.
Qed.
Theorem C60_element_choice_refuted : forall u, exists n, document [n] n /\ ok_schema n /\ tidy n /\ not_self_derived n /\ ~ distinct_definitions u n.
Proof.
  intros u. exists (el "schema" [] [anon "E" [el "choice" [] [typed "a" "xs:int"; typed "b" "xs:int"]]]).
  match goal with |- document [?n] ?n /\ _ => assert (C : document [n] n /\ ok_schema n /\ tidy n /\ not_self_derived n) end.
  { conditions. solve_ok. }
  destruct C as (C1 & C2 & C3 & C4). repeat (split; [assumption|]). eapply (duplicate u _ _ C1 C2 C3 C4); [cbn; reflexivity|].
  vm_compute. intros X. inversion X as [|? ? A _]. apply A. left. reflexivity.
Qed.
Print Assumptions C60_element_choice_refuted.
Theorem C60_two_choices_refuted : forall u, exists n, document [n] n /\ ok_schema n /\ tidy n /\ not_self_derived n /\ ~ distinct_definitions u n.
Proof.
  intros u. exists (el "schema" [] [cty "T" [seq [el "choice" [] [typed "a" "xs:int"]; el "choice" [] [typed "b" "xs:int"]]]]).
  match goal with |- document [?n] ?n /\ _ => assert (C : document [n] n /\ ok_schema n /\ tidy n /\ not_self_derived n) end.
  { conditions. solve_ok. }
  destruct C as (C1 & C2 & C3 & C4). repeat (split; [assumption|]). eapply (duplicate u _ _ C1 C2 C3 C4); [cbn; reflexivity|].
  vm_compute. intros X. inversion X as [|? ? _ Y]. inversion Y as [|? ? A _]. apply A. left. reflexivity.
Qed.
Print Assumptions C60_two_choices_refuted.
Theorem C60_two_unions_refuted : forall u, exists n, document [n] n /\ ok_schema n /\ tidy n /\ not_self_derived n /\ ~ distinct_definitions u n.
Proof.
  intros u. exists (el "schema" [] [listed_union "S"; listed_union "T"]).
  match goal with |- document [?n] ?n /\ _ => assert (C : document [n] n /\ ok_schema n /\ tidy n /\ not_self_derived n) end.
  { assert (L : forall nm, ok GlobalSimple (listed_union nm)).
    { intros nm. eapply ok_global_simple; [t1|t1| |].
      - exists [], []. split; [reflexivity|]. split; [reflexivity|]. split; [discriminate|]. split; constructor.
      - do 2 right. apply ok_union; [t1|]. constructor; [|constructor]. right. eapply ok_local_simple; [t1|t1| |].
        + exists [], []. split; [reflexivity|]. split; [reflexivity|]. split; [discriminate|]. split; constructor.
        + right. left. apply ok_list_typed; t1. }
    conditions. split; [reflexivity|]. constructor; [do 2 right; left; apply L|]. constructor; [do 2 right; left; apply L|constructor]. }
  destruct C as (C1 & C2 & C3 & C4). repeat (split; [assumption|]). eapply (duplicate u _ _ C1 C2 C3 C4); [cbn; reflexivity|].
  vm_compute. intros X. inversion X as [|? ? _ Y]. inversion Y as [|? ? A _]. apply A. right. left. reflexivity.
Qed.
Print Assumptions C60_two_unions_refuted.

(** A document with an import, an alias, an attribute group, a recursive type with a nested
    enumeration, a choice and a wildcard, and a union of a list. *)
Example C60_ex1 : document [Other; schema1] schema1 /\ ok_schema schema1 /\ tidy schema1 /\ not_self_derived schema1.
Proof.
  split; [exists [Other], []; repeat split; intros ? []|]. split; [exact C46_ex1|]. split; [apply tidy_check; reflexivity|apply self_free_ok; reflexivity].
Qed.
Example C60_ex2 : match parse u2 [Other; schema1] with Ok f => lex u2 (text_of u2 f) | _ => None end = Some (lexemes u2 (lit "
// use a.xsd urn:a;
// pub type E = T;
#[derive(Default, Clone, PartialEq, Debug, YaSerialize, YaDeserialize)]
#[yaserde()]
pub struct T {
    #[yaserde(rename = ""a"")] pub a: Option<xs::Int>,
    #[yaserde(rename = ""t"")] pub t: Vec<T>,
    #[yaserde(rename = ""b"")] pub b: t::Btype,
    #[yaserde(rename = ""TChoice"")] pub t_choice: t::Tchoice,
}
impl Validate for T {}
pub mod t {
    use super::*;
    #[derive(PartialEq, Debug, Clone, YaSerialize, YaDeserialize)]
    #[yaserde()]
    pub enum Btype {
        #[yaserde(rename = ""x-1"")] X1,
        __Unknown__(xs::String),
    }
    impl Default for Btype { fn default() -> Btype { Self::__Unknown__(""No valid variants"".into()) } }
    impl Validate for Btype {}
    #[derive(PartialEq, Debug, Clone, YaSerialize, YaDeserialize)]
    #[yaserde()]
    pub enum Tchoice {
        #[yaserde(rename = ""c"")] C(C),
        __Unknown__(String),
    }
    impl Default for Tchoice { fn default() -> Tchoice { Self::__Unknown__(""No valid variants"".into()) } }
    impl Validate for Tchoice {}
}
#[derive(PartialEq, Debug, UtilsUnionSerDe)]
pub enum S {
    A(A), B(B), EnumCase0(EnumCaseType0),
    __Unknown__(String),
}
impl Default for S { fn default() -> S { Self::__Unknown__(""No valid variants"".into()) } }
impl Validate for S {}
#[derive(Default, Clone, PartialEq, Debug, UtilsTupleIo, UtilsDefaultSerde)]
pub struct EnumCaseType0 (pub Vec<I>);
impl Validate for EnumCaseType0 {}
")).
Proof. vm_compute. reflexivity. Qed.
