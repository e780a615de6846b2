(** Property theorems C64: generated code provides the traits it demands. *)
From Coq Require Import NArith ZArith Bool Ascii String List Lia.
From Verif Require Import Str SpecLex SpecNames SpecBuiltin Xml StrFacts Names NamesProofs Entity Parser ParserFacts SpecSchema ParserProofs PropsParser Link SpecLink PropsLink
  Gen SpecRust SpecGen RustFacts GenProofs GenProofs2 PropsGen SpecDoc DocProofs PropsDoc SpecScope ScopeProofs PropsScope SpecTraits TraitProofs TzProofs.
Import ListNotations.
Local Open Scope string_scope.
Local Open Scope list_scope.
Local Open Scope N_scope.
Notation concat := List.concat.

(** C64: in the code of a practical document, whose definitions do not clash, every trait that a
    derive, a default value or a check demands of a type is provided by it. *)
Theorem C64_equipped : forall u roots schema f its, document roots schema -> ok_schema schema -> tidy schema -> parse u roots = Ok f ->
  (forall x, part x schema -> orderly u schema (ns_prefix (rf_target_ns f)) (ns_prefix (rf_xsd_ns f)) x) ->
  (forall x, part x schema -> practical u schema (ns_prefix (rf_target_ns f)) (ns_prefix (rf_xsd_ns f)) x) ->
  file_items u f (rf_types f) its -> consistent (concat (map (definitions []) its)) ->
  well_equipped u (namespaces schema) (ns_prefix (rf_target_ns f)) (ns_prefix (rf_xsd_ns f)) its.
Proof. exact document_equipped. Qed.
Print Assumptions C64_equipped.
(** The same without resolution of base types. *)
Theorem C64_schema : forall u schema f its, ok_schema schema -> tidy schema -> parse_schema u schema [] = Ok f ->
  (forall x, part x schema -> orderly u schema (ns_prefix (rf_target_ns f)) (ns_prefix (rf_xsd_ns f)) x) ->
  (forall x, part x schema -> practical u schema (ns_prefix (rf_target_ns f)) (ns_prefix (rf_xsd_ns f)) x) ->
  file_items u f (rf_types f) its -> consistent (concat (map (definitions []) its)) ->
  well_equipped u (namespaces schema) (ns_prefix (rf_target_ns f)) (ns_prefix (rf_xsd_ns f)) its.
Proof. exact schema_equipped. Qed.
Print Assumptions C64_schema.

(** A check of the conditions, for the examples. *)
Definition text_spaceb (s : space) : bool := match s with SText | SBytes => true | _ => false end.
Definition textsb (s : space) : bool := match s with STexts => true | _ => false end.
Definition ordered_spaceb (s : space) : bool :=
  match s with STexts | SDate | STime | SGDay | SGMonth | SGMonthDay | SGYear | SGYearMonth => false | _ => true end.
Section Check.
Context (u : uni) (schema : node) (own xsd : option str).
Definition to_builtinb (q : str) (v : space -> bool) : bool :=
  let '(p, l) := split_name q in opt_str_eqb p xsd && existsb (fun b => str_eqb l (fst b) && v (snd b)) xsd_builtins.
Definition to_otherb (q : str) : bool :=
  match split_name q with
  | (Some x, _) => existsb (fun ns => opt_str_eqb (ns_name ns) (Some x)) (namespaces schema) && negb (opt_str_eqb own (Some x)) && negb (opt_str_eqb xsd (Some x))
  | _ => false
  end.
Definition to_ownb (q : str) (t : str -> bool) : bool :=
  let '(p, l) := split_name q in negb (opt_str_eqb p xsd && builtinb l) && match p with None => true | _ => opt_str_eqb p own end && t l.
Definition tuple_typeb (l : str) : bool :=
  existsb (fun d => tagged "simpleType" d && opt_str_eqb (attribute d (lit "name")) (Some l) &&
    match last_opt (particles d) with Some k => tagged "list" k || tagged "restriction" k && negb (plain_enumerationb u k) | None => true end) (children schema).
Definition some_typeb (l : str) : bool :=
  existsb (fun d => among ["simpleType"; "complexType"] d && opt_str_eqb (attribute d (lit "name")) (Some l)) (children schema).
Definition scalarb (q : str) : bool := to_builtinb q (fun s => negb (textsb s)) || to_otherb q || to_ownb q tuple_typeb.
Definition boundedb (k : node) : bool := existsb (among ["maxExclusive"; "maxInclusive"; "minExclusive"; "minInclusive"]) (children k).
Definition measuredb (k : node) : bool := existsb (among ["length"; "maxLength"; "minLength"]) (children k).
Definition practical_restrictionb (k : node) : bool :=
  when k "base" (fun b =>
    if plain_enumerationb u k then to_builtinb b text_spaceb
    else (scalarb b || to_builtinb b textsb) && (negb (boundedb k) || to_builtinb b ordered_spaceb || to_otherb b) &&
         (negb (measuredb k) || to_builtinb b (fun s => text_spaceb s || textsb s) || to_otherb b)).
Definition practical_listb (k : node) : bool :=
  when k "itemType" scalarb && is_present k "itemType".
Definition practicalb (x : node) : bool :=
  negb (tagged "union" x) && (negb (tagged "list" x) || practical_listb x) &&
  (negb (tagged "simpleType" x) || forallb (fun k => negb (tagged "restriction" k) || practical_restrictionb k) (children x)) &&
  (negb (tagged "schema" x) || forallb (fun d => negb (among ["element"; "attribute"] d) ||
     match doc_words (get_documentation d) with
     | [] => true
     | _ => let t q := to_builtinb q (fun _ => true) || to_otherb q || to_ownb q some_typeb in when d "type" t && when d "ref" t
     end) (children x)).

Lemma to_builtinb_ok q (v : space -> bool) (V : space -> Prop) : (forall s, v s = true -> V s) -> to_builtinb q v = true -> to_builtin xsd q V.
Proof.
  intros H. unfold to_builtinb. pose proof (split_name_qualified q) as Q. destruct (split_name q) as [p l]. intros E. apply andb_true_iff in E as [E1 E2].
  apply opt_str_eqb_iff in E1. subst p. apply existsb_exists in E2 as ((l', s) & I & E). apply andb_true_iff in E as [E1 E2]. cbn in E1, E2. apply str_eqb_eq in E1. subst l'.
  exists l, s. auto.
Qed.
Lemma to_otherb_ok q : to_otherb q = true -> to_other schema own xsd q.
Proof.
  unfold to_otherb. pose proof (split_name_qualified q) as Q. destruct (split_name q) as [[x|] l]; [|discriminate]. rewrite !andb_true_iff. intros [[E1 E2] E3].
  apply existsb_exists in E1 as (ns & I & E). apply opt_str_eqb_iff in E. apply negb_true_iff in E2, E3. apply opt_str_neqb in E2, E3. exists x, l, ns. auto.
Qed.
Lemma to_ownb_ok q t (P : str -> Prop) : (forall l, t l = true -> P l) -> to_ownb q t = true -> exists l, to_own own xsd q l /\ P l.
Proof.
  intros H. unfold to_ownb. pose proof (split_name_qualified q) as Q. destruct (split_name q) as [p l]. rewrite !andb_true_iff. intros [[E1 E2] E3].
  exists l. split; auto. exists p. split; auto. split.
  - intros [X Y]. apply opt_str_eqb_iff in X. apply builtinb_iff in Y. rewrite X, Y in E1. discriminate.
  - destruct p; auto. right. apply opt_str_eqb_iff. auto.
Qed.
Lemma final_last l (k : node) : final l k -> last_opt l = Some k.
Proof. intros (a & ->). induction a as [|y a IH]; [reflexivity|]. cbn [app]. cbn [last_opt]. destruct (a ++ [k]) eqn:E; [destruct a; discriminate|auto]. Qed.
Lemma not_enumeration k : plain_enumerationb u k = false -> ~ plain_enumeration u k.
Proof. intros E H. apply plain_enumerationb_iff in H. congruence. Qed.
Lemma tuple_typeb_ok l : tuple_typeb l = true -> tuple_type u schema l.
Proof.
  intros H. apply existsb_exists in H as (d & I & H). rewrite !andb_true_iff in H. destruct H as [[H1 H2] H3]. exists d. split; auto. split; [apply tagged_iff; auto|].
  split; [apply opt_str_eqb_iff; auto|]. intros k F. rewrite (final_last _ _ F) in H3. apply orb_true_iff in H3 as [H3|H3]; [left; apply tagged_iff; auto|].
  apply andb_true_iff in H3 as [A B]. apply negb_true_iff in B. right. split; [apply tagged_iff; auto|apply not_enumeration; auto].
Qed.
Lemma some_typeb_ok l : some_typeb l = true -> some_type schema l.
Proof. intros H. apply existsb_exists in H as (d & I & H). apply andb_true_iff in H as [A B]. exists d. split; auto. split; [apply among_iff; auto|apply opt_str_eqb_iff; auto]. Qed.
Lemma scalarb_ok q : scalarb q = true -> scalar u schema own xsd q.
Proof.
  unfold scalarb. rewrite !orb_true_iff. intros [[H|H]|H].
  - left. eapply to_builtinb_ok; [|exact H]. intros s E ->. discriminate.
  - right. left. apply to_otherb_ok; auto.
  - right. right. eapply to_ownb_ok; [|exact H]. apply tuple_typeb_ok.
Qed.
Lemma among_exists ts k : (exists c, In c (children k) /\ one ts c) <-> existsb (among ts) (children k) = true.
Proof. rewrite existsb_exists. split; intros (c & I & H); exists c; (split; [auto|]); apply among_iff; auto. Qed.
Lemma practical_restrictionb_ok k : practical_restrictionb k = true -> practical_restriction u schema own xsd k.
Proof.
  intros H b Hb. pose proof (when_ok _ _ _ _ H Hb) as X. cbn beta in X. destruct (plain_enumerationb u k) eqn:E.
  - split; [|intros N; exfalso; apply N, plain_enumerationb_iff; auto]. intros _. eapply to_builtinb_ok; [|exact X]. intros []; try discriminate; cbn; auto.
  - split; [intros N; apply plain_enumerationb_iff in N; congruence|]. intros _. rewrite !andb_true_iff in X. destruct X as [[A B] Cc]. split; [|split].
    + apply orb_true_iff in A as [A|A]; [left; apply scalarb_ok; auto|right]. eapply to_builtinb_ok; [|exact A]. intros []; try discriminate; auto.
    + intros Bo. apply among_exists in Bo. unfold boundedb in B. rewrite Bo in B. cbn [negb orb] in B. apply orb_true_iff in B as [B|B]; [left|right; apply to_otherb_ok; auto].
      eapply to_builtinb_ok; [|exact B]. intros []; try discriminate; cbn; auto.
    + intros Bo. apply among_exists in Bo. unfold measuredb in Cc. rewrite Bo in Cc. cbn [negb orb] in Cc. apply orb_true_iff in Cc as [B'|B']; [left|right; apply to_otherb_ok; auto].
      eapply to_builtinb_ok; [|exact B']. intros []; try discriminate; cbn; auto.
Qed.
Lemma practicalb_ok x : practicalb x = true -> practical u schema own xsd x.
Proof.
  unfold practicalb. rewrite !andb_true_iff. intros [[[H1 H2] H3] H4].
  assert (T : forall t, tag t x -> tagged t x = true) by (intros; apply tagged_iff; auto).
  split; [intros X; rewrite (T _ X) in H1; discriminate|]. split; [|split].
  - intros X. rewrite (T _ X) in H2. cbn [negb orb] in H2. apply andb_true_iff in H2 as [A B]. split.
    + intros it Hi. apply scalarb_ok. exact (when_ok _ _ _ _ A Hi).
    + intros N. apply not_present in N. congruence.
  - intros X k I Tk. rewrite (T _ X) in H3. cbn [negb orb] in H3. rewrite forallb_forall in H3. specialize (H3 k I). apply tagged_iff in Tk. rewrite Tk in H3. apply practical_restrictionb_ok; auto.
  - intros X d c q I Od Dc Sc Hq. rewrite (T _ X) in H4. cbn [negb orb] in H4. rewrite forallb_forall in H4. specialize (H4 d I). apply among_iff in Od. rewrite Od in H4. cbn [negb orb] in H4.
    apply documented_iff in Dc. rewrite Dc in H4. apply documented_words in Sc. destruct (doc_words (Some c)); [contradiction|]. cbv zeta in H4. apply andb_true_iff in H4 as [A B].
    assert (K : to_builtinb q (fun _ => true) || to_otherb q || to_ownb q some_typeb = true) by (destruct Hq as [Hq|Hq]; [exact (when_ok _ _ _ _ A Hq)|exact (when_ok _ _ _ _ B Hq)]).
    rewrite !orb_true_iff in K. destruct K as [[K|K]|K]; [left; eapply to_builtinb_ok; [|exact K]; auto|right; left; apply to_otherb_ok; auto|right; right].
    eapply to_ownb_ok; [|exact K]. apply some_typeb_ok.
Qed.
Lemma practical_check : forallb practicalb (parts schema) = true -> forall x, part x schema -> practical u schema own xsd x.
Proof. rewrite forallb_forall. intros A x P. apply practicalb_ok, A, parts_all, P. Qed.
End Check.
(** Definitions whose names differ wherever one could hide the other. *)
Fixpoint prefixb (a b : list str) : bool := match a, b with [], _ => true | x :: a', y :: b' => str_eqb x y && prefixb a' b' | _, [] => false end.
Definition same_nameb (a b : list token) : bool := match a, b with [TWord x], [TWord y] => str_eqb x y | _, _ => true end.
Definition apart (x y : list str * list token * def) : bool :=
  negb (same_nameb (snd (fst x)) (snd (fst y))) || negb (prefixb (fst (fst x)) (fst (fst y))) && negb (prefixb (fst (fst y)) (fst (fst x))).
Fixpoint all_apart (D : list (list str * list token * def)) : bool := match D with [] => true | x :: D' => forallb (apart x) D' && all_apart D' end.
Lemma prefixb_app a b : prefixb a (a ++ b) = true.
Proof. induction a as [|x a IH]; cbn; auto. rewrite str_eqb_refl. auto. Qed.
Lemma same_nameb_refl a : same_nameb a a = true.
Proof. destruct a as [|[] []]; cbn; auto. apply str_eqb_refl. Qed.
(** Names that are not those of the library, in modules that are not called as it is. *)
Definition unborrowedb (t : list token) : bool := match t with [TWord w] => negb (existsb (fun s => str_eqb w (lit s)) borrowed) | _ => true end.
Lemma unborrowedb_ok t : unborrowedb t = true -> unborrowed t.
Proof.
  intros H s I ->. cbn [unborrowedb] in H. apply negb_true_iff in H. assert (K : existsb (fun r => str_eqb (lit s) (lit r)) borrowed = true) by (apply existsb_exists; exists s; split; [exact I|apply str_eqb_refl]). congruence.
Qed.
Definition outside_library (p : list str) (t : list token) : bool := unborrowedb t && negb (existsb (str_eqb (lit "xs")) p).
Lemma outside_library_ok p t : outside_library p t = true -> unborrowed t /\ ~ In (lit "xs") p.
Proof.
  intros H. apply andb_true_iff in H as [A B]. split; [apply unborrowedb_ok; auto|]. intros I. apply negb_true_iff in B.
  assert (K : existsb (str_eqb (lit "xs")) p = true) by (apply existsb_exists; exists (lit "xs"); split; [exact I|apply str_eqb_refl]). congruence.
Qed.
Lemma all_apart_ok D : all_apart D && forallb (fun x => outside_library (fst (fst x)) (snd (fst x))) D = true -> consistent D.
Proof.
  intros H0. apply andb_true_iff in H0 as [H F]. split; [|intros p n d I; rewrite forallb_forall in F; exact (outside_library_ok _ _ (F _ I))].
  clear F. assert (P : ForallOrdPairs (fun x y => apart x y = true) D).
  { induction D as [|x D IH]; [constructor|]. cbn in H. apply andb_true_iff in H as [A B]. constructor; auto. apply Forall_forall. apply forallb_forall. auto. }
  intros p r n d e I J. destruct (ForallOrdPairs_In P _ _ I J) as [E|[E|E]].
  - injection E as E ->. split; auto. destruct e; cbn; auto.
  - exfalso. unfold apart in E. cbn in E. rewrite same_nameb_refl, prefixb_app in E. discriminate.
  - exfalso. unfold apart in E. cbn in E. rewrite same_nameb_refl, prefixb_app, andb_false_r in E. discriminate.
Qed.

(** A shop: a documented element, an enumeration, lists, restrictions with bounds and lengths, a
    restriction of a restriction, a choice, a base type, a nested type and a type of another namespace. *)
Definition restricted (nm base : string) (fs : list node) : node := el "simpleType" [("name", nm)] [el "restriction" [("base", base)] fs].
Definition facet_node (t v : string) : node := el t [("value", v)] [].
Definition list_type (nm it : string) : node := el "simpleType" [("name", nm)] [el "list" [("itemType", it)] []].
Definition shop : node := sch
  [ el "element" [("name", "note"); ("type", "tt:Code")] [el "annotation" [] [el "documentation" [] [Text (lit "A remark")]]];
    restricted "Colour" "xs:string" [facet_node "enumeration" "red"; facet_node "enumeration" "blue"];
    restricted "Price" "xs:decimal" [facet_node "minInclusive" "0"];
    restricted "Code" "xs:token" [facet_node "maxLength" "10"];
    restricted "ShortCode" "tt:Code" [facet_node "pattern" "[a-z]*"];
    restricted "Tags" "xs:NMTOKENS" [facet_node "minLength" "1"];
    list_type "Codes" "tt:Code";
    cty "Payment" [el "choice" [] [typed "card" "tt:Code"; typed "cash" "tt:Price"]];
    cty "Base" [seq [typed "id" "xs:unsignedInt"; el "element" [("ref", "tt:note"); ("maxOccurs", "unbounded")] []]];
    cty "Order" [ext "tt:Base" [seq [anon "line" [seq [typed "what" "tt:ShortCode"; typed "colour" "tt:Colour"; typed "when" "xs:date"; typed "place" "oo:Address"]]; typed "paid" "tt:Payment"]]] ].
Lemma restricted_ok nm b cs : Forall (fun c => exists f, facet_of c f) cs -> ok GlobalSimple (restricted nm b cs).
Proof.
  intros F. eapply ok_global_simple; [t1|t1|exists [], []; repeat split; try discriminate; constructor|]. left. apply ok_simple_restriction; [t1|t1|].
  cbn [children el]. eapply Forall_impl; [|exact F]. auto.
Qed.
Ltac facets := repeat (constructor; [eexists; constructor; reflexivity|]); constructor.
Example C64_ex1 : document [shop] shop /\ ok_schema shop /\ tidy shop /\ not_self_derived shop /\
  (forall x, part x shop -> orderly u2 shop (Some (lit "tt")) (Some (lit "xs")) x) /\ (forall x, part x shop -> practical u2 shop (Some (lit "tt")) (Some (lit "xs")) x).
Proof.
  apply with_conditions; [|split; [apply orderly_check; vm_compute; reflexivity|apply practical_check; vm_compute; reflexivity]].
  conditions. split; [reflexivity|]. cbn [shop sch children].
  constructor; [solve_ok|]. do 5 (constructor; [do 2 right; left; apply restricted_ok; facets|]).
  constructor; [do 2 right; left; eapply ok_global_simple; [t1|t1|solve_ok|]; right; left; apply ok_list_typed; t1|].
  solve_ok.
Qed.
Example C64_ex2 : exists f its, parse u2 [shop] = Ok f /\ ns_prefix (rf_target_ns f) = Some (lit "tt") /\ ns_prefix (rf_xsd_ns f) = Some (lit "xs") /\
  file_items u2 f (rf_types f) its /\ consistent (concat (map (definitions []) its)) /\
  map fst (concat (map (definitions []) its)) = map (fun '(p, t) => (map lit p, rust u2 t))
    [([], "Note"); ([], "Colour"); ([], "Price"); ([], "Code"); ([], "ShortCode"); ([], "Tags"); ([], "Codes"); ([], "PaymentChoice"); ([], "Payment");
     ([], "Base"); ([], "Order"); (["order"], "LineType")].
Proof.
  assert (N1 : u32_text (lit "10") 10) by (split; [split; [left; exact (num_dec 10)|]|]; vm_compute; reflexivity).
  assert (N2 : u32_text (lit "1") 1) by (split; [split; [left; exact (num_dec 1)|]|]; vm_compute; reflexivity).
  eexists. eexists. split; [vm_compute; reflexivity|]. split; [reflexivity|]. split; [reflexivity|]. split; [|split].
  - cbn [rf_types]. apply all_cons; [apply items_documented_alias, documented_words; vm_compute; discriminate|].
    repeat first [exact N1|exact N2|discriminate|lazymatch goal with |- u32_text _ _ => fail | _ => econstructor end].
  - apply all_apart_ok. vm_compute. reflexivity.
  - vm_compute. reflexivity.
Qed.

(** ** Documents that ask for too much *)
(** The code of a document of the supported subset whose names are in order is not well equipped. *)
Definition ill_equipped (u : uni) (n : node) : Prop :=
  document [n] n /\ ok_schema n /\ tidy n /\ not_self_derived n /\
  (forall x, part x n -> orderly u n (Some (lit "tt")) (Some (lit "xs")) x) /\
  exists f its, parse u [n] = Ok f /\ ns_prefix (rf_target_ns f) = Some (lit "tt") /\ ns_prefix (rf_xsd_ns f) = Some (lit "xs") /\
    file_items u f (rf_types f) its /\ consistent (concat (map (definitions []) its)) /\
    ~ well_equipped u (namespaces n) (ns_prefix (rf_target_ns f)) (ns_prefix (rf_xsd_ns f)) its.

Lemma library_single u s w : In s library_types -> rust u s = [TWord w] -> In w (map lit ["String"; "bool"; "i64"; "i32"; "i16"; "i8"; "u64"; "u32"; "u16"; "u8"; "f64"]).
Proof. intros I E. apply (library_word u s w I). auto. Qed.
(** What a single word is able to do. *)
Lemma word_able u nss own xsd D dfl path w c : able u nss own xsd D dfl path [TWord w] c ->
  (exists s, In s library_types /\ rust u s = [TWord w] /\ library_provides s c) \/
  (exists p q d, path = p ++ q /\ In (p, [TWord w], d) D) /\
  (forall p q d, path = p ++ q -> In (p, [TWord w], d) D -> provides u nss own xsd D dfl p [TWord w] d c).
Proof.
  intros A. inversion A as [path' s c' I P E|path' t c' I E|path' t c' I P E|path' t E|path' t c' I P E|path' t c' (ns & p & x & _ & _ & _ & _ & _ & E)|path' t c' X V]; subst;
    try (vm_compute in E; discriminate E).
  - left. eauto.
  - right. split; [|intros p q d E I; apply (V p d); eapply visible_above; eauto]. destruct X as (p & d & X). destruct (visible_word _ _ _ _ _ _ X) as (q & E & I). eauto.
Qed.

Lemma top_met u nss own xsd its k : well_equipped u nss own xsd its -> (k < List.length its)%nat ->
  met u nss own xsd (concat (map (definitions []) its)) (concat (map (defaulted []) its)) [] (nth k its (INote [])).
Proof.
  intros W L. apply W. apply in_placed_concat. exists (nth k its (INote [])). split; [apply nth_In; auto|]. destruct (nth k its (INote [])); left; reflexivity.
Qed.
Ltac open_code := split; [apply orderly_check; vm_compute; reflexivity|]; eexists; eexists; split; [vm_compute; reflexivity|];
  split; [reflexivity|]; split; [reflexivity|]; split; [cbn [rf_types]; repeat econstructor|]; split; [apply all_apart_ok; vm_compute; reflexivity|]; intros W.
Ltac not_library I E := cbn [library_types In] in I; repeat (destruct I as [<-|I]; [vm_compute in E; discriminate E|]); destruct I.
Ltac refute_enum P := inversion P; subst;
  match goal with Dv : derives _ _, Ic : In _ (derive_provides _) |- _ => destruct Dv as (ds & Ed & Is); cbn [In] in Ed;
    repeat match type of Ed with _ \/ _ => destruct Ed as [Ed|Ed] | False => destruct Ed end; try discriminate Ed; injection Ed as <-;
    cbn in Is; repeat (destruct Is as [<-|Is]; [cbn in Ic; repeat (destruct Ic as [Ic|Ic]; [discriminate Ic|]); destruct Ic|]); destruct Is end.
Ltac holds := vm_compute; tauto.
Ltac derived_here := eexists; split; [vm_compute; left; reflexivity|vm_compute; tauto].
(** A word that stands for an enum whose derives do not provide what is demanded. *)
Ltac refute_word A d := edestruct (word_able _ _ _ _ _ _ _ _ _ A) as [(s & I & E & _)|[_ P]];
  [not_library I E|specialize (P [] [] d eq_refl ltac:(holds)); refute_enum P].
(** Containers are not read or written as text. *)
Lemma angle_able u nss own xsd D dfl path w t c : able u nss own xsd D dfl path (TWord w :: TPunct 60 :: t) c -> c <> CParse.
Proof.
  intros A. inversion A; subst;
    try match goal with F : foreign _ _ _ _ _ |- _ => destruct F as (ns & p & x & _ & _ & _ & _ & _ & E); vm_compute in E; discriminate E end;
    try match goal with I : In ?s library_types, E : rust u ?s = _ |- _ => not_library I E end;
    try match goal with I : In c [_; _] |- _ => cbn in I; intros ->; repeat (destruct I as [I|I]; [discriminate I|]); destruct I end;
    try match goal with I : In c [_; _; _; _; _; _] |- _ => cbn in I; intros ->; repeat (destruct I as [I|I]; [discriminate I|]); destruct I end;
    try discriminate.
  match goal with X : exists p d, visible _ _ _ _ _ _ |- _ => destruct X as (p & d & X); inversion X as [w' p' q' d' Ep Ip Ew|m w' d' Ip Ew]; vm_compute in Ew; discriminate Ew end.
Qed.
(** A path into xsd-types. *)
Lemma xs_able u nss own xsd D dfl path w c : able u nss own xsd D dfl path (rust u "xs::" ++ [TWord w]) c ->
  (exists s, In s library_types /\ rust u s = rust u "xs::" ++ [TWord w] /\ library_provides s c) \/ exists n d, In (path ++ [lit "xs"], n, d) D.
Proof.
  intros A. inversion A as [? s ? I P E|? ? ? ? E|? ? ? ? ? E|? ? E|? ? ? ? ? E|? ? ? F|? ? ? X]; subst;
    try (vm_compute in E; discriminate E); try (match goal with E : _ = rust u "xs::" ++ _ |- _ => vm_compute in E; discriminate E end).
  - left. eauto.
  - exfalso. destruct F as (ns & p & x & _ & _ & _ & _ & N & E). apply N. vm_compute in E. injection E as <- _. reflexivity.
  - right. destruct X as (p & d & X). inversion X as [w' p' q' d' Ep Ip Ew|m w' d' Ip Ew]; vm_compute in Ew; try discriminate Ew. eauto.
Qed.
(** A union type cannot be cloned, but the type of a field must be. *)
Definition union_field : node := sch [el "simpleType" [("name", "U")] [el "union" [("memberTypes", "xs:int xs:string")] []]; cty "T" [seq [typed "a" "tt:U"]]].
Theorem C64_union_refuted : forall u, ill_equipped u union_field.
Proof.
  intros u. unfold union_field.
  apply with_conditions.
  { conditions. split; [reflexivity|]. cbn [sch children]. constructor; [do 2 right; left; eapply ok_global_simple; [t1|t1|solve_ok|]; do 2 right; apply ok_union; [t1|constructor]|solve_ok]. }
  open_code. apply (top_met _ _ _ _ _ 3) in W; [|vm_compute; lia]. destruct W as (M & _).
  assert (A := M "Clone"%string CClone [TWord (lit "U")] ltac:(derived_here) ltac:(left; reflexivity) ltac:(holds)). clear M. refute_word A (DEnum [union_derive]).
Qed.
Print Assumptions C64_union_refuted.
(** An enumeration cannot be parsed from text, but the members of a union must be. *)
Definition union_of_enumeration : node := sch [restricted "Colour" "xs:string" [facet_node "enumeration" "red"]; el "simpleType" [("name", "U")] [el "union" [("memberTypes", "tt:Colour xs:int")] []]].
Theorem C64_member_refuted : forall u, ill_equipped u union_of_enumeration.
Proof.
  intros u. unfold union_of_enumeration.
  apply with_conditions.
  { conditions. split; [reflexivity|]. cbn [sch children]. constructor; [do 2 right; left; apply restricted_ok; facets|].
    constructor; [do 2 right; left; eapply ok_global_simple; [t1|t1|solve_ok|]; do 2 right; apply ok_union; [t1|constructor]|constructor]. }
  open_code. apply (top_met _ _ _ _ _ 3) in W; [|vm_compute; lia]. destruct W as (M & _).
  assert (A := M "UtilsUnionSerDe"%string CParse [TWord (lit "Colour")] ltac:(derived_here) ltac:(left; reflexivity) ltac:(holds)). clear M.
  refute_word A (DEnum [choice_derive; AYaserde (ns_args (Some (named_ns "tt" "urn:tt")))]).
Qed.
Print Assumptions C64_member_refuted.
(** Nor can the members of a list of an enumeration. *)
Definition list_of_enumeration : node := sch [restricted "Colour" "xs:string" [facet_node "enumeration" "red"]; list_type "Colours" "tt:Colour"].
Theorem C64_list_refuted : forall u, ill_equipped u list_of_enumeration.
Proof.
  intros u. unfold list_of_enumeration.
  apply with_conditions.
  { conditions. split; [reflexivity|]. cbn [sch children]. constructor; [do 2 right; left; apply restricted_ok; facets|].
    constructor; [do 2 right; left; eapply ok_global_simple; [t1|t1|solve_ok|]; right; left; apply ok_list_typed; t1|constructor]. }
  open_code. apply (top_met _ _ _ _ _ 3) in W; [|vm_compute; lia]. destruct W as (_ & _ & M & _).
  destruct (M ltac:(derived_here)) as (t & Et & T). clear M. 
  vm_compute in Et. injection Et as <-. destruct T as [[A _]|(e & E & A & _)].
  - apply angle_able in A. congruence.
  - destruct e as [|e1 [|e2 e]]; vm_compute in E; try discriminate E; [|destruct e; discriminate E]. injection E as <-. refute_word A (DEnum [choice_derive; AYaserde (ns_args (Some (named_ns "tt" "urn:tt")))]).
Qed.
Print Assumptions C64_list_refuted.
(** The default value of an enumeration is made from text, but numbers are not. *)
Definition numbers_enumerated : node := sch [restricted "Level" "xs:int" [facet_node "enumeration" "1"; facet_node "enumeration" "2"]].
Theorem C64_enumeration_refuted : forall u, ill_equipped u numbers_enumerated.
Proof.
  intros u. unfold numbers_enumerated.
  apply with_conditions.
  { conditions. split; [reflexivity|]. cbn [sch children]. constructor; [do 2 right; left; apply restricted_ok; facets|constructor]. }
  open_code. apply (top_met _ _ _ _ _ 0) in W; [|vm_compute; lia]. destruct W as (_ & _ & _ & M & _).
  edestruct M as (t & Et & A); [reflexivity|apply in_or_app; right; left; reflexivity|reflexivity|]. vm_compute in Et. injection Et as <-.
  edestruct (word_able _ _ _ _ _ _ _ _ _ A) as [(s & I & E & P)|[(p & q & d & _ & I) _]].
  - cbn in P. subst s. vm_compute in E. discriminate E.
  - vm_compute in I. repeat (destruct I as [I|I]; [discriminate I|]). destruct I.
Qed.
Print Assumptions C64_enumeration_refuted.
(** Dates have no order, but bounds are compared. *)
Definition bounded_date : node := sch [restricted "Past" "xs:date" [facet_node "maxInclusive" "2020-01-01"]].
Theorem C64_bound_refuted : forall u, ill_equipped u bounded_date.
Proof.
  intros u. unfold bounded_date.
  apply with_conditions.
  { conditions. split; [reflexivity|]. cbn [sch children]. constructor; [do 2 right; left; apply restricted_ok; facets|constructor]. }
  open_code. apply (top_met _ _ _ _ _ 1) in W; [|vm_compute; lia]. destruct W as (_ & _ & _ & _ & M).
  destruct (M _ _ _ eq_refl (or_introl eq_refl)) as (_ & A & _). clear M.
  edestruct xs_able as [(s & I & E & P)|(n & d & I)]; [exact A| |].
  - cbn in P. cbn [library_types In] in I.
    repeat (destruct I as [<-|I]; [first [vm_compute in E; discriminate E|apply P; left; reflexivity]|]). destruct I.
  - vm_compute in I. repeat (destruct I as [I|I]; [discriminate I|]). destruct I.
Qed.
Print Assumptions C64_bound_refuted.
(** The length of a text is taken, but not that of a type derived from text. *)
Definition short_code : node := sch [restricted "Code" "xs:string" []; restricted "Short" "tt:Code" [facet_node "maxLength" "3"]].
Theorem C64_length_refuted : forall u, ill_equipped u short_code.
Proof.
  intros u. unfold short_code.
  apply with_conditions.
  { conditions. split; [reflexivity|]. cbn [sch children]. do 2 (constructor; [do 2 right; left; apply restricted_ok; facets|]). constructor. }
  assert (N1 : u32_text (lit "3") 3) by (split; [split; [left; exact (num_dec 3)|]|]; vm_compute; reflexivity).
  split; [apply orderly_check; vm_compute; reflexivity|]. eexists; eexists; split; [vm_compute; reflexivity|].
  split; [reflexivity|]. split; [reflexivity|].
  split; [cbn [rf_types]; repeat first [exact N1|lazymatch goal with |- u32_text _ _ => fail | _ => econstructor end]|]. split; [apply all_apart_ok; vm_compute; reflexivity|]. intros W.
  apply (top_met _ _ _ _ _ 3) in W; [|vm_compute; lia]. destruct W as (_ & _ & _ & _ & M).
  assert (A := M _ _ _ eq_refl (or_introl eq_refl) [tuple_derive] [TWord (lit "Code")] ltac:(holds)). clear M.
  edestruct (word_able _ _ _ _ _ _ _ _ _ A) as [(s & I & E & _)|[_ P]]; [not_library I E|].
  specialize (P [] [] (DTuple [tuple_derive] [TWord (lit "String")]) eq_refl ltac:(holds)). refute_enum P.
Qed.
Print Assumptions C64_length_refuted.
