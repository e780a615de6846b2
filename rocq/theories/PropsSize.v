(** Property theorems C65: generated types have a finite size. *)
From Coq Require Import Arith NArith ZArith Bool Ascii String List Lia.
From Verif Require Import Str SpecLex SpecNames SpecBuiltin Xml StrFacts Names NamesProofs Entity Parser ParserFacts SpecSchema ParserProofs PropsParser Link SpecLink PropsLink
  Gen SpecRust SpecGen RustFacts GenProofs GenProofs2 PropsGen SpecDoc DocProofs PropsDoc SpecScope ScopeProofs PropsScope SpecTraits TraitProofs PropsTraits SpecSize SizeProofs.
Import ListNotations.
Local Open Scope string_scope.
Local Open Scope list_scope.
Local Open Scope N_scope.
Notation concat := List.concat.

(** C65: if the declarations of a document do not contain themselves, other than by repeated
    elements, lists and the elements that the code puts in a vector because their type name ends
    in the name of the enclosing declaration, then no type of the code contains itself other
    than in a vector. *)
Theorem C65_finite : forall u roots schema f its, document roots schema -> ok_schema schema -> tidy schema -> parse u roots = Ok f ->
  (forall x, part x schema -> orderly u schema (ns_prefix (rf_target_ns f)) (ns_prefix (rf_xsd_ns f)) x) ->
  file_items u f (rf_types f) its -> unshadowed (concat (map (placed []) its)) ->
  grounded schema (ns_prefix (rf_target_ns f)) (ns_prefix (rf_xsd_ns f)) ->
  finite u (namespaces schema) (ns_prefix (rf_target_ns f)) (ns_prefix (rf_xsd_ns f)) its.
Proof. exact document_finite. Qed.
Print Assumptions C65_finite.
(** The same without resolution of base types, as for the schemas embedded in a WSDL document. *)
Theorem C65_schema : forall u schema f its, ok_schema schema -> tidy schema -> parse_schema u schema [] = Ok f ->
  (forall x, part x schema -> orderly u schema (ns_prefix (rf_target_ns f)) (ns_prefix (rf_xsd_ns f)) x) ->
  file_items u f (rf_types f) its -> unshadowed (concat (map (placed []) its)) ->
  grounded schema (ns_prefix (rf_target_ns f)) (ns_prefix (rf_xsd_ns f)) ->
  finite u (namespaces schema) (ns_prefix (rf_target_ns f)) (ns_prefix (rf_xsd_ns f)) its.
Proof. exact schema_finite. Qed.
Print Assumptions C65_schema.

(** A check of the conditions, for the examples. *)
Definition globalb (anc : list node) : bool := match anc with p :: _ => tagged "schema" p | [] => false end.
Definition manyb (x : node) : bool := match element_modifier x with MArray => true | _ => false end.
Definition indirectb (anc : list node) (n : node) : bool := tagged "list" n || tagged "element" n && manyb n && negb (globalb anc).
Fixpoint inlines (anc : list node) (n : node) : list (list node * node) :=
  (anc, n) :: if indirectb anc n then [] else
    match n with Elem _ _ _ cs => concat (map (fun c => if tagged "annotation" c then [] else inlines (n :: anc) c) cs) | _ => [] end.
Definition boxedb (anc : list node) (q : str) : bool :=
  match anc with p :: r => among ["sequence"; "all"] p && match get_parent_name r with Ok e => ends_with e q | _ => false end | [] => false end.
Definition opt_list (o : option str) : list str := match o with Some x => [x] | None => [] end.
Definition values (anc : list node) (x : node) : list str :=
  let tr := opt_list (attribute x (lit "type")) ++ opt_list (attribute x (lit "ref")) in
  (if tagged "element" x && (negb (manyb x) || globalb anc) then filter (fun q => negb (boxedb anc q)) tr else []) ++
  (if tagged "attribute" x then tr else []) ++ opt_list (attribute x (lit "base")) ++
  concat (map (fun m => filter (fun t => negb (is_empty t)) (split_on 32 m)) (opt_list (attribute x (lit "memberTypes")))).
Definition splices (x : node) : list str :=
  opt_list (attribute x (lit "base")) ++ if tagged "attributeGroup" x then opt_list (attribute x (lit "ref")) else [].
Fixpoint last_part (s : str) : str :=
  match s with [] => [] | c :: t => if existsb (N.eqb 58) t then last_part t else if c =? 58 then t else s end.
Definition named_by (own xsd : option str) (q : str) : list str :=
  let '(p, l) := split_name q in if opt_str_eqb p xsd && builtinb l then [] else match p with None => [l] | _ => if opt_str_eqb p own then [l] else [] end.
Definition directs (schema : node) (own xsd : option str) (d : node) : list str :=
  concat (map (fun '(anc, x) => concat (map (named_by own xsd) (values anc x)) ++ map last_part (splices x)) (inlines [schema] d)).
Definition silentb (d : node) : bool :=
  (among ["element"; "attribute"] d && is_present d "type" || tagged "attribute" d && is_present d "ref") &&
  match doc_words (get_documentation d) with [] => true | _ => false end.
Fixpoint position (l : str) (ord : list str) : option nat :=
  match ord with [] => None | x :: r => if str_eqb x l then Some 0%nat else option_map S (position l r) end.
Definition groundedb (schema : node) (own xsd : option str) (ord : list str) : bool :=
  forallb (fun d => match attribute d (lit "name") with
    | None => true
    | Some l => silentb d || match position l ord with
        | None => false
        | Some i => forallb (fun m => match position m ord with Some j => (j <? i)%nat | None => true end) (directs schema own xsd d)
        end
    end) (children schema).

Lemma globalb_iff anc : globalb anc = true <-> global anc.
Proof.
  unfold global. destruct anc as [|p r]; cbn; [split; [discriminate|intros (p & r & X & _); discriminate]|]. rewrite tagged_iff. split.
  - intros T. exists p, r. auto.
  - intros (p' & r' & [= <- <-] & T). auto.
Qed.
Lemma manyb_iff x : manyb x = true <-> repeated x.
Proof.
  unfold manyb. split.
  - intros H. destruct (element_modifier x) eqn:E; try discriminate. apply container_iff in E. inversion E; subst. auto.
  - intros R. assert (C : container x MArray) by (apply c_vec; exact R). apply container_iff in C. rewrite C. auto.
Qed.
Lemma indirectb_ok anc n : indirectb anc n = true -> indirect anc n.
Proof.
  unfold indirectb. rewrite orb_true_iff, !andb_true_iff, negb_true_iff. intros [H|[[H1 H2] H3]]; [left; apply tagged_iff; auto|right].
  split; [apply tagged_iff; auto|]. split; [apply manyb_iff; auto|]. intros G. apply globalb_iff in G. congruence.
Qed.
Lemma inlines_all anc n anc' x : inline anc n anc' x -> In (anc', x) (inlines anc n).
Proof.
  intros H. induction H as [anc n|anc n c anc' x NI Ic Na H IH].
  - destruct n; left; auto.
  - destruct n as [t a ns cs| |]; cbn [children] in Ic; try destruct Ic. cbn [inlines]. right. destruct (indirectb anc (Elem t a ns cs)) eqn:E; [apply indirectb_ok in E; contradiction|].
    apply in_concat. eexists. split; [apply in_map; exact Ic|]. cbn beta. destruct (tagged "annotation" c) eqn:T; [apply tagged_iff in T; contradiction|]. exact IH.
Qed.
Lemma boxedb_ok anc q : boxedb anc q = true -> boxed anc q.
Proof.
  unfold boxedb, boxed. destruct anc as [|p r]; [discriminate|]. rewrite andb_true_iff. intros [A B]. destruct (get_parent_name r) as [e| |] eqn:E; try discriminate.
  exists p, r, e. split; auto. split; [apply among_iff; auto|]. split; [apply parent_name_ok; auto|apply ends_with_iff; auto].
Qed.
Lemma opt_in x a v : has x a v -> In v (opt_list (attribute x (lit a))).
Proof. unfold has. intros ->. left. auto. Qed.
Lemma values_all anc x q : value anc x q -> In q (values anc x).
Proof.
  unfold values. cbv zeta. intros [T H R B|T H|H|m ts Hm Bt I].
  - apply in_or_app. left. apply tagged_iff in T. rewrite T. cbn [andb].
    assert (E : negb (manyb x) || globalb anc = true).
    { destruct R as [R|R]; [|apply globalb_iff in R; rewrite R; apply orb_true_r]. destruct (manyb x) eqn:M; auto. apply manyb_iff in M. contradiction. }
    rewrite E. apply filter_In. split; [|apply negb_true_iff; destruct (boxedb anc q) eqn:X; auto; apply boxedb_ok in X; contradiction].
    apply in_or_app. destruct H as [H|H]; [left|right]; apply opt_in; auto.
  - apply in_or_app. right. apply in_or_app. left. apply tagged_iff in T. rewrite T. apply in_or_app. destruct H as [H|H]; [left|right]; apply opt_in; auto.
  - do 2 (apply in_or_app; right). apply in_or_app. left. apply opt_in; auto.
  - do 3 (apply in_or_app; right). apply in_concat. eexists. split; [apply in_map, opt_in; exact Hm|]. cbn beta. rewrite <- (blank_tokens_unique _ _ _ Bt (blank_tokens_ok m)). auto.
Qed.
Lemma splices_all x q : splice x q -> In q (splices x).
Proof. intros [H|[T H]]; apply in_or_app; [left; apply opt_in; auto|right]. apply tagged_iff in T. rewrite T. apply opt_in; auto. Qed.
Lemma last_part_local q l : local q l -> last_part q = l.
Proof.
  assert (NE : forall t, ~ In 58 t -> existsb (N.eqb 58) t = false).
  { intros t N. destruct (existsb (N.eqb 58) t) eqn:E; auto. apply existsb_exists in E as (c & I & E). apply N.eqb_eq in E. subst c. contradiction. }
  intros [N [->|(p & ->)]].
  - destruct l as [|c t]; auto. cbn [last_part]. rewrite NE by (intros X; apply N; right; auto). destruct (N.eqb_spec c 58) as [->|]; auto. destruct N. left. auto.
  - induction p as [|c p IH]; cbn [app last_part].
    + rewrite (NE l N). reflexivity.
    + assert (E : existsb (N.eqb 58) (p ++ 58 :: l) = true) by (apply existsb_exists; exists 58; split; [apply in_or_app; right; left; auto|reflexivity]).
      cbn [app] in IH. rewrite E. exact IH.
Qed.
Lemma named_by_all own xsd q l : to_own own xsd q l -> In l (named_by own xsd q).
Proof.
  intros (p & Q & N & P). unfold named_by. pose proof (split_name_qualified q) as Q'. destruct (split_name q) as [p' l']. destruct (qualified_unique _ _ _ _ _ Q Q') as [<- <-].
  destruct (opt_str_eqb p xsd && builtinb l) eqn:B; [apply andb_true_iff in B as [B1 B2]; apply opt_str_eqb_iff in B1; apply builtinb_iff in B2; tauto|].
  destruct p as [x|]; [|left; auto]. destruct P as [P|P]; [discriminate|]. assert (E : opt_str_eqb (Some x) own = true) by (apply opt_str_eqb_iff; auto). rewrite E. left. auto.
Qed.
Lemma directs_all schema own xsd d l : direct schema own xsd d l -> In l (directs schema own xsd d).
Proof.
  intros (anc & x & q & J & H). apply in_concat.
  exists (concat (map (named_by own xsd) (values anc x)) ++ map last_part (splices x)). split; [apply in_map_iff; exists (anc, x); split; [reflexivity|apply inlines_all; exact J]|]. apply in_or_app. destruct H as [[V T]|[Sp L]].
  - left. apply in_concat. eexists. split; [apply in_map, values_all; exact V|]. apply named_by_all. auto.
  - right. apply in_map_iff. exists q. split; [apply last_part_local; auto|apply splices_all; auto].
Qed.
Lemma silentb_ok d : silentb d = true -> silent d.
Proof.
  unfold silentb, silent. rewrite andb_true_iff, orb_true_iff, !andb_true_iff, among_iff, tagged_iff, !is_present_iff. intros [H E]. split; auto.
  intros (c & Dc & Sc). apply documented_iff in Dc. apply documented_words in Sc. rewrite Dc in E. destruct (doc_words (Some c)); [contradiction|discriminate].
Qed.
Lemma grounded_check schema own xsd ord : groundedb schema own xsd ord = true -> grounded schema own xsd.
Proof.
  unfold groundedb. rewrite forallb_forall. intros H.
  assert (S : forall l l', contains schema own xsd l l' -> exists i, position l ord = Some i /\ forall j, position l' ord = Some j -> (j < i)%nat).
  { intros l l' (d & I & Nd & Sd & D). specialize (H d I). unfold has in Nd. rewrite Nd in H. destruct (silentb d) eqn:E; [apply silentb_ok in E; contradiction|]. cbn [orb] in H.
    destruct (position l ord) as [i|]; [|discriminate]. exists i. split; auto. intros j Hj. rewrite forallb_forall in H. specialize (H l' (directs_all _ _ _ _ _ D)). rewrite Hj in H.
    apply Nat.ltb_lt. exact H. }
  assert (N : forall l, position l ord = None -> Acc (fun b a => contains schema own xsd a b) l).
  { intros l E. constructor. intros l' C. destruct (S _ _ C) as (i & X & _). congruence. }
  intros l. destruct (position l ord) as [i|] eqn:E; [|auto]. revert l E. induction i as [i IH] using (well_founded_induction lt_wf). intros l E. constructor. intros l' C.
  destruct (S _ _ C) as (i' & X & Y). rewrite E in X. injection X as <-. destruct (position l' ord) as [j|] eqn:Ej; [|auto]. apply (IH j); auto.
Qed.
(** Items whose names differ wherever one could hide the other. *)
Definition item_name (i : item) : option (list token) := match i with IStruct _ _ m _ | ITuple _ _ m _ | IEnum _ _ m _ | IType _ m _ => Some m | _ => None end.
Definition apart_items (x y : list str * item) : bool :=
  match item_name (snd x), item_name (snd y) with
  | Some a, Some b => negb (same_nameb a b) || negb (prefixb (fst x) (fst y)) && negb (prefixb (fst y) (fst x))
  | _, _ => true
  end.
Fixpoint unshadowedb (P : list (list str * item)) : bool := match P with [] => true | x :: P' => forallb (apart_items x) P' && unshadowedb P' end.
Lemma unshadowed_check P : unshadowedb P && forallb (fun x => match item_name (snd x) with Some n => outside_library (fst x) n | None => true end) P = true -> unshadowed P.
Proof.
  intros H0. apply andb_true_iff in H0 as [H F]. assert (Q : ForallOrdPairs (fun x y => apart_items x y = true) P).
  { clear F. induction P as [|x P IH]; [constructor|]. cbn in H. apply andb_true_iff in H as [A B]. constructor; auto. apply Forall_forall. apply forallb_forall. auto. }
  assert (D : forall i n, defines i n -> item_name i = Some n) by (intros [] n X; cbn in *; try destruct X; congruence).
  split; [|intros p i n I Di; apply D in Di; rewrite forallb_forall in F; specialize (F _ I); cbn [fst snd] in F; rewrite Di in F; apply outside_library_ok; exact F].
  intros p r n i j I J Di Dj. apply D in Di, Dj. destruct (ForallOrdPairs_In Q _ _ I J) as [E|[E|E]].
  - injection E as E ->. split; auto. rewrite <- (app_nil_r p) in E at 1. apply app_inv_head in E. auto.
  - exfalso. unfold apart_items in E. cbn [fst snd] in E. rewrite Di, Dj, same_nameb_refl, prefixb_app in E. discriminate.
  - exfalso. unfold apart_items in E. cbn [fst snd] in E. rewrite Di, Dj, same_nameb_refl, prefixb_app, andb_false_r in E. discriminate.
Qed.

(** A tree whose nodes have an optional parent (kept in a vector, the type names being the same),
    repeated subtrees, an anonymous type and a union, with an extension, an attribute group and
    an element of the name of its type. *)
Definition opt_typed (n t : string) : node := el "element" [("name", n); ("type", t); ("minOccurs", "0")] [].
Definition many_typed (n t : string) : node := el "element" [("name", n); ("type", t); ("maxOccurs", "unbounded")] [].
Definition tree : node := sch
  [ typed "Node" "tt:Node";
    el "attributeGroup" [("name", "Common")] [el "attribute" [("name", "id"); ("type", "tt:Id")] []];
    cty "Leaf" [ext "tt:Node" [seq [typed "weight" "xs:int"; anon "where" [seq [typed "in" "tt:Tree"]]]]];
    cty "Tree" [seq [typed "root" "tt:Node"; many_typed "leaf" "tt:Leaf"]];
    cty "Node" [seq [opt_typed "parent" "tt:Node"; many_typed "below" "tt:Tree"; typed "label" "tt:Label"]];
    cty "Label" [el "attribute" [("name", "text"); ("type", "xs:string")] []; el "attributeGroup" [("ref", "tt:Common")] []];
    el "simpleType" [("name", "Id")] [el "union" [("memberTypes", "xs:int tt:Ids")] []];
    list_type "Ids" "tt:Id" ].
Example C65_ex1 : document [tree] tree /\ ok_schema tree /\ tidy tree /\ not_self_derived tree /\
  (forall x, part x tree -> orderly u2 tree (Some (lit "tt")) (Some (lit "xs")) x) /\ grounded tree (Some (lit "tt")) (Some (lit "xs")).
Proof.
  apply with_conditions; [|split; [apply orderly_check; vm_compute; reflexivity|apply (grounded_check _ _ _ (map lit ["Ids"; "Id"; "Common"; "Label"; "Node"; "Tree"; "Leaf"])); vm_compute; reflexivity]].
  conditions. split; [reflexivity|]. cbn [tree sch children].
  do 6 (constructor; [solve_ok|]).
  constructor; [do 2 right; left; eapply ok_global_simple; [t1|t1|solve_ok|]; do 2 right; apply ok_union; [t1|constructor]|].
  constructor; [do 2 right; left; eapply ok_global_simple; [t1|t1|solve_ok|]; right; left; apply ok_list_typed; t1|constructor].
Qed.
Example C65_ex2 : exists f its, parse u2 [tree] = Ok f /\ ns_prefix (rf_target_ns f) = Some (lit "tt") /\ ns_prefix (rf_xsd_ns f) = Some (lit "xs") /\
  file_items u2 f (rf_types f) its /\ unshadowed (concat (map (placed []) its)) /\
  map (fun '(p, i) => (p, parts_of i)) (filter (fun '(_, i) => match item_name i with Some _ => true | None => false end) (concat (map (placed []) its))) =
  map (fun '(p, t) => (map lit p, map (rust u2) t))
    [([], ["i32"; "leaf::WhereType"; "Vec<Node>"; "Vec<Tree>"; "Label"]);   (* Leaf *)
     (["leaf"], ["Tree"]);                                                  (* its WhereType *)
     ([], ["Node"; "Vec<Leaf>"]);                                           (* Tree *)
     ([], ["Vec<Node>"; "Vec<Tree>"; "Label"]);                             (* Node *)
     ([], ["Option<String>"; "Option<Id>"]);                                (* Label *)
     ([], ["i32"; "Ids"; "String"]);                                        (* Id *)
     ([], ["Vec<Id>"])].                                                    (* Ids *)
Proof.
  eexists. eexists. split; [vm_compute; reflexivity|]. split; [reflexivity|]. split; [reflexivity|]. split; [|split].
  - cbn [rf_types]. repeat first [discriminate|intros (d & ? & ? & ? & ? & _); discriminate|econstructor].
  - apply unshadowed_check. vm_compute. reflexivity.
  - vm_compute. reflexivity.
Qed.

(** ** Documents whose types contain themselves *)
(** The code of a document of the supported subset whose names are in order has types of
    infinite size. *)
Definition oversized (u : uni) (n : node) : Prop :=
  document [n] n /\ ok_schema n /\ tidy n /\ not_self_derived n /\
  (forall x, part x n -> orderly u n (Some (lit "tt")) (Some (lit "xs")) x) /\
  exists f its, parse u [n] = Ok f /\ ns_prefix (rf_target_ns f) = Some (lit "tt") /\ ns_prefix (rf_xsd_ns f) = Some (lit "xs") /\
    file_items u f (rf_types f) its /\ unshadowed (concat (map (placed []) its)) /\
    ~ finite u (namespaces n) (ns_prefix (rf_target_ns f)) (ns_prefix (rf_xsd_ns f)) its.
(** Types each of which has a part that is, or may hold, another of them. *)
Lemma endless u nss own xsd P (X : list str) :
  (forall w, In w X -> ~ In w (map lit ["String"; "bool"; "i64"; "i32"; "i16"; "i8"; "u64"; "u32"; "u16"; "u8"; "f64"])) ->
  (forall w, In w X -> exists i w', In ([], i) P /\ defines i [TWord w] /\ In w' X /\ (In [TWord w'] (parts_of i) \/ In (rust u "Option<" ++ [TWord w'] ++ rust u ">") (parts_of i))) ->
  forall path t, sized u nss own xsd P path t -> path = [] -> forall w, In w X -> t <> [TWord w] /\ t <> rust u "Option<" ++ [TWord w] ++ rust u ">".
Proof.
  intros L C path t S. induction S as [path s I|path t|path t S IH|path t F|path t [p0 [i0 E]] S IH]; intros -> w Iw.
  - split.
    + intros Es. apply (L w Iw). apply (library_word u s w I). auto.
    + intros Es. cbn [library_types In] in I. repeat (destruct I as [<-|I]; [vm_compute in Es; discriminate Es|]). destruct I.
  - split; intros Es; vm_compute in Es; discriminate Es.
  - split; intros Es; vm_compute in Es; try discriminate Es. injection Es as Es. change (t ++ [TPunct 62] = [TWord w] ++ [TPunct 62]) in Es. apply app_inj_tail in Es as [Es _]. destruct (IH eq_refl w Iw) as [A _]. contradiction.
  - destruct F as (ns & p & x & _ & _ & _ & _ & _ & ->). split; intros Es; vm_compute in Es; discriminate Es.
  - split; intros ->.
    + destruct (C w Iw) as (i & w' & I & D & Iw' & H).
      assert (N : seen u P [] [TWord w] [] i) by (apply (seen_above u P [] w [] [] i); auto).
      destruct H as [H|H]; destruct (IH [] i _ N H eq_refl w' Iw') as [A B]; [apply A|apply B]; reflexivity.
    + inversion E as [w' p' q' d' Ep Ip Ew|m w' d' Ip Ew]; vm_compute in Ew; discriminate Ew.
Qed.
Definition sym_eqb (a b : token) : bool := match a, b with TWord x, TWord y => str_eqb x y | TPunct x, TPunct y => x =? y | _, _ => false end.
Fixpoint syms_eqb (a b : list token) : bool := match a, b with [], [] => true | x :: a', y :: b' => sym_eqb x y && syms_eqb a' b' | _, _ => false end.
Lemma syms_eqb_ok a b : syms_eqb a b = true -> a = b.
Proof.
  revert b. induction a as [|x a IH]; intros [|y b] H; try discriminate; auto. apply andb_true_iff in H as [A B]. f_equal; auto.
  destruct x, y; try discriminate; cbn in A; f_equal; [apply str_eqb_eq|apply N.eqb_eq]; auto.
Qed.
Definition leads (u : uni) (X : list str) (c : list token) : bool :=
  existsb (fun w => syms_eqb c [TWord w] || syms_eqb c (rust u "Option<" ++ [TWord w] ++ rust u ">")) X.
Definition top_item (w : str) (x : list str * item) : bool :=
  match x with ([], i) => match item_name i with Some n => syms_eqb n [TWord w] | None => false end | _ => false end.
Definition endlessb (u : uni) (P : list (list str * item)) (X : list str) : bool :=
  forallb (fun w => negb (existsb (str_eqb w) (map lit ["String"; "bool"; "i64"; "i32"; "i16"; "i8"; "u64"; "u32"; "u16"; "u8"; "f64"])) &&
    existsb (fun x => top_item w x && existsb (leads u X) (parts_of (snd x))) P) X.
Lemma endless_check u nss own xsd its w X : endlessb u (concat (map (placed []) its)) (w :: X) = true -> ~ finite u nss own xsd its.
Proof.
  unfold endlessb. set (P := concat (map (placed []) its)). intros H W. rewrite forallb_forall in H.
  assert (D : forall y i, top_item y i = true -> exists j, i = ([], j) /\ defines j [TWord y]).
  { intros y [[|] j] T; try discriminate. cbn in T. destruct (item_name j) as [n|] eqn:E; [|discriminate]. apply syms_eqb_ok in T. subst n. exists j. split; auto.
    destruct j; cbn in *; congruence. }
  assert (E : forall c, leads u (w :: X) c = true -> exists w', In w' (w :: X) /\ (c = [TWord w'] \/ c = rust u "Option<" ++ [TWord w'] ++ rust u ">")).
  { intros c L. apply existsb_exists in L as (w' & I & L). exists w'. split; auto. apply orb_true_iff in L as [L|L]; apply syms_eqb_ok in L; auto. }
  assert (N := endless u nss own xsd P (w :: X)).
  assert (Q : exists c, In c (w :: X) /\ exists t, sized u nss own xsd P [] t /\ (t = [TWord c] \/ t = rust u "Option<" ++ [TWord c] ++ rust u ">")).
  { destruct (proj1 (andb_true_iff _ _) (H w (or_introl eq_refl))) as [_ Z]. apply existsb_exists in Z as ([p i] & I & Z). apply andb_true_iff in Z as [Z1 Z2].
    destruct (D _ _ Z1) as (j & [= -> <-] & _). apply existsb_exists in Z2 as (c & Ic & Z2). destruct (E _ Z2) as (w' & Iw & Z). exists w'. split; auto. exists c. split; auto.
    exact (W [] i c I Ic). }
  destruct Q as (c & Ic & t & S & T). assert (N' : t <> [TWord c] /\ t <> rust u "Option<" ++ [TWord c] ++ rust u ">"); [|destruct N' as [A B]; destruct T; contradiction].
  apply (N) with (path := []); auto.
  - intros y Iy J. destruct (proj1 (andb_true_iff _ _) (H y Iy)) as [Z _]. apply negb_true_iff in Z. assert (Z' : existsb (str_eqb y) (map lit ["String"; "bool"; "i64"; "i32"; "i16"; "i8"; "u64"; "u32"; "u16"; "u8"; "f64"]) = true); [|congruence].
    apply existsb_exists. exists y. split; auto. apply str_eqb_eq. auto.
  - intros y Iy. destruct (proj1 (andb_true_iff _ _) (H y Iy)) as [_ Z]. apply existsb_exists in Z as ([p i] & I & Z). apply andb_true_iff in Z as [Z1 Z2].
    destruct (D _ _ Z1) as (j & [= -> <-] & Dj). apply existsb_exists in Z2 as (c' & Ic' & Z2). destruct (E _ Z2) as (w' & Iw & Z). exists i, w'. repeat (split; [assumption|]).
    destruct Z; subst; [left|right]; auto.
Qed.
Ltac oversize X := split; [apply orderly_check; vm_compute; reflexivity|]; eexists; eexists; split; [vm_compute; reflexivity|];
  split; [reflexivity|]; split; [reflexivity|]; split; [cbn [rf_types]; repeat econstructor|]; split; [apply unshadowed_check; vm_compute; reflexivity|];
  match X with ?w :: ?r => apply (endless_check _ _ _ _ _ (lit w) (map lit r)); vm_compute; reflexivity end.

(** Two types that may hold each other: an optional element is an [Option], which does not
    help. *)
Definition each_other : node := sch [cty "Left" [seq [opt_typed "r" "tt:Right"]]; cty "Right" [seq [opt_typed "l" "tt:Left"]]].
Theorem C65_mutual_refuted : forall u, oversized u each_other.
Proof.
  intros u. unfold each_other. apply with_conditions; [conditions; split; [reflexivity|]; cbn [sch children]; solve_ok|]. oversize ["Left"; "Right"]%string.
Qed.
Print Assumptions C65_mutual_refuted.
(** A choice between a value and the type itself: only sequences and all groups are looked at. *)
Definition expression : node := sch [cty "Expr" [el "choice" [] [typed "num" "xs:int"; typed "neg" "tt:Expr"]]].
Theorem C65_choice_refuted : forall u, oversized u expression.
Proof.
  intros u. unfold expression. apply with_conditions; [conditions; split; [reflexivity|]; cbn [sch children]; solve_ok|]. oversize ["Expr"; "ExprChoice"]%string.
Qed.
Print Assumptions C65_choice_refuted.
(** A type that may hold one derived from it: the derived type takes over the element, now of
    its own type. *)
Definition derived_part : node := sch [cty "Part" [seq [opt_typed "next" "tt:Last"]]; cty "Last" [ext "tt:Part" [seq [typed "n" "xs:int"]]]].
Theorem C65_derived_refuted : forall u, oversized u derived_part.
Proof.
  intros u. unfold derived_part. apply with_conditions; [conditions; split; [reflexivity|]; cbn [sch children]; solve_ok|]. oversize ["Last"]%string.
Qed.
Print Assumptions C65_derived_refuted.
(** A union with itself, which XML Schema forbids, is translated all the same. *)
Definition self_union : node := sch [el "simpleType" [("name", "U")] [el "union" [("memberTypes", "xs:int tt:U")] []]].
Theorem C65_union_refuted : forall u, oversized u self_union.
Proof.
  intros u. unfold self_union. apply with_conditions.
  { conditions. split; [reflexivity|]. cbn [sch children]. constructor; [do 2 right; left; eapply ok_global_simple; [t1|t1|solve_ok|]; do 2 right; apply ok_union; [t1|constructor]|constructor]. }
  oversize ["U"]%string.
Qed.
Print Assumptions C65_union_refuted.
