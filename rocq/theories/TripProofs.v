(** Instances with values: proofs. *)
From Coq Require Import Arith NArith ZArith Bool Ascii String List Permutation Lia.
From Verif Require Import Str StrFacts SpecLex SpecNames SpecBuiltin SpecSerde SerdeProofs Xml Comment CommentProofs Names NamesProofs Entity Parser ParserFacts SpecSchema ParserProofs Link SpecLink LinkProofs Gen SpecRust SpecGen SpecCheck RustFacts GenProofs GenProofs2 SpecDoc DocProofs SpecScope ScopeProofs SpecTraits TraitProofs SpecSize SizeProofs ShapeProofs SpecDistinct DistinctProofs DistinctProofs2 MemberProofs SpecFit SpecWrite FitProofs FitProofs2 SpecValue ValueProofs SpecTrip.
Import ListNotations.
Local Open Scope string_scope.
Local Open Scope list_scope.
Local Open Scope N_scope.
Notation concat := List.concat.
Arguments lit : simpl never.

Section Values.
Context (A : Type) (lexical : str -> str -> A -> Prop) (order : A -> A -> option comparison) (size : A -> N).
Context (pattern : str -> str -> Prop) (digits : facet_type -> A -> Prop).
Context (lib_read : string -> str -> option A) (lib_show : string -> A -> str) (lib_cmp : A -> A -> option comparison) (lib_len : A -> N).
Context (Cmp : forall a b c, order a b = Some c -> lib_cmp a b = Some c).
(** Rust strings hold every text. *)
Context (Str : forall x, exists a, lib_read "String" x = Some a /\ lib_show "String" a = x).

Lemma reads_second u its path t x v : reads A u (concat (map (placed []) its)) lib_read path t x v -> second t.
Proof.
  intros Rd. destruct Rd as [path l s a I|? ? ? ? ? ? ? ? Na|? ? ? ? ? ? ? ? ? Na|? ? ? ? ? ? ? ? ? ? ? ? ? Na|? ? ? ? ? ? ? ? ? ? ? Na]; [|destruct Na as [Na _]; eapply seen_second; eauto..].
  apply library_second. auto.
Qed.
Theorem document_trip u roots schema f its : document roots schema -> ok_schema schema -> tidy schema -> parse u roots = Ok f ->
  (forall x, part x schema -> orderly u schema (ns_prefix (rf_target_ns f)) (ns_prefix (rf_xsd_ns f)) x) ->
  separate_types schema (SpecGen.ty u (fun q => format_type_name u q (rf_xsd_ns f) (rf_target_ns f))) (format_name u) ->
  all_items u (rf_target_ns f) (fun q => format_type_name u q (rf_xsd_ns f) (rf_target_ns f)) (format_name u) (variant_name u (rf_target_ns f)) (rf_types f) its ->
  let own := ns_prefix (rf_target_ns f) in let xsd := ns_prefix (rf_xsd_ns f) in
  let P := concat (map (placed []) its) in let ty := SpecGen.ty u (fun q => format_type_name u q (rf_xsd_ns f) (rf_target_ns f)) in
  let handled := handled A lexical order size pattern digits u lib_read lib_show lib_len schema own xsd in
  let allowed := allowed A lexical order size pattern digits schema own xsd in
  let same_value := same_value A lexical order size pattern digits schema own xsd in
  let fits := fits u P (understood A u lib_read lib_cmp lib_len P) in
  let written := written u P (shown_again A u lib_read lib_show P) in
  let R := fun t => regular schema own xsd t /\ own_attributes schema own xsd t in
  let R1 := fun t => regular schema own xsd t /\ own_attributes schema own xsd t /\ SpecWrite.one_content schema own xsd t in
  forall T i path t, valid schema own xsd R handled T i ->
    (exists q, type_named schema own xsd q T /\ regular_type xsd q /\ t = ty q) \/
    (exists l d, SpecFit.declared schema "element" l d /\ absent d "ref" /\ absent d "type" /\ type_of schema own xsd d T /\ t = ty l) ->
    fits path t i /\
    (exists o, written path t i o) /\
    (forall o, written path t i o -> same schema own xsd same_value T i o) /\
    (valid schema own xsd R1 handled T i -> forall o, written path t i o -> valid schema own xsd R1 allowed T o).
Proof.
  intros Do O T H Or Sep It own xsd P ty handled allowed same_value ft wr R R1 Ty i path t V Ht. assert (Dt := document_distinct u roots schema f its Do O T H Or Sep It). assert (Un := distinct_unshadowed _ Dt).
  assert (Uv : forall p m ks ks', In (p, IValidate m ks) P -> In (p, IValidate m ks') P -> ks = ks') by (apply one_validate, Dt).
  destruct Do as (a & b & -> & E & L). destruct (parse_document u (a ++ schema :: b)) as [PD _].
  destruct (proj1 (proj1 (PD a schema b eq_refl E L) f) H) as (f0 & Hp & Hl). clear PD. destruct T as [Td _].
  set (good := good A lexical order size pattern digits lib_read lib_show lib_cmp lib_len u its).
  set (regular_simple := regular_simple A lexical order size pattern digits u lib_read lib_show).
  set (makes := fun path t s => forall T, simple_is schema own xsd s T -> regular_simple T -> good path t T).
  assert (All : forall T, regular_simple T -> good_ref A lexical order size pattern digits lib_read lib_show lib_cmp lib_len u schema f its T /\ good_node A lexical order size pattern digits lib_read lib_show lib_cmp lib_len u schema f its T).
  { intros T. apply (proj1 (all_good A lexical order size pattern digits lib_read lib_show lib_cmp lib_len Cmp u schema f0 f its O Hp Hl Td Or It Un Uv T)). }
  assert (Read : forall p c s x, makes p c s -> handled s x -> exists T v w, simple_is schema own xsd s T /\ denotes A lexical order size pattern digits T x v /\
     reads A u P lib_read p c x w /\ (forall w', reads A u P lib_read p c x w' -> w' = w) /\ accepts A u P lib_read lib_cmp lib_len p c w /\
     exists v', denotes A lexical order size pattern digits T (shown A lib_show w) v' /\ ((forall Ts, T <> TUnion Ts) -> v = v')).
  { intros p c s x Mk (T & v & Is & Rg & Pl & De & Sp & Al). destruct (Mk T Is Rg) as (_ & _ & G & _). destruct (G x v De Sp Al) as (w & Rd & Ac & St). destruct (St Pl) as (v' & De' & Ev).
    exists T, v, w. split; auto. split; auto. split; auto. split; [intros w' Rd'; symmetry; eapply (reads_unique A lib_read u P Un); eauto|]. split; auto. exists v'. split; auto. intros N. symmetry. auto. }
  assert (makes_named : forall q path, type_named schema own xsd q (Simple (Named q)) -> makes path (ty q) (Named q)) by (intros q p _ T Is Rg; apply (All T Rg); auto).
  assert (makes_within : forall d pn anc e nm path t p i r, part d schema -> tag "simpleType" d -> parse_node u d (pn :: anc) = Ok e ->
    items u (rf_target_ns f) (fun q => format_type_name u q (rf_xsd_ns f) (rf_target_ns f)) (format_name u) (variant_name u (rf_target_ns f)) (set_name nm e) (i :: r) ->
    incl (concat (map (placed p) (i :: r))) P -> SpecFit.names u P path t p i -> makes path t (Within d)).
  { intros d pn anc e nm p c p' j r Pd Td' Hd Hi Ic Na T Is Rg. eapply (All T Rg); eauto. }
  set (G1 := understood A u lib_read lib_cmp lib_len P). set (G2 := shown_again A u lib_read lib_show P).
  assert (H1 : forall p c s x, makes p c s -> handled s x -> G1 p c x) by (intros p c s x Mk Hx; destruct (Read p c s x Mk Hx) as (T & v & w & _ & _ & Rd & Ud & Ac & _); exists w; auto).
  assert (H2 : forall p c s x y, makes p c s -> handled s x -> G2 p c x y -> same_value s x y).
  { intros p c s x y Mk Hx (w' & Rd' & ->). destruct (Read p c s x Mk Hx) as (T & v & w & Is & De & Rd & Ud & _ & v' & De' & Ev). rewrite (Ud w' Rd'). exists T, v, v'. auto. }
  assert (H3 : forall s x y, same_value s x y -> allowed s y) by (intros s x y (T & v & w & Is & _ & De & _); exists T, w; auto).
  set (KA := fun a => present a "type" \/ absent a "ref").
  assert (Mt : forall b q p, has b "type" q -> makes p (ty q) (Named q)) by (intros b0 q p _ T Is Rg; apply (All T Rg); auto).
  assert (HA : forall b p v, KA b -> (forall s, attribute_typed schema own xsd b s -> handled s v) -> G1 p (ty (pick (attribute b (lit "type")) (attribute b (lit "ref")) (lit "String"))) v).
  { intros b0 p v Kb Hv. unfold KA, present, has, absent in Kb. destruct (attribute b0 (lit "type")) as [q|] eqn:Hq.
    2:{ destruct Kb as [(? & Kb)|Kb]; [discriminate|]. rewrite Kb. cbn [pick]. unfold ty. rewrite string_text. destruct (Str v) as (w & Rd & _). exists (RLib A "String" w).
        assert (Y : reads A u P lib_read p (rust u "String") v (RLib A "String" w)) by (apply reads_library; auto; left; auto). split; auto. split; [intros w' Rd'; symmetry; eapply (reads_unique A lib_read u P Un); eauto|]. apply accepts_library. left. auto. }
    cbn [pick]. apply (H1 p (ty q) (Named q)); [eapply Mt; eauto|]. apply Hv. apply ay_named. auto. }
  assert (HA2 : forall b m p v w c, KA b -> m = MNone \/ m = MOption -> (forall s, attribute_typed schema own xsd b s -> handled s v) ->
     holds u (modified u (ty (pick (attribute b (lit "type")) (attribute b (lit "ref")) (lit "String"))) [m]) c 1 -> G2 p c v w ->
     same_attribute schema own xsd same_value b v w /\ forall s, attribute_typed schema own xsd b s -> allowed s w).
  { intros b0 m p v w c Kb Hm Hv Hh Hw. unfold KA, present, has, absent in Kb. destruct (attribute b0 (lit "type")) as [q|] eqn:Hq.
    2:{ destruct Kb as [(? & Kb)|Kb]; [discriminate|]. rewrite Kb in Hh. cbn [pick] in Hh. unfold ty in Hh. rewrite string_text in Hh. destruct Hw as (w' & Rd & ->).
        assert (c = rust u "String") as -> by (eapply holds_inner; [| |exact (library_second u "String" (or_introl eq_refl))| |exact Hh]; [tauto|auto|eapply reads_second; eauto]).
        destruct (library_reads A lib_read u its Un "String" _ _ _ (or_introl eq_refl) Rd) as (a0 & -> & Rl). destruct (Str v) as (a1 & Rl1 & Sh). assert (a1 = a0) as -> by congruence. cbn [shown]. rewrite Sh. split; [left; auto|].
        intros s At. destruct (Hv s At) as (T & x & Is & _ & _ & De & _). exists T, x. auto. }
    fold (has b0 "type" q) in Hq. cbn [pick] in Hh. assert (Hn := Hv (Named q) (ay_named schema own xsd b0 q Hq)).
    assert (Sq : second (ty q)). { destruct Hn as (T & _ & Is & Rg & _). eapply (refers_second A lexical order size pattern digits lib_read lib_show u schema f); eauto. }
    assert (c = ty q) as -> by (eapply holds_inner; [| |exact Sq| |exact Hh]; [tauto|auto|destruct Hw as (w' & Rd & _); eapply reads_second; eauto]).
    assert (Sv : same_value (Named q) v w) by (eapply H2; eauto). split; [right; exists (Named q); split; auto; apply ay_named; auto|].
    intros s At. assert (s = Named q) as ->; [|eauto]. inversion At; subst; unfold has, absent in *; congruence. }
  assert (HK : forall n s gs r, own_attributes schema own xsd n -> SpecFit.composed schema own xsd (fun _ => True) n s gs r -> Forall KA r) by (intros n s gs r X C; eapply X; eauto).
  assert (G : goal u schema f0 f its makes path t Ty).
  { eapply start_goal; eauto. eapply (valid_proper schema f); eauto. }
  assert (Ft : ft path t i).
  { eapply (valid_fits u schema f0 f its O Hp Hl Td Or It Un makes makes_named makes_within) with (V := handled) (K := fun n => own_attributes schema own xsd n) (KA := KA); eauto. }
  split; [exact Ft|]. split; [|split].
  - eapply fits_written; [|exact Ft]. intros p c x (v & Rd & _). exists (shown A lib_show v). exists v. auto.
  - intros o Wr. eapply (valid_written u schema f0 f its O Hp Hl Td Or It Un makes makes_named makes_within) with (V := handled) (text := G1) (K := fun n => own_attributes schema own xsd n) (KA := KA) (V' := allowed) (wtext := G2); eauto.
  - intros V1 o Wr.
    assert (X := valid_written u schema f0 f its O Hp Hl Td Or It Un makes makes_named makes_within handled G1 (fun n => own_attributes schema own xsd n /\ SpecWrite.one_content schema own xsd n) KA ltac:(intros n s gs r [Y _] C; eapply HK; eauto) HA allowed same_value G2 H2 H3 HA2 Ty i V1 path t o).
    apply X; auto. intros n Y. apply Y.
Qed.
End Values.
