(** Property theorems C86, values: nested kinds of types read the texts they hold. *)
From Coq Require Import Arith NArith ZArith QArith Bool Ascii String List Permutation Lia.
From Coq Require Import Floats.SpecFloat.
From Verif Require Import Str StrFacts SpecLex SpecDate SpecDur SpecBigDec SpecNames SpecBuiltin Serde SpecSerde SerdeProofs Ints Prim Tz GTypes GProofs DateTime DateProofs Dur DurProofs Order OrderProofs BigDec BigDecProofs Xml Names NamesProofs Entity Parser SpecSchema SpecLink Link LinkProofs Gen SpecRust SpecGen GenProofs SpecCheck SpecDoc DocProofs SpecScope SpecTraits SpecSize SizeProofs ScopeProofs SpecDistinct SpecFit SpecRestrict SpecWrite SpecValue SpecTrip SpecLibrary SpecChoice SpecFlat SpecNest ParserFacts DistinctProofs2 FitProofs FitProofs2 ValueProofs TripProofs ValueLib LibraryProofs PropsParser PropsLink PropsGen PropsDoc PropsScope PropsTraits PropsSize PropsDistinct PropsMembers PropsFit PropsWrite PropsRestrict PropsChoice PropsAlike PropsFlat PropsValue PropsLibrary PropsTrip PropsNest PropsDeep.
From Verif Require ParserProofs TraitProofs.
Import ListNotations.
Local Open Scope string_scope.
Local Open Scope list_scope.
Local Open Scope N_scope.
Notation concat := List.concat.
Notation atom := SpecLibrary.atom.
Notation tt := (Some (lit "tt")).
Notation xs := (Some (lit "xs")).

(** ** What is written has the same values *)
Section Same.
Context (u : uni) (its : list item).
Notation P := (concat (map (placed []) its)).
Context (Un : unshadowed P) (Ap : forall p d a m fs, In (p, IStruct d a m fs) P -> apart fs).
Context (wtext : list str -> list token -> str -> str -> Prop) (Ws : forall p c x y, wtext p c x y -> second c).
Notation WD := (written_deep u P wtext).
Notation out := (rfield * (list (qname * str) * list (inst * inst)))%type.
Notation outl := (rfield * list (qname * str))%type.
Ltac cases Wr := inversion Wr as [? l' ? ? ? Is' Ty'|? ? ? ? ? ? ? ? Na' W'|? ? ? ? ? ? ? ? ? ? Na' Ty'|? ? ? ? ? ? ? ? ? ? Na' Te' Ty'|? ? p1 d1 a1 m1 fs1 n1 attrs1 kids1 outs1 Na' Ef' Ho'|? ? p1 d1 a1 m1 fs1 n1 attrs1 k1 k1' outs1 f1 p1' d1' a1' m1' vs1 v1 c1 Na' Ef' If' Fl' Ho' Ne' Cd' Iv' Vm' Vu' Vt' Wk'].
Lemma wd_library path s n x o : In s library_types -> WD path (rust u s) (Inst n [] [] x) o -> exists y, o = Inst n [] [] y /\ wtext path (rust u s) x y.
Proof. intros Is Wr. remember (rust u s) as ts eqn:Es. remember (Inst n [] [] x) as i0 eqn:Ei. cases Wr; subst; [|exfalso; eapply (library_free u P Un); eauto..]. match goal with X : Inst _ _ _ _ = Inst _ _ _ _ |- _ => injection X as -> -> end. eauto. Qed.
Lemma wd_alias path t p d m t' i o : SpecFit.names u P path t p (IType d m t') -> WD path t i o -> WD p t' i o.
Proof. intros Na Wr. cases Wr; subst; [exfalso; eapply (library_free u P Un); eauto|..]; destruct (FitProofs2.names_same _ _ _ _ _ _ _ _ Na Na') as [E1 E2]; try discriminate E2. injection E2 as <- <- <-. subst. auto. Qed.
Lemma wd_tuple path t p d a m c n x o : SpecFit.names u P path t p (ITuple d a m c) -> WD path t (Inst n [] [] x) o -> exists y, o = Inst n [] [] y /\ wtext path t x y.
Proof. intros Na Wr. remember (Inst n [] [] x) as i0 eqn:Ei. cases Wr; subst; [exfalso; eapply (library_free u P Un); eauto|..]; destruct (FitProofs2.names_same _ _ _ _ _ _ _ _ Na Na') as [E1 E2]; try discriminate E2. match goal with X : Inst _ _ _ _ = Inst _ _ _ _ |- _ => injection X as -> -> end. eauto. Qed.
Lemma wd_enum path t p d a m vs n x o : SpecFit.names u P path t p (IEnum d a m vs) -> WD path t (Inst n [] [] x) o -> exists y, o = Inst n [] [] y /\ wtext path t x y.
Proof. intros Na Wr. remember (Inst n [] [] x) as i0 eqn:Ei. cases Wr; subst; [exfalso; eapply (library_free u P Un); eauto|..]; destruct (FitProofs2.names_same _ _ _ _ _ _ _ _ Na Na') as [E1 E2]; try discriminate E2. match goal with X : Inst _ _ _ _ = Inst _ _ _ _ |- _ => injection X as -> -> end. eauto. Qed.
Lemma wd_name path t i o : WD path t i o -> inst_name i = inst_name o.
Proof. intros X. induction X; auto. Qed.
Lemma wd_second path t i o : WD path t i o -> second t.
Proof. intros X. destruct X as [path s n x y I|? ? ? ? ? ? ? ? Na|? ? ? ? ? ? ? ? ? ? Na|? ? ? ? ? ? ? ? ? ? Na|? ? ? ? ? ? ? ? ? ? ? Na|? ? ? ? ? ? ? ? ? ? ? ? ? ? ? ? ? ? ? ? Na]; [apply library_second; auto|eapply seen_second; apply Na..]. Qed.

Context (Q : list str -> list token -> inst -> Prop) (Qs : forall p c k, Q p c k -> second c).
Context (atext : qname -> list str -> list token -> str -> Prop) (As : forall x p c v, atext x p c v -> second c).
Definition attributes_same (p : list str) (attrs attrs' : list (qname * str)) : Prop :=
  (forall x v, In (x, v) attrs -> exists w c, In (x, w) attrs' /\ atext x p c v /\ wtext p c v w) /\
  (forall x w, In (x, w) attrs' -> exists v c, In (x, v) attrs /\ atext x p c v /\ wtext p c v w).
(** What is written for the members from attributes. *)
Lemma attributes_kept p fs attrs (L : rfield -> list (qname * str) -> Prop) : apart fs ->
  (forall x v, In (x, v) attrs -> exists f, In f fs /\ attribute_member f x) ->
  (forall f x, In f fs -> attribute_member f x -> exists c, holds u (rf_type f) c 1 /\ forall v, In (x, v) attrs -> atext x p c v) ->
  (forall f, In f fs -> exists l, L f l) ->
  (forall f l, L f l -> In f fs /\ (l = [] /\ (forall x, ~ attribute_member f x) \/
     exists x, attribute_member f x /\ (exists c, holds u (rf_type f) c 1 /\ Forall2 (wtext p c) (SpecWrite.values x attrs) (map snd l)) /\ forall b, In b l -> fst b = x)) ->
  forall attrs', (forall b, In b attrs' <-> exists f l, L f l /\ In b l) -> attributes_same p attrs attrs'.
Proof.
  intros [One _] A1 A0 Has Ho attrs' Ea. split.
  - intros x v I. destruct (A1 x v I) as (f & If & Am). destruct (Has f If) as (l & Il). destruct (Ho f l Il) as [_ [[_ N]|(y & Bm & (c & Hc & F2) & Hl)]]; [destruct (N _ Am)|].
    assert (y = x) by (eapply One; [exact If|apply Bm|apply Am]). subst y. destruct (A0 f x If Am) as (c0 & Hc0 & Tx). destruct (Forall2_in_l _ _ _ _ F2 (in_values _ _ _ I)) as (w & Iw & Tw).
    assert (c = c0) by (eapply holds_same; [exact Hc|exact Hc0|eapply Ws; exact Tw|eapply As; apply Tx; exact I]). subst c0. exists w, c. split; [|auto]. apply Ea. exists f, l. split; auto.
    apply in_map_iff in Iw as ([y w'] & Ew & Iw). cbn [snd] in Ew. subst w'. pose proof (Hl _ Iw) as Ey. cbn [fst] in Ey. subst y. exact Iw.
  - intros x w I. apply Ea in I as (f & l & Il & I). destruct (Ho f l Il) as [If [[-> _]|(y & Bm & (c & Hc & F2) & Hl)]]; [destruct I|]. pose proof (Hl _ I) as Ey. cbn [fst] in Ey. subst y.
    destruct (A0 f x If Bm) as (c0 & Hc0 & Tx). assert (Iw : In w (map snd l)) by (apply in_map_iff; exists (x, w); auto). destruct (Forall2_in_r _ _ _ _ F2 Iw) as (v & Iv & Tw). apply values_in in Iv.
    assert (c = c0) by (eapply holds_same; [exact Hc|exact Hc0|eapply Ws; exact Tw|eapply As; apply Tx; exact Iv]). subst c0. exists v, c. auto.
Qed.
Lemma struct_kept path t p d a m fs n attrs kids o : SpecFit.names u P path t p (IStruct d a m fs) ->
  (forall x v, In (x, v) attrs -> exists f, In f fs /\ attribute_member f x) ->
  (forall f x, In f fs -> attribute_member f x -> exists c, holds u (rf_type f) c 1 /\ forall v, In (x, v) attrs -> atext x p c v) ->
  (forall k, In k kids -> exists f, In f fs /\ element_member f (inst_name k)) ->
  (forall f x, In f fs -> element_member f x -> exists c, holds u (rf_type f) c (number x kids) /\ forall k, In k kids -> inst_name k = x -> Q p c k) ->
  (forall f, In f fs -> exists x, attribute_member f x \/ element_member f x) ->
  WD path t (Inst n attrs kids []) o ->
  exists attrs' (pairs : list (inst * inst)), o = Inst n attrs' (map snd pairs) [] /\ attributes_same p attrs attrs' /\
    (forall y, those y (map fst pairs) = those y kids) /\
    (forall k o, In (k, o) pairs -> inst_name k = inst_name o) /\
    (forall k o, In (k, o) pairs -> exists c, Q p c k /\ WD p c k o).
Proof.
  intros Na A1 A0 K1 K2 Al Wr. assert (Apf : apart fs) by (eapply Ap, seen_placed; apply Na). pose proof Apf as [One Two].
  remember (Inst n attrs kids []) as i0 eqn:Ei. cases Wr; subst; [exfalso; eapply (library_free u P Un); eauto|..]; destruct (FitProofs2.names_same _ _ _ _ _ _ _ _ Na Na') as [E1 E2]; try discriminate E2; injection E2 as _ _ _ ->; subst p1.
  2:{ exfalso. destruct (members_named _ Al _ If') as (x & X). eapply flat_unnamed; eauto. }
  match goal with X : Inst _ _ _ _ = Inst _ _ _ _ |- _ => injection X as -> -> -> end. rename outs1 into outs. rename Ho' into Ho. clear Wr Na'.
  assert (Out : forall f, In f (map fst outs) -> exists l ks, In (f, (l, ks)) outs) by (intros f If; apply in_map_iff in If as ([f' [l ks]] & <- & I); eauto).
  assert (Fin : forall f l ks, In (f, (l, ks)) outs -> In f (map fst outs)) by (intros f l ks I; apply in_map_iff; exists (f, (l, ks)); auto).
  eexists. exists (concat (map (fun o : out => snd (snd o)) outs)). split; [reflexivity|]. split; [|split; [|split]].
  - apply (attributes_kept p _ attrs (fun f l => exists ks, In (f, (l, ks)) outs)) with (1 := Apf); auto.
    + intros f l (ks & Io). split; [eapply Fin; eauto|]. destruct (Ho _ _ _ Io) as (x & [(Bm & _ & X)|(Bm & -> & _)]); [right; exists x; tauto|left; split; auto]. intros y Ym. apply (proj1 Bm), (proj1 Ym).
    + intros b. split.
      * intros I. apply in_concat in I as (l & Il & I). apply in_map_iff in Il as ([f [l' ks]] & El & Io). cbn [fst snd] in El. subst l'. exists f, l. split; [exists ks|]; auto.
      * intros (f & l & (ks & Io) & I). apply in_concat. exists l. split; auto. apply in_map_iff. exists (f, (l, ks)). auto.
  - intros y. assert (Inc : forall k, In k (map fst (concat (map (fun o : out => snd (snd o)) outs))) -> In k kids).
    { intros k I. apply in_map_iff in I as ([k' o] & <- & I). apply in_concat in I as (ks & Ik & I). apply in_map_iff in Ik as ([f [l ks']] & Ek & Io). cbn [fst snd] in Ek. subst ks'. destruct (Ho _ _ _ Io) as (x & [(_ & -> & _)|(_ & _ & E & _)]); [destruct I|].
      assert (J : In k' (those x kids)) by (rewrite <- E; apply in_map_iff; exists (k', o); auto). unfold those in J. apply filter_In in J. apply J. }
    destruct (those y kids) as [|k0 r] eqn:Ey.
    + apply filter_nil. intros k I. apply not_true_iff_false. intros X. assert (J : In k (those y kids)) by (apply filter_In; auto). rewrite Ey in J. destruct J.
    + assert (I0 : In k0 (those y kids)) by (rewrite Ey; left; auto). apply filter_In in I0 as [I0 N0]. apply name_eqb_iff in N0. destruct (K1 k0 I0) as (f & If & Em). rewrite N0 in Em. destruct (Out f If) as (l & ks & Io).
      destruct (in_split _ _ Io) as (oa & ob & Eo). destruct (Ho _ _ _ Io) as (x & [(Bm & _)|(Bm & _ & E & _)]); [exfalso; apply (proj1 Em), (proj1 Bm)|].
      assert (x = y) by (eapply One; [exact If|apply Bm|apply Em]). subst x.
      assert (Other : forall l', incl l' outs -> (forall g l1 ks1, In (g, (l1, ks1)) l' -> ~ in_instance g y) -> those y (map fst (concat (map (fun o : out => snd (snd o)) l'))) = []).
      { intros l' Il Nl. apply filter_nil. intros k I. apply not_true_iff_false. intros X. apply name_eqb_iff in X. apply in_map_iff in I as ([k' o] & <- & I). apply in_concat in I as (ks1 & Ik & I). apply in_map_iff in Ik as ([g [l1 ks2]] & Ek & Ig). cbn [fst snd] in *. subst ks2.
        destruct (Ho _ _ _ (Il _ Ig)) as (x & [(_ & -> & _)|(Gm & _ & E1 & _)]); [destruct I|]. assert (J : In k' (those x kids)) by (rewrite <- E1; apply in_map_iff; exists (k', o); auto). unfold those in J. apply filter_In in J as [_ J]. apply name_eqb_iff in J.
        apply (Nl _ _ _ Ig). rewrite <- X, J. apply Gm. }
      rewrite Eo, map_app, concat_app, map_app, those_app. cbn [map List.concat fst snd]. rewrite map_app, those_app, E, those_same, (Other oa), (Other ob), app_nil_r; auto.
      * intros z I. rewrite Eo. apply in_or_app. right. right. auto.
      * intros g l1 ks1 Ig X. destruct (in_split _ _ Ig) as (o1 & o2 & ->). apply (Two (map fst oa) f (map fst o1) g (map fst o2) y); [|apply Bm|auto]. rewrite Eo, map_app. cbn [map fst]. rewrite map_app. reflexivity.
      * intros z I. rewrite Eo. apply in_or_app. auto.
      * intros g l1 ks1 Ig X. destruct (in_split _ _ Ig) as (o1 & o2 & ->). apply (Two (map fst o1) g (map fst o2) f (map fst ob) y); [|auto|apply Bm]. rewrite Eo, map_app, map_app. cbn [map fst]. rewrite <- app_assoc. reflexivity.
  - intros k o I. apply in_concat in I as (ks & Ik & I). apply in_map_iff in Ik as ([f [l ks']] & Ek & Io). cbn [fst snd] in Ek. subst ks'. destruct (Ho _ _ _ Io) as (x & [(_ & -> & _)|(_ & _ & _ & c & _ & Hw)]); [destruct I|].
    eapply wd_name. apply Hw. exact I.
  - intros k o I. apply in_concat in I as (ks & Ik & I). apply in_map_iff in Ik as ([f [l ks']] & Ek & Io). cbn [fst snd] in Ek. subst ks'. destruct (Ho _ _ _ Io) as (x & [(_ & -> & _)|(Bm & _ & E & c & Hc & Hw)]); [destruct I|].
    assert (J : In k (those x kids)) by (rewrite <- E; apply in_map_iff; exists (k, o); split; [reflexivity|exact I]). unfold those in J. apply filter_In in J as [J1 J2]. apply name_eqb_iff in J2.
    destruct (K2 f x (Fin _ _ _ Io) Bm) as (c' & Hc' & Hk). specialize (Hw k o I). assert (Qk := Hk k J1 J2).
    assert (c = c') by (eapply holds_same; [exact Hc|exact Hc'|eapply wd_second; exact Hw|eapply Qs; exact Qk]). subst c'. exists c. auto.
Qed.
Lemma flat_kept path t p d a m fs n attrs k f p' d' a' m' vs v c o : SpecFit.names u P path t p (IStruct d a m fs) ->
  (forall x y, In (x, y) attrs -> exists g, In g fs /\ attribute_member g x) ->
  (forall g x, In g fs -> attribute_member g x -> exists c, holds u (rf_type g) c 1 /\ forall v, In (x, v) attrs -> atext x p c v) ->
  In f fs -> argued f "flatten" None -> (forall g, In g fs -> g = f \/ exists x, attribute_member g x) ->
  SpecFit.names u P p (rf_type f) p' (IEnum d' a' m' vs) -> (forall w, In w vs -> variant_member w (inst_name k) -> w = v) -> va_type v = Some c -> Q p' c k ->
  WD path t (Inst n attrs [k] []) o ->
  exists attrs' k', o = Inst n attrs' [k'] [] /\ attributes_same p attrs attrs' /\ inst_name k = inst_name k' /\ WD p' c k k'.
Proof.
  intros Na A1 A0 If Fl Al Ne Vu Vt Qk Wr. assert (Sh : shape fs f) by (split; [exact If|split; [exact Fl|exact Al]]). assert (Apf : apart fs) by (eapply Ap, seen_placed; apply Na).
  remember (Inst n attrs [k] []) as i0 eqn:Ei. cases Wr; subst; [exfalso; eapply (library_free u P Un); eauto|..]; destruct (FitProofs2.names_same _ _ _ _ _ _ _ _ Na Na') as [E1 E2]; try discriminate E2; injection E2 as _ _ _ ->; subst p1.
  - exfalso. apply in_map_iff in If as ([g [l ks]] & <- & Ig). destruct (Ho' _ _ _ Ig) as (x & [(Bm & _)|(Bm & _)]); eapply flat_unnamed; eauto; apply Bm.
  - match goal with X : Inst _ _ _ _ = Inst _ _ _ _ |- _ => injection X as -> -> -> end. rewrite (shape_one _ _ _ Sh If' Fl') in *. destruct (FitProofs2.names_same _ _ _ _ _ _ _ _ Ne Ne') as [E3 E4]. injection E4 as -> -> -> ->. subst.
    rewrite (Vu _ Iv' Vm') in Vt'. assert (c1 = c) by congruence. subst c1. eexists. exists k1'. split; [reflexivity|]. split; [|split; [eapply wd_name; eauto|exact Wk']].
    apply (attributes_kept p _ attrs (fun g l => In (g, l) outs1)) with (1 := Apf); auto.
    + intros g Ig. apply in_map_iff in Ig as ([g' l] & <- & Ig). exists l. exact Ig.
    + intros g l Io. split; [apply in_map_iff; exists (g, l); auto|]. destruct (Ho' _ _ Io) as [[-> ->]|X]; [left|right; exact X]. split; auto. intros x X. eapply flat_unnamed; [exact Fl|apply X].
    + intros b. split.
      * intros I. apply in_concat in I as (l & Il & I). apply in_map_iff in Il as ([g l'] & El & Io). cbn [snd] in El. subst l'. exists g, l. auto.
      * intros (g & l & Io & I). apply in_concat. exists l. split; auto. apply in_map_iff. exists (g, l). auto.
Qed.
End Same.

Section NestSame.
Context (u : uni) (schema : node) (f0 f1 : rs_file) (its : list item).
Notation tns := (rf_target_ns f1).
Notation xsn := (rf_xsd_ns f1).
Notation own := (ns_prefix tns).
Notation xsd := (ns_prefix xsn).
Notation tid := (fun q => format_type_name u q xsn tns).
Notation ty := (SpecGen.ty u tid).
Notation ident := (format_name u).
Notation P := (concat (map (placed []) its)).
Context (O : ok_schema schema) (H : parse_schema u schema [] = Ok f0) (L : link f0 = Ok f1).
Context (Td : forall x, part x schema -> tidy_element x).
Context (Or : forall x, part x schema -> orderly u schema own xsd x).
Context (A : all_items u tns tid ident (variant_name u tns) (rf_types f1) its).
Context (Un : unshadowed P) (Ap : forall p d a m fs, In (p, IStruct d a m fs) P -> apart fs).
Context (makes : list str -> list token -> sref -> Prop).
Context (makes_named : forall q path, type_named schema own xsd q (Simple (Named q)) -> makes path (ty q) (Named q)).
Context (makes_within : forall d pn anc e nm path t p i r, part d schema -> tag "simpleType" d -> parse_node u d (pn :: anc) = Ok e ->
  SpecGen.items u tns tid ident (variant_name u tns) (set_name nm e) (i :: r) -> incl (concat (map (placed p) (i :: r))) P -> SpecFit.names u P path t p i -> makes path t (Within d)).
Context (V : sref -> str -> Prop) (text : list str -> list token -> str -> Prop).
Context (G1 : forall path t s x, makes path t s -> V s x -> text path t x) (Ts : forall path t x, text path t x -> second t).
Context (KA : node -> Prop).
Notation atype a := (ty (pick (attribute a (lit "type")) (attribute a (lit "ref")) (lit "String"))).
Context (GA : forall a p v, KA a -> (forall s, attribute_typed schema own xsd a s -> V s v) -> text p (atype a) v).
Context (wtext : list str -> list token -> str -> str -> Prop) (Ws : forall p c x y, wtext p c x y -> second c).
Context (W : sref -> str -> str -> Prop) (G2 : forall p c s x y, makes p c s -> V s x -> wtext p c x y -> W s x y).
Context (GA2 : forall a p v w, KA a -> (forall s, attribute_typed schema own xsd a s -> V s v) -> wtext p (atype a) v w -> same_attribute schema own xsd W a v w).
Notation WD := (written_deep u P wtext).
Notation same_deep := (same_deep schema own xsd W).
Definition same_goal (T : typ) (i : inst) (path : list str) (t : list token) : Prop := second t /\ forall o, WD path t i o -> same_deep T i o.
Lemma same_through T i : through_alias u its (same_goal T i).
Proof. intros path t p d m t' Na [S X]. split; [eapply seen_second; apply Na|]. intros o Wr. apply X. eapply (wd_alias u its Un); eauto. Qed.
(** A child, with the declaration of its element. *)
Definition child_goal (es : list node) (typing : node -> typ) (p : list str) (c : list token) (k : inst) : Prop :=
  second c /\ exists e, In e es /\ element_named schema own xsd e (inst_name k) /\ type_of schema own xsd e (typing e) /\ forall o, WD p c k o -> same_deep (typing e) k o.
Definition attribute_goal (r : list node) (x : qname) (p : list str) (c : list token) (v : str) : Prop :=
  second c /\ exists a, In a r /\ attribute_named schema own a x /\ forall w, wtext p c v w -> same_attribute schema own xsd W a v w.
Lemma child_through es typing k : through_alias u its (fun p c => child_goal es typing p c k).
Proof. intros path t p d m t' Na (S & e & Ie & En & To & X). split; [eapply seen_second; apply Na|]. exists e. split; auto. split; auto. split; auto. intros o Wr. apply X. eapply (wd_alias u its Un); eauto. Qed.
Lemma attribute_suits r : Forall KA r -> forall a x p v, In a r -> attribute_named schema own a x -> (forall s, attribute_typed schema own xsd a s -> V s v) -> attribute_goal r x p (atype a) v.
Proof. intros Kr a x p v Ia Na Hv. rewrite Forall_forall in Kr. split; [eapply Ts; apply (GA a p v); auto|]. exists a. split; auto. split; auto. intros w Tw. eapply GA2; eauto. Qed.
Lemma attributes_goal r p attrs attrs' : attributes_same wtext (attribute_goal r) p attrs attrs' ->
  (forall m v, In (m, v) attrs -> exists a w, In a r /\ attribute_named schema own a m /\ In (m, w) attrs' /\ same_attribute schema own xsd W a v w) /\
  (forall m w, In (m, w) attrs' -> exists a v, In a r /\ attribute_named schema own a m /\ In (m, v) attrs /\ same_attribute schema own xsd W a v w).
Proof.
  intros [X1 X2]. split.
  - intros m v I. destruct (X1 m v I) as (w & c & Iw & (_ & a & Ia & Na & Sa) & Tw). exists a, w. auto.
  - intros m w I. destruct (X2 m w I) as (v & c & Iv & (_ & a & Ia & Na & Sa) & Tw). exists a, v. auto.
Qed.
Lemma struct_same t es r typing n attrs kids : content_of schema own xsd t es r -> forall path tt p d a m fs, SpecFit.names u P path tt p (IStruct d a m fs) ->
  (forall x v, In (x, v) attrs -> exists f, In f fs /\ attribute_member f x) ->
  (forall f x, In f fs -> attribute_member f x -> exists c, holds u (rf_type f) c 1 /\ forall v, In (x, v) attrs -> attribute_goal r x p c v) ->
  (forall f x, In f fs -> attribute_member f x -> ~ In x (map fst attrs) -> exists c, rf_type f = rust u "Option<" ++ c ++ rust u ">") ->
  (forall k, In k kids -> exists f, In f fs /\ element_member f (inst_name k)) ->
  (forall f x, In f fs -> element_member f x -> exists c, holds u (rf_type f) c (number x kids) /\ forall k, In k kids -> inst_name k = x -> child_goal es typing p c k) ->
  (forall f, In f fs -> exists x, attribute_member f x \/ element_member f x) -> same_goal (Complex t) (Inst n attrs kids []) path tt.
Proof.
  intros Co path tt p d a m fs Na X1 X2 _ X4 X5 X6. split; [eapply seen_second; apply Na|]. intros o Wr.
  destruct (struct_kept u its Un Ap wtext Ws (child_goal es typing) (fun _ _ _ X => proj1 X) (attribute_goal r) (fun _ _ _ _ X => proj1 X) path tt p d a m fs n attrs kids o Na X1 X2 X4 X5 X6 Wr) as (attrs' & pairs & -> & At & Th & Nm & Ch).
  destruct (attributes_goal r p attrs attrs' At) as [A1 A2]. apply (same_deep_complex _ _ _ _ t es r); auto.
  intros k o I. destruct (Ch k o I) as (c & (_ & e & Ie & En & To & X) & Wk). exists e, (typing e). auto.
Qed.
Lemma nested_same T i : nested schema own xsd KA V T i -> meets u schema f0 f1 its makes (same_goal T i) T.
Proof.
  intros X. induction X as [sr n x Vx|n s gs r nm attrs parts typing C Kr Af Ar En Ety Ev IH|n d b s gs r nm attrs parts typing Rs C Kr Af Ar En Ety Ev IH|t c r n attrs l typing Cy At Kr Af Ar En Ty Ch IH].
  - apply (simple_meets u schema f0 f1 its O H L Td Or A Un makes makes_named makes_within V _ sr x); [apply same_through|exact Vx|..].
    + intros path s Is Mk. split; [apply library_second; auto|]. intros o Wr. destruct (wd_library u its Un wtext path s n x o Is Wr) as (y & -> & Ty). apply same_deep_simple. eapply G2; eauto.
    + intros path t p d a m c Na Mk. split; [eapply seen_second; apply Na|]. intros o Wr. destruct (wd_tuple u its Un wtext _ _ _ _ _ _ _ _ _ _ Na Wr) as (y & -> & Ty). apply same_deep_simple. eapply G2; eauto.
    + intros path t p d a m vs Na _ Mk. split; [eapply seen_second; apply Na|]. intros o Wr. destruct (wd_enum u its Un wtext _ _ _ _ _ _ _ _ _ _ Na Wr) as (y & -> & Ty). apply same_deep_simple. eapply G2; eauto.
  - apply (regular_meets u schema f0 f1 its O H L Td Or A Un makes makes_named makes_within V text G1 KA _ (child_goal (concat (map particles gs)) typing) (attribute_goal r) (same_through _ _) n s gs r attrs parts typing); auto; [apply attribute_suits; auto| |].
    + intros e k I Ie Te. eapply meets_mono; [|exact (IH e k I Te)]. intros path t [S X]. split; auto. exists e. split; auto. split; [apply En; auto|]. split; [apply (Ety e k I Te)|exact X].
    + apply struct_same. left. exists s, gs. auto.
  - apply (restricted_meets u schema f0 f1 its O H L Td Or A Un makes makes_named makes_within V text G1 KA GA _ (child_goal (concat (map particles (groups_of d))) typing) (attribute_goal (body_attributes d ++ SpecRestrict.kept (restated d) r)) (same_through _ _) n d b s gs r attrs parts typing); auto; [apply attribute_suits; auto| |].
    + intros e k I Ie Te. eapply meets_mono; [|exact (IH e k I Te)]. intros path t [S X]. split; auto. exists e. split; auto. split; [apply En; auto|]. split; [apply (Ety e k I Te)|exact X].
    + apply struct_same. right. left. exists d, b, s, gs, r. auto.
  - apply (choice_meets u schema f0 f1 its O H L Td Or A Un makes makes_named V _ (child_goal (particles c) typing) (attribute_goal r) t c r attrs l typing); auto; [apply attribute_suits; auto|intros k; apply child_through| |].
    + intros e k I Ie. eapply meets_mono; [|exact (IH e k I)]. intros path t0 [S X]. split; auto. exists e. split; auto. split; [apply En; auto|]. split; [apply (Ty e k I)|exact X].
    + intros path t0 k p d a m fs f p' d' a' m' vs v c' -> Na X1 X2 _ If Fl Al Ne _ Iv Vm Vu Vt Qk. split; [eapply seen_second; apply Na|]. intros o Wr.
      destruct (flat_kept u its Un Ap wtext Ws (child_goal (particles c) typing) (attribute_goal r) (fun _ _ _ _ X => proj1 X) path t0 p d a m fs n attrs k f p' d' a' m' vs v c' o Na X1 X2 If Fl Al Ne Vu Vt Qk Wr) as (attrs' & k' & -> & Asm & Nm & Wk).
      destruct (attributes_goal r p attrs attrs' Asm) as [A1 A2]. change [k'] with (map snd [(k, k')]). apply (same_deep_complex _ _ _ _ t (particles c) r); auto.
      * right. right. exists c. auto.
      * intros ? ? [[= <- <-]|[]]. exact Nm.
      * intros ? ? [[= <- <-]|[]]. destruct Qk as (_ & e & Ie & Enm & To & X). exists e, (typing e). auto.
Qed.
End NestSame.

(** The declarations of attributes that occur are not references to attributes without a type
    ([own_attributes] of C75). *)
Definition own_attribute (a : node) : Prop := present a "type" \/ absent a "ref".

(** C86 with the values of C75: let the texts of an instance of nested kinds of types be literals
    of simple types the generated code is right about.  Then each text is read, where the generated
    types hold it, as exactly one value, which passes the checks of its type; and what was read can
    be written. *)
Theorem C86_values : forall A lexical order size pattern digits lib_read lib_show lib_cmp lib_len,
  (forall a b c, order a b = Some c -> lib_cmp a b = Some c) ->
  (forall x, exists a, lib_read "String" x = Some a /\ lib_show "String" a = x) ->
  forall u roots schema f its, document roots schema -> ok_schema schema -> tidy schema -> parse u roots = Ok f ->
  (forall x, part x schema -> orderly u schema (ns_prefix (rf_target_ns f)) (ns_prefix (rf_xsd_ns f)) x) ->
  separate_types schema (type_name_of u f) (format_name u) -> file_items u f (rf_types f) its ->
  let own := ns_prefix (rf_target_ns f) in let xsd := ns_prefix (rf_xsd_ns f) in
  let P := concat (map (placed []) its) in
  let handled := handled A lexical order size pattern digits u lib_read lib_show lib_len schema own xsd in
  let fits := fits_deep u P (understood A u lib_read lib_cmp lib_len P) in
  let written := written_deep u P (shown_again A u lib_read lib_show P) in
  forall T i path t, nested schema own xsd own_attribute handled T i ->
    (exists q, type_named schema own xsd q T /\ regular_type xsd q /\ t = type_name_of u f q) \/
    (exists l d, SpecFit.declared schema "element" l d /\ absent d "ref" /\ absent d "type" /\ type_of schema own xsd d T /\
       (forall t c, T = Complex t -> ~ choice_type schema own xsd t c) /\ t = type_name_of u f l) ->
    fits path t i /\ exists o, written path t i o.
Proof.
  intros A lexical order size pattern digits lib_read lib_show lib_cmp lib_len Cmp Str u roots schema f its Do O T H Or Sep It own xsd P handled ft wr Ty i path t N Ht.
  assert (Dt := document_distinct u roots schema f its Do O T H Or Sep It). assert (Un := distinct_unshadowed _ Dt).
  assert (Uv : forall p m ks ks', In (p, IValidate m ks) P -> In (p, IValidate m ks') P -> ks = ks') by (apply one_validate, Dt).
  destruct Do as (a & b & -> & E & L). destruct (parse_document u (a ++ schema :: b)) as [PD _].
  destruct (proj1 (proj1 (PD a schema b eq_refl E L) f) H) as (f0 & Hp & Hl). clear PD.
  set (good := good A lexical order size pattern digits lib_read lib_show lib_cmp lib_len u its).
  set (regular_simple := SpecValue.regular_simple A lexical order size pattern digits u lib_read lib_show).
  set (makes := fun path t s => forall T, simple_is schema own xsd s T -> regular_simple T -> good path t T).
  assert (All : forall T, regular_simple T -> good_ref A lexical order size pattern digits lib_read lib_show lib_cmp lib_len u schema f its T /\ good_node A lexical order size pattern digits lib_read lib_show lib_cmp lib_len u schema f its T).
  { intros T0. apply (proj1 (all_good A lexical order size pattern digits lib_read lib_show lib_cmp lib_len Cmp u schema f0 f its O Hp Hl (proj1 T) Or It Un Uv T0)). }
  set (ty := SpecGen.ty u (fun q => format_type_name u q (rf_xsd_ns f) (rf_target_ns f))).
  assert (makes_named : forall q path, type_named schema own xsd q (Simple (Named q)) -> makes path (ty q) (Named q)) by (intros q p _ T0 Is Rg; apply (All T0 Rg); auto).
  assert (makes_within : forall d pn anc e nm path t p i r, part d schema -> tag "simpleType" d -> parse_node u d (pn :: anc) = Ok e ->
    items u (rf_target_ns f) (fun q => format_type_name u q (rf_xsd_ns f) (rf_target_ns f)) (format_name u) (variant_name u (rf_target_ns f)) (set_name nm e) (i :: r) ->
    incl (concat (map (placed p) (i :: r))) P -> SpecFit.names u P path t p i -> makes path t (Within d)).
  { intros d pn anc e nm p c p' j r Pd Td' Hd Hi Ic Na T0 Is Rg. eapply (All T0 Rg); eauto. }
  set (G1 := understood A u lib_read lib_cmp lib_len P).
  assert (H1 : forall p c s x, makes p c s -> handled s x -> G1 p c x).
  { intros p c s x Mk (T0 & v & Is & Rg & Pl & De & Sp & Al). destruct (Mk T0 Is Rg) as (_ & _ & G & _). destruct (G x v De Sp Al) as (w & Rd & Ac & _). exists w. split; auto. split; auto. intros w' Rd'. symmetry. eapply (reads_unique A lib_read u P Un); eauto. }
  assert (HA : forall b p v, own_attribute b -> (forall s, attribute_typed schema own xsd b s -> handled s v) -> G1 p (ty (pick (attribute b (lit "type")) (attribute b (lit "ref")) (lit "String"))) v).
  { intros b0 p v Kb Hv. unfold own_attribute, present, has, absent in Kb. destruct (attribute b0 (lit "type")) as [q|] eqn:Hq.
    2:{ destruct Kb as [(? & Kb)|Kb]; [discriminate|]. rewrite Kb. cbn [pick]. unfold ty. rewrite string_text. destruct (Str v) as (w & Rd & _). exists (RLib A "String" w).
        assert (Y : reads A u P lib_read p (rust u "String") v (RLib A "String" w)) by (apply reads_library; auto; left; auto). split; auto. split; [intros w' Rd'; symmetry; eapply (reads_unique A lib_read u P Un); eauto|]. apply accepts_library. left. auto. }
    cbn [pick]. apply (H1 p (ty q) (Named q)); [intros T0 Is Rg; apply (All T0 Rg); auto|]. apply Hv. apply ay_named. auto. }
  assert (Ft : ft path t i).
  { destruct (nested_deep u schema f0 f its O Hp Hl (proj1 T) Or It Un makes makes_named makes_within handled G1 H1 own_attribute HA Ty i N) as [D1 D2].
    destruct Ht as [(q & Tn & Rt & ->)|(l & d & De & Ar & At & To & Nc & ->)]; [apply D2; auto|].
    destruct (nested_cases schema f _ _ Ty i N) as [Pt|(t & c & -> & Cy)]; [|destruct (Nc t c eq_refl Cy)]. apply D1; auto. eapply start_goal; eauto; [apply T|]. right. exists l, d. auto. }
  split; [exact Ft|]. apply (deep_written u P G1); [|exact Ft]. intros p c x (v & Rd & _). exists (shown A lib_show v). exists v. auto.
Qed.
Print Assumptions C86_values.

(** And whatever is written of it holds the same values: the same attributes, each with a text of
    the same value; for each name the same children in the same order; and so on inside them.
    Where the type is a union only that the texts belong to it (see C75). *)
Theorem C86_same_values : forall A lexical order size pattern digits lib_read lib_show lib_cmp lib_len,
  (forall a b c, order a b = Some c -> lib_cmp a b = Some c) ->
  (forall x, exists a, lib_read "String" x = Some a /\ lib_show "String" a = x) ->
  forall u roots schema f its, document roots schema -> ok_schema schema -> tidy schema -> parse u roots = Ok f ->
  (forall x, part x schema -> orderly u schema (ns_prefix (rf_target_ns f)) (ns_prefix (rf_xsd_ns f)) x) ->
  separate_types schema (type_name_of u f) (format_name u) -> separate_members schema u (format_name u) (variant_name u (rf_target_ns f)) -> file_items u f (rf_types f) its ->
  let own := ns_prefix (rf_target_ns f) in let xsd := ns_prefix (rf_xsd_ns f) in
  let P := concat (map (placed []) its) in
  let handled := handled A lexical order size pattern digits u lib_read lib_show lib_len schema own xsd in
  let same_value := same_value A lexical order size pattern digits schema own xsd in
  let written := written_deep u P (shown_again A u lib_read lib_show P) in
  forall T i path t, nested schema own xsd own_attribute handled T i ->
    (exists q, type_named schema own xsd q T /\ regular_type xsd q /\ t = type_name_of u f q) \/
    (exists l d, SpecFit.declared schema "element" l d /\ absent d "ref" /\ absent d "type" /\ type_of schema own xsd d T /\
       (forall t c, T = Complex t -> ~ choice_type schema own xsd t c) /\ t = type_name_of u f l) ->
    forall o, written path t i o -> same_deep schema own xsd same_value T i o.
Proof.
  intros A lexical order size pattern digits lib_read lib_show lib_cmp lib_len Cmp Str u roots schema f its Do O T H Or Sep Sm It own xsd P handled same_value wr Ty i path t N Ht.
  assert (Dt := document_distinct u roots schema f its Do O T H Or Sep It). assert (Un := distinct_unshadowed _ Dt).
  assert (Dm := C67_members u roots schema f its Do O T H Or Sm It). pose proof (items_apart _ _ _ _ _ _ It Dm) as Ap.
  assert (Uv : forall p m ks ks', In (p, IValidate m ks) P -> In (p, IValidate m ks') P -> ks = ks') by (apply one_validate, Dt).
  destruct Do as (a & b & -> & E & L). destruct (parse_document u (a ++ schema :: b)) as [PD _].
  destruct (proj1 (proj1 (PD a schema b eq_refl E L) f) H) as (f0 & Hp & Hl). clear PD.
  set (good := good A lexical order size pattern digits lib_read lib_show lib_cmp lib_len u its).
  set (regular_simple := SpecValue.regular_simple A lexical order size pattern digits u lib_read lib_show).
  set (makes := fun path t s => forall T, simple_is schema own xsd s T -> regular_simple T -> good path t T).
  assert (All : forall T, regular_simple T -> good_ref A lexical order size pattern digits lib_read lib_show lib_cmp lib_len u schema f its T /\ good_node A lexical order size pattern digits lib_read lib_show lib_cmp lib_len u schema f its T).
  { intros T0. apply (proj1 (all_good A lexical order size pattern digits lib_read lib_show lib_cmp lib_len Cmp u schema f0 f its O Hp Hl (proj1 T) Or It Un Uv T0)). }
  set (ty := SpecGen.ty u (fun q => format_type_name u q (rf_xsd_ns f) (rf_target_ns f))).
  assert (makes_named : forall q path, type_named schema own xsd q (Simple (Named q)) -> makes path (ty q) (Named q)) by (intros q p _ T0 Is Rg; apply (All T0 Rg); auto).
  assert (makes_within : forall d pn anc e nm path t p i r, part d schema -> tag "simpleType" d -> parse_node u d (pn :: anc) = Ok e ->
    items u (rf_target_ns f) (fun q => format_type_name u q (rf_xsd_ns f) (rf_target_ns f)) (format_name u) (variant_name u (rf_target_ns f)) (set_name nm e) (i :: r) ->
    incl (concat (map (placed p) (i :: r))) P -> SpecFit.names u P path t p i -> makes path t (Within d)).
  { intros d pn anc e nm p c p' j r Pd Td' Hd Hi Ic Na T0 Is Rg. eapply (All T0 Rg); eauto. }
  set (G1 := understood A u lib_read lib_cmp lib_len P).
  assert (H1 : forall p c s x, makes p c s -> handled s x -> G1 p c x).
  { intros p c s x Mk (T0 & v & Is & Rg & Pl & De & Sp & Al). destruct (Mk T0 Is Rg) as (_ & _ & G & _). destruct (G x v De Sp Al) as (w & Rd & Ac & _). exists w. split; auto. split; auto. intros w' Rd'. symmetry. eapply (reads_unique A lib_read u P Un); eauto. }
  assert (HA : forall b p v, own_attribute b -> (forall s, attribute_typed schema own xsd b s -> handled s v) -> G1 p (ty (pick (attribute b (lit "type")) (attribute b (lit "ref")) (lit "String"))) v).
  { intros b0 p v Kb Hv. unfold own_attribute, present, has, absent in Kb. destruct (attribute b0 (lit "type")) as [q|] eqn:Hq.
    2:{ destruct Kb as [(? & Kb)|Kb]; [discriminate|]. rewrite Kb. cbn [pick]. unfold ty. rewrite string_text. destruct (Str v) as (w & Rd & _). exists (RLib A "String" w).
        assert (Y : reads A u P lib_read p (rust u "String") v (RLib A "String" w)) by (apply reads_library; auto; left; auto). split; auto. split; [intros w' Rd'; symmetry; eapply (reads_unique A lib_read u P Un); eauto|]. apply accepts_library. left. auto. }
    cbn [pick]. apply (H1 p (ty q) (Named q)); [intros T0 Is Rg; apply (All T0 Rg); auto|]. apply Hv. apply ay_named. auto. }
  set (G2 := shown_again A u lib_read lib_show P).
  assert (H2 : forall p c s x y, makes p c s -> handled s x -> G2 p c x y -> same_value s x y).
  { intros p c s x y Mk (T0 & v & Is & Rg & Pl & De & Sp & Al) (w' & Rd' & ->). destruct (Mk T0 Is Rg) as (_ & _ & G & _). destruct (G x v De Sp Al) as (w & Rd & Ac & St). destruct (St Pl) as (v' & De' & Ev).
    assert (w' = w) as -> by (symmetry; eapply (reads_unique A lib_read u P Un); eauto). exists T0, v, v'. split; auto. split; auto. split; auto. intros Nu. symmetry. auto. }
  assert (HA2 : forall b p v w, own_attribute b -> (forall s, attribute_typed schema own xsd b s -> handled s v) -> G2 p (ty (pick (attribute b (lit "type")) (attribute b (lit "ref")) (lit "String"))) v w -> same_attribute schema own xsd same_value b v w).
  { intros b0 p v w Kb Hv Hw. unfold own_attribute, present, has, absent in Kb. destruct (attribute b0 (lit "type")) as [q|] eqn:Hq.
    2:{ destruct Kb as [(? & Kb)|Kb]; [discriminate|]. rewrite Kb in Hw. cbn [pick] in Hw. unfold ty in Hw. rewrite string_text in Hw. destruct Hw as (w' & Rd & ->).
        destruct (library_reads A lib_read u its Un "String" _ _ _ (or_introl eq_refl) Rd) as (a0 & -> & Rl). destruct (Str v) as (a1 & Rl1 & Sh). assert (a1 = a0) as -> by congruence. cbn [shown]. rewrite Sh. left. reflexivity. }
    fold (has b0 "type" q) in Hq. cbn [pick] in Hw. right. exists (Named q). split; [apply ay_named; auto|]. apply (H2 p (ty q)); [intros T0 Is Rg; apply (All T0 Rg); auto| |exact Hw]. apply Hv, ay_named; auto. }
  assert (T1 : forall p c x, G1 p c x -> second c) by (intros p c x (v & Rd & _); eapply reads_second; eauto).
  assert (T2 : forall p c x y, G2 p c x y -> second c) by (intros p c x y (v & Rd & _); eapply reads_second; eauto).
  assert (Sg : same_goal u schema f its G2 same_value Ty i path t); [|apply Sg].
  destruct (nested_same u schema f0 f its O Hp Hl (proj1 T) Or It Un Ap makes makes_named makes_within handled G1 H1 T1 own_attribute HA G2 T2 same_value H2 HA2 Ty i N) as [D1 D2].
  destruct Ht as [(q & Tn & Rt & ->)|(l & d & De & Ar & At & To & Nc & ->)]; [apply D2; auto|].
  destruct (nested_cases schema f _ _ Ty i N) as [Pt|(t & c & -> & Cy)]; [|destruct (Nc t c eq_refl Cy)]. apply D1; auto. eapply start_goal; eauto; [apply T|]. right. exists l, d. auto.
Qed.
Print Assumptions C86_same_values.

(** ** With the library types of the repository *)
Lemma attributes_both schema own xsd (V V' : sref -> str -> Prop) r attrs : (forall s x, V s x -> V' s x) -> attributes_fit schema own xsd V r attrs -> attributes_fit schema own xsd V' r attrs.
Proof. intros J [A1 A2]. split; auto. intros n v I. destruct (A1 n v I) as (a & Ia & Na & Np & Hv). exists a. split; [exact Ia|]. split; [exact Na|]. split; [exact Np|]. intros s At. apply J, Hv, At. Qed.
Lemma nested_mono schema own xsd (B : node -> Prop) (V V' : sref -> str -> Prop) T i : (forall s x, V s x -> V' s x) -> nested schema own xsd B V T i -> nested schema own xsd B V' T i.
Proof.
  intros J X. induction X; [apply nested_simple; auto|eapply nested_regular; eauto|eapply nested_restricted; eauto|eapply nested_choice; eauto]; eapply attributes_both; eauto.
Qed.
Theorem C86_library : forall lo hi chk words text_cmp pattern digits u roots schema f its, chrono_years lo hi ->
  document roots schema -> ok_schema schema -> tidy schema -> parse u roots = Ok f ->
  (forall x, part x schema -> orderly u schema (ns_prefix (rf_target_ns f)) (ns_prefix (rf_xsd_ns f)) x) ->
  separate_types schema (type_name_of u f) (format_name u) -> file_items u f (rf_types f) its ->
  let own := ns_prefix (rf_target_ns f) in let xsd := ns_prefix (rf_xsd_ns f) in
  let P := concat (map (placed []) its) in
  let fits := fits_deep u P (understood atom u (library_read lo hi chk) (library_cmp text_cmp) library_len P) in
  let written := written_deep u P (shown_again atom u (library_read lo hi chk) (library_show chk) P) in
  forall T i path t, nested schema own xsd own_attribute (plain_text words pattern digits u schema own xsd) T i ->
    (exists q, type_named schema own xsd q T /\ regular_type xsd q /\ t = type_name_of u f q) \/
    (exists l d, SpecFit.declared schema "element" l d /\ absent d "ref" /\ absent d "type" /\ type_of schema own xsd d T /\
       (forall t c, T = Complex t -> ~ choice_type schema own xsd t c) /\ t = type_name_of u f l) ->
    fits path t i /\ exists o, written path t i o.
Proof.
  intros lo hi chk words text_cmp pattern digits u roots schema f its Y Do O Td H Or Sep It own xsd P ft wr T i path t N Ht.
  apply (C86_values atom (text words) atom_order atom_size pattern digits (library_read lo hi chk) (library_show chk) (library_cmp text_cmp) library_len
    (library_cmp_order text_cmp) (library_string lo hi chk) u roots schema f its Do O Td H Or Sep It T i path t); [|exact Ht].
  eapply nested_mono; [|exact N]. intros s x (T0 & v & A & B & C & D & E & F). exists T0, v. split; [exact A|]. split; [apply plain_regular; auto|]. auto.
Qed.
Print Assumptions C86_library.
Theorem C86_library_same : forall lo hi chk words pattern digits u roots schema f its, chrono_years lo hi ->
  document roots schema -> ok_schema schema -> tidy schema -> parse u roots = Ok f ->
  (forall x, part x schema -> orderly u schema (ns_prefix (rf_target_ns f)) (ns_prefix (rf_xsd_ns f)) x) ->
  separate_types schema (type_name_of u f) (format_name u) -> separate_members schema u (format_name u) (variant_name u (rf_target_ns f)) -> file_items u f (rf_types f) its ->
  let own := ns_prefix (rf_target_ns f) in let xsd := ns_prefix (rf_xsd_ns f) in
  let P := concat (map (placed []) its) in
  let same_value := same_value atom (text words) atom_order atom_size pattern digits schema own xsd in
  let written := written_deep u P (shown_again atom u (library_read lo hi chk) (library_show chk) P) in
  forall T i path t, nested schema own xsd own_attribute (plain_text words pattern digits u schema own xsd) T i ->
    (exists q, type_named schema own xsd q T /\ regular_type xsd q /\ t = type_name_of u f q) \/
    (exists l d, SpecFit.declared schema "element" l d /\ absent d "ref" /\ absent d "type" /\ type_of schema own xsd d T /\
       (forall t c, T = Complex t -> ~ choice_type schema own xsd t c) /\ t = type_name_of u f l) ->
    forall o, written path t i o -> same_deep schema own xsd same_value T i o.
Proof.
  intros lo hi chk words pattern digits u roots schema f its Y Do O Td H Or Sep Sm It own xsd P same_value wr T i path t N Ht.
  apply (C86_same_values atom (text words) atom_order atom_size pattern digits (library_read lo hi chk) (library_show chk) (library_cmp (fun _ _ => None)) library_len
    (library_cmp_order (fun _ _ => None)) (library_string lo hi chk) u roots schema f its Do O Td H Or Sep Sm It T i path t); [|exact Ht].
  eapply nested_mono; [|exact N]. intros s x (T0 & v & A & B & C & D & E & F). exists T0, v. split; [exact A|]. split; [apply plain_regular; auto|]. auto.
Qed.
Print Assumptions C86_library_same.

(** ** The party, with its values *)
Notation plain_parties := (plain_text all_texts every no_digits u2 parties tt xs).
Lemma party_string x : plain_parties (Named (lit "xs:string")) (lit x).
Proof. plain_builtin "string". exists (VText (lit x)). split; [|reflexivity]. split; [|exact Logic.I]. apply l_text; [left; vm_compute; tauto|exact Logic.I]. Qed.
Lemma party_int n z : num n z -> z <= 2147483647 -> plain_parties (Named (lit "xs:int")) n.
Proof.
  intros Hn L. plain_builtin "int". eexists. split; [|reflexivity]. split.
  - apply (l_integer _ _ _ (Some (-2147483648)%Z) (Some 2147483647%Z) (Z.of_N z)); [vm_compute; tauto| |split; lia]. apply xsd_int_plain; auto.
  - intros lo hi t I _. cbn [In xsd_builtins] in I. vm_compute in I. repeat (destruct I as [I|I]; [try discriminate I; injection I as <- <-; exact eq_refl|]). destruct I.
Qed.
Example C86_ex6 : nested parties tt xs own_attribute plain_parties (Complex party) a_party.
Proof.
  apply party_nested.
  - intros a Pa. left. exact Pa.
  - apply party_string.
  - intros x [<-|[<-|[]]]; [apply (party_int _ 1)|apply (party_int _ 17)]; first [number|lia].
Qed.
(** Its numbers are read as numbers, and it can be written. *)
Example C86_ex7 : forall lo hi chk text_cmp f its path, chrono_years lo hi -> parse u2 [parties] = Ok f -> file_items u2 f (rf_types f) its ->
  let P := concat (map (placed []) its) in
  fits_deep u2 P (understood atom u2 (library_read lo hi chk) (library_cmp text_cmp) library_len P) path (rust u2 "Party") a_party /\
  exists o, written_deep u2 P (shown_again atom u2 (library_read lo hi chk) (library_show chk) P) path (rust u2 "Party") a_party o.
Proof.
  intros lo hi chk text_cmp f its path Y Hf Hi P. destruct C86_ex1 as (D & O & T & _ & Or). assert (Ef : ns_prefix (rf_target_ns f) = tt /\ ns_prefix (rf_xsd_ns f) = xs /\ type_name_of u2 f (lit "tt:Party") = rust u2 "Party" /\
    separate_types parties (type_name_of u2 f) (format_name u2)).
  { vm_compute in Hf. injection Hf as <-. split; [reflexivity|]. split; [reflexivity|]. split; [vm_compute; reflexivity|]. apply (separate_types_check _ _ _ 3). vm_compute. reflexivity. }
  destruct Ef as (E1 & E2 & E3 & Se). apply (C86_library lo hi chk all_texts text_cmp every no_digits u2 [parties] parties f its Y D O T Hf) with (T := Complex party); rewrite ?E1, ?E2; auto.
  - apply C86_ex6.
  - left. exists (lit "tt:Party"). split; [|split; [apply regular_typeb_ok; reflexivity|symmetry; exact E3]]. eapply tn_complex; [apply own_local_iff; reflexivity|]. split; [do 3 right; left; reflexivity|split; reflexivity].
Qed.
(** And what is written of it holds the same values. *)
Example C86_ex8 : forall lo hi chk f its path o, chrono_years lo hi -> parse u2 [parties] = Ok f -> file_items u2 f (rf_types f) its ->
  let P := concat (map (placed []) its) in
  written_deep u2 P (shown_again atom u2 (library_read lo hi chk) (library_show chk) P) path (rust u2 "Party") a_party o ->
  same_deep parties tt xs (same_value atom (text all_texts) atom_order atom_size every no_digits parties tt xs) (Complex party) a_party o.
Proof.
  intros lo hi chk f its path o Y Hf Hi P Wr. destruct C86_ex1 as (D & O & T & _ & Or). assert (Ef : ns_prefix (rf_target_ns f) = tt /\ ns_prefix (rf_xsd_ns f) = xs /\ type_name_of u2 f (lit "tt:Party") = rust u2 "Party" /\
    separate_types parties (type_name_of u2 f) (format_name u2) /\ separate_members parties u2 (format_name u2) (variant_name u2 (rf_target_ns f))).
  { vm_compute in Hf. injection Hf as <-. split; [reflexivity|]. split; [reflexivity|]. split; [vm_compute; reflexivity|]. split; [apply (separate_types_check _ _ _ 3)|apply (separate_members_check _ _ _ _ 3)]; vm_compute; reflexivity. }
  destruct Ef as (E1 & E2 & E3 & Se & Sm). assert (X := C86_library_same lo hi chk all_texts every no_digits u2 [parties] parties f its Y D O T Hf). rewrite E1, E2 in X.
  apply (X Or Se Sm Hi (Complex party) a_party path (rust u2 "Party")); [apply C86_ex6| |exact Wr].
  left. exists (lit "tt:Party"). split; [|split; [apply regular_typeb_ok; reflexivity|symmetry; exact E3]]. eapply tn_complex; [apply own_local_iff; reflexivity|]. split; [do 3 right; left; reflexivity|split; reflexivity].
Qed.
