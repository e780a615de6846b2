(** Property theorem C88: writing and reading reach a fixed point, with values. *)
From Coq Require Import Arith NArith ZArith Bool Ascii String List Permutation Lia.
From Verif Require Import Str StrFacts SpecLex SpecNames SpecBuiltin Serde SpecSerde SerdeProofs Xml Names NamesProofs Entity Parser SpecSchema SpecLink Link LinkProofs Gen SpecRust SpecGen GenProofs SpecCheck SpecDoc DocProofs SpecScope SpecTraits SpecSize SizeProofs ScopeProofs SpecDistinct SpecFit SpecRestrict SpecWrite SpecValue SpecTrip SpecLibrary SpecChoice SpecFlat SpecNest ParserFacts DistinctProofs2 FitProofs FitProofs2 ValueProofs TripProofs ValueLib LibraryProofs PropsParser PropsLink PropsGen PropsDoc PropsScope PropsTraits PropsSize PropsDistinct PropsMembers PropsFit PropsWrite PropsRestrict PropsChoice PropsAlike PropsFlat PropsValue PropsLibrary PropsTrip PropsNest PropsDeep PropsNestValue.
Import ListNotations.
Local Open Scope string_scope.
Local Open Scope list_scope.
Local Open Scope N_scope.
Notation concat := List.concat.
Notation atom := SpecLibrary.atom.
Notation values := SpecWrite.values.

Section Settle.
Context (u : uni) (its : list item).
Notation P := (concat (map (placed []) its)).
Context (Un : unshadowed P) (Ap : forall p d a m fs, In (p, IStruct d a m fs) P -> apart fs).
Context (wtext : list str -> list token -> str -> str -> Prop) (Ws : forall p c x y, wtext p c x y -> second c).
Notation WD := (written_deep u P wtext).
Notation out := (rfield * (list (qname * str) * list (inst * inst)))%type.
Notation outl := (rfield * list (qname * str))%type.
Ltac cases Wr := inversion Wr as [? l' ? ? ? Is' Ty'|? ? ? ? ? ? ? ? Na' W'|? ? ? ? ? ? ? ? ? ? Na' Ty'|? ? ? ? ? ? ? ? ? ? Na' Te' Ty'|? ? p1 d1 a1 m1 fs1 n1 attrs1 kids1 outs1 Na' Ef' Ho'|? ? p1 d1 a1 m1 fs1 n1 attrs1 k1 k1' outs1 f1 p1' d1' a1' m1' vs1 v1 c1 Na' Ef' If' Fl' Ho' Ne' Cd' Iv' Vm' Vu' Vt' Wk'].

(** ** What is written is written again unchanged, if texts are *)
Lemma Forall2_again {X} (R : X -> X -> Prop) l m : (forall x y, R x y -> R y y) -> Forall2 R l m -> Forall2 R m m.
Proof. intros S. induction 1; constructor; eauto. Qed.
(** The attributes that are written for a member. *)
Lemma values_picked (L : list outl) g l x : apart (map fst L) -> In (g, l) L -> attribute_member g x ->
  (forall g l, In (g, l) L -> l = [] \/ exists y, attribute_member g y /\ forall b, In b l -> fst b = y) -> values x (concat (map snd L)) = map snd l.
Proof.
  intros [One Two] Il Am Ho. unfold values. destruct (in_split _ _ Il) as (oa & ob & Eo).
  assert (Hl : forall b, In b l -> fst b = x).
  { destruct (Ho _ _ Il) as [->|(y & Bm & Hl)]; [intros b []|]. assert (y = x) by (eapply One; [apply in_map_iff; exists (g, l); split; [reflexivity|exact Il]|apply Bm|apply Am]). subst y. auto. }
  rewrite Eo, (picked fst (@snd rfield (list (qname * str))) x oa (g, l) ob); auto.
  intros [g1 l1] b Ig Ib Eb. cbn [snd] in Ib. assert (Io1 : In (g1, l1) L) by (rewrite Eo; apply in_app_or in Ig as [Ig|Ig]; apply in_or_app; [left|right; right]; auto).
  destruct (Ho _ _ Io1) as [->|(y & Bm & Hl1)]; [destruct Ib|]. pose proof (Hl1 _ Ib) as Ey. assert (Ex : y = x) by congruence. rewrite Ex in Bm.
  apply in_app_or in Ig as [Ig|Ig]; destruct (in_split _ _ Ig) as (o1 & o2 & Eg); rewrite Eg in Eo.
  - apply (Two (map fst o1) g1 (map fst o2) g (map fst ob) x); [|apply Bm|apply Am]. rewrite Eo, map_app, map_app. cbn [map fst]. rewrite <- app_assoc. reflexivity.
  - apply (Two (map fst oa) g (map fst o1) g1 (map fst o2) x); [|apply Am|apply Bm]. rewrite Eo, map_app. cbn [map fst]. rewrite map_app. reflexivity.
Qed.
Lemma those_pairs x (l : list (inst * inst)) : those x (map snd l) = map snd (filter (fun b : inst * inst => name_eqb (inst_name (snd b)) x) l).
Proof. unfold those. induction l as [|[k o] l IHl]; auto. cbn [map filter snd]. destruct (name_eqb (inst_name o) x); cbn [map snd]; congruence. Qed.
Lemma deep_settle : (forall p c x y, wtext p c x y -> wtext p c y y) -> forall path t i o, WD path t i o -> WD path t o o.
Proof.
  intros Wy. fix IH 5. intros path t i o Wr. destruct Wr as [path s n x y Is Ty|path t p d m t' i o Na Wr|path t p d a m c n x y Na Ty|path t p d a m vs n x y Na Te Ty|path t p d a m fs n attrs kids outs Na Ef Hr|path t p d a m fs n attrs k k' outs f p' d' a' m' vs v c Na Ef If Fl Hr Ne Cd Iv Vm Vu Vt Wk].
  - apply writes_library; eauto.
  - eapply writes_alias; [exact Na|]. exact (IH _ _ _ _ Wr).
  - eapply writes_tuple; eauto.
  - eapply writes_enum; eauto.
  - assert (Apf : apart fs) by (eapply Ap, seen_placed; apply Na). pose proof Apf as [One Two].
    assert (Each : forall f l ks, In (f, (l, ks)) outs -> forall x, element_member f x -> exists c, holds u (rf_type f) c (number x kids) /\ forall k o, In (k, o) ks -> WD p c o o).
    { intros f l ks Io x Em. assert (If : In f fs) by (rewrite <- Ef; apply in_map_iff; exists (f, (l, ks)); split; [reflexivity|exact Io]).
      destruct (Hr _ _ _ Io) as (y & [(Bm & _)|(Bm & _ & _ & c & Hc & Hw)]); [exfalso; apply (proj1 Em), (proj1 Bm)|]. assert (y = x) by (eapply One; [exact If|apply Bm|apply Em]). subst y.
      exists c. split; [exact Hc|]. intros k o I. exact (IH _ _ _ _ (Hw k o I)). }
    clear IH.
    assert (Own : forall f l ks x, In (f, (l, ks)) outs -> in_instance f x -> (forall b, In b l -> fst b = x) /\ (forall b, In b ks -> inst_name (snd b) = x)).
    { intros f l ks x Io Ix. assert (If : In f fs) by (rewrite <- Ef; apply in_map_iff; exists (f, (l, ks)); auto). destruct (Hr _ _ _ Io) as (y & [(Bm & -> & _ & Hl)|(Bm & -> & E & c & _ & Hw)]); (assert (y = x) by (eapply One; [exact If|apply Bm|exact Ix])); subst y.
      - split; auto. intros b [].
      - split; [intros b []|]. intros [k o] I. cbn [snd]. assert (J : In k (those x kids)) by (rewrite <- E; apply in_map_iff; exists (k, o); auto). unfold those in J. apply filter_In in J as [_ J]. apply name_eqb_iff in J. rewrite <- J.
        symmetry. eapply wd_name. apply Hw. exact I. }
    assert (Pick : forall f l ks x, In (f, (l, ks)) outs -> in_instance f x ->
      filter (fun b : qname * str => name_eqb (fst b) x) (concat (map (fun o : out => fst (snd o)) outs)) = l /\
      filter (fun b : inst * inst => name_eqb (inst_name (snd b)) x) (concat (map (fun o : out => snd (snd o)) outs)) = ks).
    { intros f l ks x Io Ix. destruct (Own _ _ _ _ Io Ix) as [O1 O2]. destruct (in_split _ _ Io) as (oa & ob & Eo).
      assert (No : forall g l1 ks1, In (g, (l1, ks1)) (oa ++ ob) -> ~ in_instance g x).
      { intros g l1 ks1 Ig X. apply in_app_or in Ig as [Ig|Ig]; destruct (in_split _ _ Ig) as (o1 & o2 & Eg); rewrite Eg in Eo.
        - apply (Two (map fst o1) g (map fst o2) f (map fst ob) x); auto. rewrite <- Ef, Eo, map_app, map_app. cbn [map fst]. rewrite <- app_assoc. reflexivity.
        - apply (Two (map fst oa) f (map fst o1) g (map fst o2) x); auto. rewrite <- Ef, Eo, map_app. cbn [map fst]. rewrite map_app. reflexivity. }
      assert (Nb : forall g l1 ks1, In (g, (l1, ks1)) (oa ++ ob) -> (forall b, In b l1 -> fst b <> x) /\ (forall b, In b ks1 -> inst_name (snd b) <> x)).
      { intros g l1 ks1 Ig. pose proof (No _ _ _ Ig) as Ng. assert (Ig' : In (g, (l1, ks1)) outs) by (rewrite Eo; apply in_app_or in Ig as [Ig|Ig]; apply in_or_app; [left|right; right]; auto).
        destruct (Hr _ _ _ Ig') as (y & [(Bm & _)|(Bm & _)]); destruct (Own _ _ _ y Ig' (proj2 Bm)) as [Q1 Q2]; split; intros b Ib E; [pose proof (Q1 b Ib)|pose proof (Q2 b Ib)|pose proof (Q1 b Ib)|pose proof (Q2 b Ib)]; apply Ng; (replace x with y by congruence); apply Bm. }
      rewrite Eo. split; [rewrite (picked fst (fun o : out => fst (snd o)) x oa (f, (l, ks)) ob)|rewrite (picked (fun b => inst_name (snd b)) (fun o : out => snd (snd o)) x oa (f, (l, ks)) ob)]; auto; intros [g [l1 ks1]] b Ig Ib; cbn [fst snd] in Ib; destruct (Nb _ _ _ Ig); auto. }
    set (twice := fun o : out => (fst o, (fst (snd o), map (fun b : inst * inst => (snd b, snd b)) (snd (snd o))))).
    set (attrs' := concat (map (fun o : out => fst (snd o)) outs)) in *. set (kids' := map snd (concat (map (fun o : out => snd (snd o)) outs))).
    assert (Q1 : concat (map (fun o : out => fst (snd o)) (map twice outs)) = attrs') by (rewrite map_map; reflexivity).
    assert (Q2 : map snd (concat (map (fun o : out => snd (snd o)) (map twice outs))) = kids').
    { unfold kids'. rewrite !concat_map, !map_map. f_equal. apply map_ext. intros o. unfold twice. cbn [snd]. rewrite map_map. reflexivity. }
    pose proof (writes_struct u P wtext path t p d a m fs n attrs' kids' (map twice outs) Na) as Ws'. rewrite Q1, Q2 in Ws'. apply Ws'; clear Ws'.
    + rewrite <- Ef, map_map. reflexivity.
    + intros f l ks I. apply in_map_iff in I as ([f' [l' ks']] & Et & Io). unfold twice in Et. cbn [fst snd] in Et. injection Et as -> -> <-.
      destruct (Hr _ _ _ Io) as (x & [(Bm & -> & (c & Hc & F2) & Hl)|(Bm & -> & E & _)]); exists x; destruct (Pick _ _ _ _ Io (proj2 Bm)) as [Pl Pk].
      * left. split; [exact Bm|]. split; [reflexivity|]. split; [|exact Hl]. exists c. split; [exact Hc|]. unfold values. rewrite Pl. eapply Forall2_again; [apply Wy|exact F2].
      * right. split; [exact Bm|]. split; [reflexivity|]. assert (Tk : those x kids' = map snd ks') by (unfold kids'; rewrite those_pairs, Pk; reflexivity). split; [rewrite map_map; cbn [fst]; auto|].
        destruct (Each _ _ _ Io x Bm) as (c & Hc & Hw). exists c. split.
        -- assert (En : number x kids' = number x kids); [|rewrite En; exact Hc]. unfold number. fold (those x kids') (those x kids). rewrite Tk, <- E, !map_length. reflexivity.
        -- intros k o J. apply in_map_iff in J as ([k0 o0] & Ek & J). cbn [snd] in Ek. injection Ek as <- <-. eapply Hw; eauto.
  - assert (Wk2 := IH _ _ _ _ Wk). clear IH. assert (Aps : apart fs) by (eapply Ap, seen_placed; apply Na).
    rewrite (wd_name _ _ _ _ _ _ _ Wk) in Vm, Vu. eapply (writes_flat u P wtext path t p d a m fs n _ k' k' outs); eauto. intros g l Io. destruct (Hr g l Io) as [X|(x & Am & (c0 & Hc & F2) & Hl)]; [left; exact X|right].
    exists x. split; [exact Am|]. split; [|exact Hl]. exists c0. split; [exact Hc|]. rewrite (values_picked outs g l x); [eapply Forall2_again; [apply Wy|exact F2]|rewrite Ef; exact Aps|exact Io|exact Am|].
    intros g1 l1 I1. destruct (Hr g1 l1 I1) as [[_ X]|(y & Bm & _ & Hl1)]; [left; auto|right; eauto].
Qed.

(** ** Only one instance is written, if only one text is *)
Lemma Forall2_once {X Y} (R : X -> Y -> Prop) l m : (forall x y y', R x y -> R x y' -> y' = y) -> Forall2 R l m -> forall m', Forall2 R l m' -> m' = m.
Proof. intros F. induction 1 as [|x y l m E _ IH]; intros m' G; inversion G; subst; auto. f_equal; eauto. Qed.
Lemma attributes_once p f x attrs (l l' : list (qname * str)) : (forall p c x y y', wtext p c x y -> wtext p c x y' -> y' = y) ->
  (exists c, holds u (rf_type f) c 1 /\ Forall2 (wtext p c) (values x attrs) (map snd l)) -> (forall b, In b l -> fst b = x) ->
  (exists c, holds u (rf_type f) c 1 /\ Forall2 (wtext p c) (values x attrs) (map snd l')) -> (forall b, In b l' -> fst b = x) -> l' = l.
Proof.
  intros Wf (c & Hc & F2) Hl (c' & Hc' & F2') Hl'. rewrite (all_named x l' Hl'), (all_named x l Hl). f_equal.
  destruct (values x attrs) as [|v r] eqn:Ev; [inversion F2; inversion F2'; congruence|]. assert (c' = c).
  { inversion F2 as [|? ? ? ? X _]; inversion F2' as [|? ? ? ? X' _]; subst. eapply holds_same; [exact Hc'|exact Hc|eapply Ws; eauto|eapply Ws; eauto]. }
  subst c'. exact (Forall2_once _ _ _ (Wf p c) F2 _ F2').
Qed.
Lemma deep_unique : (forall p c x y y', wtext p c x y -> wtext p c x y' -> y' = y) -> forall path t i o, WD path t i o -> forall o', WD path t i o' -> o' = o.
Proof.
  intros Wf. fix IH 5. intros path t i o Wr. destruct Wr as [path s n x y Is Ty|path t p d m t' i o Na Wr|path t p d a m c n x y Na Ty|path t p d a m vs n x y Na Te Ty|path t p d a m fs n attrs kids outs Na Ef Hr|path t p d a m fs n attrs k k' outs f p' d' a' m' vs v c Na Ef If Fl Hr Ne Cd Iv Vm Vu Vt Wk]; intros o' Wr'.
  - destruct (wd_library _ _ Un _ _ _ _ _ _ Is Wr') as (y' & -> & Ty'). rewrite (Wf _ _ _ _ _ Ty Ty'). reflexivity.
  - exact (IH _ _ _ _ Wr _ (wd_alias _ _ Un _ _ _ _ _ _ _ _ _ Na Wr')).
  - destruct (wd_tuple _ _ Un _ _ _ _ _ _ _ _ _ _ _ Na Wr') as (y' & -> & Ty'). rewrite (Wf _ _ _ _ _ Ty Ty'). reflexivity.
  - destruct (wd_enum _ _ Un _ _ _ _ _ _ _ _ _ _ _ Na Wr') as (y' & -> & Ty'). rewrite (Wf _ _ _ _ _ Ty Ty'). reflexivity.
  - assert (Apf : apart fs) by (eapply Ap, seen_placed; apply Na). destruct Apf as [One Two].
    assert (Hn : forall f, In f fs -> exists x, in_instance f x) by (intros f If; rewrite <- Ef in If; apply in_map_iff in If as ([g [l ks]] & <- & Ig); destruct (Hr _ _ _ Ig) as (x & [(Bm & _)|(Bm & _)]); exists x; apply Bm).
    assert (Inv : exists outs' : list out, map fst outs' = fs /\ (forall f l ks, In (f, (l, ks)) outs' -> exists x,
        attribute_member f x /\ ks = [] /\ (exists c, holds u (rf_type f) c 1 /\ Forall2 (wtext p c) (values x attrs) (map snd l)) /\ (forall a, In a l -> fst a = x) \/
        element_member f x /\ l = [] /\ map fst ks = those x kids /\ exists c, holds u (rf_type f) c (number x kids) /\ forall k o, In (k, o) ks -> WD p c k o) /\
        o' = Inst n (concat (map (fun o => fst (snd o)) outs')) (map snd (concat (map (fun o => snd (snd o)) outs'))) []).
    { clear IH Hr. remember (Inst n attrs kids []) as i0 eqn:Ei. cases Wr'; subst i0; [exfalso; eapply (library_free u P Un); subst; eauto|..]; destruct (FitProofs2.names_same _ _ _ _ _ _ _ _ Na Na') as [E1 E2]; try discriminate E2; injection E2 as _ _ _ E2; subst p1 fs1.
      - match goal with X : Inst _ _ _ _ = Inst _ _ _ _ |- _ => injection X as -> -> -> end. exists outs1. split; [congruence|]. split; [exact Ho'|reflexivity].
      - exfalso. rewrite <- E2 in If'. destruct (Hn _ If') as (x & X). eapply flat_unnamed; eauto. }
    clear Hn Wr'. destruct Inv as (outs' & Ef' & Hr' & ->).
    assert (Same : forall f l ks l' ks', In (f, (l, ks)) outs -> In (f, (l', ks')) outs' -> l' = l /\ map snd ks' = map snd ks).
    { intros f l ks l' ks' Io Io'. assert (If : In f fs) by (rewrite <- Ef; apply in_map_iff; exists (f, (l, ks)); split; [reflexivity|exact Io]).
      destruct (Hr _ _ _ Io) as (x & [(Bm & Ek & F2 & Hl)|(Bm & El & E & c & Hc & Hw)]);
        destruct (Hr' _ _ _ Io') as (y & [(Bm' & Ek' & F2' & Hl')|(Bm' & El' & E' & c' & Hc' & Hw')]); try (exfalso; apply (proj1 Bm), (proj1 Bm'); fail); try (exfalso; apply (proj1 Bm'), (proj1 Bm); fail);
        (assert (y = x) by (eapply One; [exact If|apply Bm'|apply Bm])); subst y.
      - subst ks ks'. split; [|reflexivity]. eapply attributes_once; eauto.
      - subst l l'. split; [reflexivity|]. rewrite <- E in E'.
        assert (Each : forall k o1 o2, In (k, o1) ks -> In (k, o2) ks' -> o2 = o1).
        { intros k o1 o2 I J. pose proof (Hw' _ _ J) as W2. assert (c' = c) by (eapply holds_same; [exact Hc'|exact Hc|eapply wd_second; exact W2|eapply wd_second; exact (Hw _ _ I)]).
          subst c'. exact (IH _ _ _ _ (Hw _ _ I) _ W2). }
        clear - Each E'. revert ks' Each E'. induction ks as [|[k o1] r IHr]; intros [|[k' o2] r'] Each E'; try discriminate E'; auto. cbn [map fst] in E'. injection E' as -> E'. cbn [map snd]. rewrite (Each k o1 o2 (or_introl eq_refl) (or_introl eq_refl)). f_equal. apply IHr; auto. intros; eapply Each; right; eauto. }
    clear IH.
    assert (Eq : map (fun o : out => fst (snd o)) outs' = map (fun o : out => fst (snd o)) outs /\ map (fun o : out => map snd (snd (snd o))) outs' = map (fun o : out => map snd (snd (snd o))) outs).
    { clear - Same Ef Ef'. assert (Em : map fst outs' = map fst outs) by congruence. clear Ef Ef'. revert outs' Same Em. induction outs as [|[f [l ks]] r IHr]; intros [|[f' [l' ks']] r'] Same Em; try discriminate Em; auto. cbn [map fst] in Em. injection Em as -> Em.
      destruct (Same f l ks l' ks' (or_introl eq_refl) (or_introl eq_refl)) as [-> E]. destruct (IHr r') as [Q1 Q2]; auto; [intros; eapply Same; right; eauto|]. cbn [map fst snd]. rewrite Q1, Q2, E. auto. }
    destruct Eq as [Q1 Q2]. assert (Mc : forall l : list out, map snd (concat (map (fun o : out => snd (snd o)) l)) = concat (map (fun o : out => map snd (snd (snd o))) l)).
    { intros l. rewrite concat_map, map_map. reflexivity. }
    rewrite !Mc, Q1, Q2. reflexivity.
  - assert (Aps : apart fs) by (eapply Ap, seen_placed; apply Na).
    assert (Sh : shape fs f).
    { split; [exact If|]. split; [exact Fl|]. intros g Ig. rewrite <- Ef in Ig. apply in_map_iff in Ig as ([g' l] & <- & Ig). destruct (Hr _ _ Ig) as [[-> _]|(x & Am & _)]; [left; reflexivity|right; exists x; exact Am]. }
    assert (Inv : exists k2 (outs' : list outl) v1 c1, map fst outs' = fs /\ (forall g l, In (g, l) outs' -> g = f /\ l = [] \/
        exists x, attribute_member g x /\ (exists c, holds u (rf_type g) c 1 /\ Forall2 (wtext p c) (values x attrs) (map snd l)) /\ forall b, In b l -> fst b = x) /\
        o' = Inst n (concat (map snd outs')) [k2] [] /\ In v1 vs /\ variant_member v1 (inst_name k) /\ va_type v1 = Some c1 /\ WD p' c1 k k2).
    { clear IH Hr Wk. remember (Inst n attrs [k] []) as i0 eqn:Ei. cases Wr'; subst i0; [exfalso; eapply (library_free u P Un); subst; eauto|..]; destruct (FitProofs2.names_same _ _ _ _ _ _ _ _ Na Na') as [E1 E2]; try discriminate E2; injection E2 as _ _ _ E2; subst p1 fs1.
      - exfalso. rewrite E2 in If. apply in_map_iff in If as ([g [l ks]] & Eg & Ig). cbn [fst] in Eg. subst g. destruct (Ho' _ _ _ Ig) as (x & [(Bm & _)|(Bm & _)]); eapply flat_unnamed; eauto; apply Bm.
      - match goal with X : Inst _ _ _ _ = Inst _ _ _ _ |- _ => injection X as -> -> -> end. rewrite E2 in Sh. assert (Es := shape_one _ _ _ Sh If' Fl'). subst f1. destruct (FitProofs2.names_same _ _ _ _ _ _ _ _ Ne Ne') as [E3 E4]. injection E4 as -> -> -> ->. subst p1'.
        exists k1', outs1, v1, c1. split; [congruence|]. split; [exact Ho'|]. auto. }
    clear Wr'. destruct Inv as (k2 & outs' & v1 & c1 & Ef' & Hr' & -> & Iv1 & Vm1 & Vt1 & Wk'). rewrite (Vu _ Iv1 Vm1) in Vt1. rewrite Vt in Vt1. injection Vt1 as <-. rewrite (IH _ _ _ _ Wk _ Wk'). clear IH.
    assert (Same : forall g l l', In (g, l) outs -> In (g, l') outs' -> l' = l).
    { intros g l l' Io Io'. assert (Ig : In g fs) by (rewrite <- Ef; apply in_map_iff; exists (g, l); split; [reflexivity|exact Io]).
      destruct (Hr _ _ Io) as [[Eg ->]|(x & Am & F2 & Hl)]; destruct (Hr' _ _ Io') as [[Eg' ->]|(y & Am' & F2' & Hl')]; auto; try subst g; try (exfalso; eapply flat_unnamed; [exact Fl|first [apply Am'|apply Am]]; fail).
      assert (y = x) by (eapply (proj1 Aps); [exact Ig|apply Am'|apply Am]). subst y. eapply attributes_once; eauto. }
    assert (Eq : map snd outs' = map snd outs); [|rewrite Eq; reflexivity].
    clear - Same Ef Ef'. assert (Em : map fst outs' = map fst outs) by congruence. clear Ef Ef'. revert outs' Same Em. induction outs as [|[g l] r IHr]; intros [|[g' l'] r'] Same Em; try discriminate Em; auto. cbn [map fst] in Em. injection Em as -> Em.
    cbn [map snd]. rewrite (Same g l l' (or_introl eq_refl) (or_introl eq_refl)). f_equal. apply IHr; auto. intros; eapply Same; right; eauto.
Qed.
End Settle.

Lemma deep_mono u P (w w' : list str -> list token -> str -> str -> Prop) : (forall p c x y, w p c x y -> w' p c x y) -> forall path t i o, written_deep u P w path t i o -> written_deep u P w' path t i o.
Proof.
  intros Wi. assert (Fa : forall p c l m, Forall2 (w p c) l m -> Forall2 (w' p c) l m) by (induction 1; constructor; auto).
  fix IH 5. intros path t i o Wr. destruct Wr as [path s n x y Is Ty|path t p d m t' i o Na Wr|path t p d a m c n x y Na Ty|path t p d a m vs n x y Na Te Ty|path t p d a m fs n attrs kids outs Na Ef Hr|path t p d a m fs n attrs k k' outs f p' d' a' m' vs v c Na Ef If Fl Hr Ne Cd Iv Vm Vu Vt Wk].
  - apply writes_library; eauto.
  - eapply writes_alias; [exact Na|]. exact (IH _ _ _ _ Wr).
  - eapply writes_tuple; eauto.
  - eapply writes_enum; eauto.
  - eapply writes_struct; [exact Na|exact Ef|]. intros f l ks Io. destruct (Hr _ _ _ Io) as (x & [(Bm & Ek & (c & Hc & F2) & Hl)|(Bm & El & E & c & Hc & Hw)]); exists x; [left|right].
    + split; [exact Bm|]. split; [exact Ek|]. split; [|exact Hl]. exists c. split; [exact Hc|]. apply Fa. exact F2.
    + split; [exact Bm|]. split; [exact El|]. split; [exact E|]. exists c. split; [exact Hc|]. intros k o I. exact (IH _ _ _ _ (Hw k o I)).
  - assert (Wk' := IH _ _ _ _ Wk). clear IH. eapply writes_flat; eauto. intros g l Io. destruct (Hr g l Io) as [X|(x & Am & (c0 & Hc & F2) & Hl)]; [left; exact X|right]. exists x. split; [exact Am|]. split; [|exact Hl]. exists c0. split; [exact Hc|]. apply Fa. exact F2.
Qed.

(** ** C88
    The texts of simple types of C87; in a union: the texts whose value, in the type of the union
    that has them, has no text that a type before it has. *)
Definition one_value (A : Type) lexical order size pattern digits (T : stype) (x : str) : Prop :=
  let denotes := denotes A lexical order size pattern digits in
  (forall Ts, T <> TUnion Ts) /\ (exists v, denotes T x v) /\ (listy T -> xml_spaced x) \/
  exists pre U post v, T = TUnion (pre ++ U :: post) /\ denotes U x v /\ (listy U -> xml_spaced x) /\
    forall y V z, denotes U y v -> In V pre -> ~ denotes V y z.
Definition single (A : Type) lexical order size pattern digits (u : uni) (lib_read : string -> str -> option A) (lib_show : string -> A -> str) (schema : node) (own xsd : option str) (s : sref) (x : str) : Prop :=
  exists T, simple_is schema own xsd s T /\ SpecValue.regular_simple A lexical order size pattern digits u lib_read lib_show T /\ patternless T /\
    one_value A lexical order size pattern digits T x.
(** C88: an instance of nested kinds of types whose texts are literals of the simple types of C87
    is written in exactly one way; what is written can be read and written again, in exactly one
    way, and does not change any more. *)
Definition settles (written : inst -> inst -> Prop) (i : inst) : Prop :=
  exists o, written i o /\ (forall o', written i o' -> o' = o) /\ written o o /\ (forall o', written o o' -> o' = o).
Theorem C88_fixed_point : forall A lexical order size pattern digits lib_read lib_show,
  (forall x, exists a, lib_read "String" x = Some a /\ lib_show "String" a = x) ->
  forall u roots schema f its, document roots schema -> ok_schema schema -> tidy schema -> parse u roots = Ok f ->
  (forall x, part x schema -> orderly u schema (ns_prefix (rf_target_ns f)) (ns_prefix (rf_xsd_ns f)) x) ->
  separate_types schema (type_name_of u f) (format_name u) -> separate_members schema u (format_name u) (variant_name u (rf_target_ns f)) -> file_items u f (rf_types f) its ->
  let own := ns_prefix (rf_target_ns f) in let xsd := ns_prefix (rf_xsd_ns f) in
  let P := concat (map (placed []) its) in
  let single := single A lexical order size pattern digits u lib_read lib_show schema own xsd in
  let written := written_deep u P (shown_again A u lib_read lib_show P) in
  forall T i path t, nested schema own xsd own_attribute single T i ->
    (exists q, type_named schema own xsd q T /\ regular_type xsd q /\ t = type_name_of u f q) \/
    (exists l d, SpecFit.declared schema "element" l d /\ absent d "ref" /\ absent d "type" /\ type_of schema own xsd d T /\
       (forall t c, T = Complex t -> ~ choice_type schema own xsd t c) /\ t = type_name_of u f l) ->
    settles (written path t) i.
Proof.
  intros A lexical order size pattern digits lib_read lib_show Str u roots schema f its Do O T H Or Sep Sm It own xsd P sg wr Ty i path t N Ht.
  assert (Dt := document_distinct u roots schema f its Do O T H Or Sep It). assert (Un := distinct_unshadowed _ Dt).
  assert (Dm := C67_members u roots schema f its Do O T H Or Sm It). pose proof (items_apart _ _ _ _ _ _ It Dm) as Ap.
  assert (Uv : forall p m ks ks', In (p, IValidate m ks) P -> In (p, IValidate m ks') P -> ks = ks') by (apply one_validate, Dt).
  destruct Do as (a & b & -> & E & L). destruct (parse_document u (a ++ schema :: b)) as [PD _].
  destruct (proj1 (proj1 (PD a schema b eq_refl E L) f) H) as (f0 & Hp & Hl). clear PD.
  set (lib_cmp := order). set (lib_len := size). assert (Cmp : forall a b c, order a b = Some c -> lib_cmp a b = Some c) by auto.
  set (good := good A lexical order size pattern digits lib_read lib_show lib_cmp lib_len u its).
  set (regular_simple := SpecValue.regular_simple A lexical order size pattern digits u lib_read lib_show).
  set (makes := fun path t s => forall T, simple_is schema own xsd s T -> regular_simple T -> good path t T).
  assert (All : forall T, regular_simple T -> good_ref A lexical order size pattern digits lib_read lib_show lib_cmp lib_len u schema f its T /\ good_node A lexical order size pattern digits lib_read lib_show lib_cmp lib_len u schema f its T).
  { intros T0. apply (proj1 (all_good A lexical order size pattern digits lib_read lib_show lib_cmp lib_len Cmp u schema f0 f its O Hp Hl (proj1 T) Or It Un Uv T0)). }
  set (ty := SpecGen.ty u (fun q => format_type_name u q (rf_xsd_ns f) (rf_target_ns f))).
  assert (makes_named : forall q path, type_named schema own xsd q (Simple (Named q)) -> makes path (ty q) (Named q)) by (intros q p _ T0 Is Rg; apply (All T0 Rg); auto).
  assert (makes_within : forall d pn anc e nm path t p i r, part d schema -> tag "simpleType" d -> parse_node u d (pn :: anc) = Ok e ->
    items u (rf_target_ns f) (fun q => format_type_name u q (rf_xsd_ns f) (rf_target_ns f)) (format_name u) (variant_name u (rf_target_ns f)) (set_name nm e) (i :: r) ->
    incl (concat (map (placed p) (i :: r))) P -> SpecFit.names u P path t p i -> makes path t (Within d)).
  { intros d pn anc e nm p c p' j r Pd Td' Hd Hi Ic Na T0 Is Rg. eapply (All T0 Rg); eauto. }
  set (W0 := shown_again A u lib_read lib_show P). set (W1 := fun p c x y => W0 p c x y /\ W0 p c y y). set (G1 := fun p c x => exists y, W1 p c x y).
  assert (H1 : forall p c s x, makes p c s -> sg s x -> G1 p c x).
  { intros p c s x Mk (T0 & Is & Rg & Pl & Ov). destruct (Mk T0 Is Rg) as (_ & _ & _ & _ & _ & G & G'). destruct Ov as [(Nu & (v & De) & Sp)|(pre & U & post & v & -> & De & Sp & Np)].
    - destruct (G Nu x v De Sp) as (w & Rd & Ls & Sh & Al). exists (shown A lib_show w). split; exists w; split; auto.
    - destruct (G' _ eq_refl pre U post x v eq_refl De Sp) as (w & Ls & Sh & Al). assert (Pu : patternless U) by (eapply patternless_in; [|exact Pl]; apply in_or_app; right; left; auto).
      exists (shown A lib_show w). split; exists w; split; auto; apply Al; auto; intros V z I; apply Np; auto. }
  assert (HA : forall b p v, own_attribute b -> (forall s, attribute_typed schema own xsd b s -> sg s v) -> G1 p (ty (pick (attribute b (lit "type")) (attribute b (lit "ref")) (lit "String"))) v).
  { intros b0 p v Kb Hv. unfold own_attribute, present, has, absent in Kb. destruct (attribute b0 (lit "type")) as [q|] eqn:Hq.
    2:{ destruct Kb as [(? & Kb)|Kb]; [discriminate|]. rewrite Kb. cbn [pick]. unfold ty. rewrite string_text. destruct (Str v) as (w & Rd & Sh). exists v.
        assert (Y : W0 p (rust u "String") v v) by (exists (RLib A "String" w); split; [apply reads_library; auto; left; auto|cbn [shown]; auto]). split; exact Y. }
    cbn [pick]. apply (H1 p (ty q) (Named q)); [intros T0 Is Rg; apply (All T0 Rg); auto|]. apply Hv. apply ay_named. auto. }
  assert (Ft : fits_deep u P G1 path t i).
  { destruct (nested_deep u schema f0 f its O Hp Hl (proj1 T) Or It Un makes makes_named makes_within sg G1 H1 own_attribute HA Ty i N) as [D1 D2].
    destruct Ht as [(q & Tn & Rt & ->)|(l & d & De & Ar & At & To & Nc & ->)]; [apply D2; auto|].
    destruct (nested_cases schema f _ _ Ty i N) as [Pt|(t & c & -> & Cy)]; [|destruct (Nc t c eq_refl Cy)]. apply D1; auto. eapply start_goal; eauto; [apply T|]. right. exists l, d. auto. }
  destruct (deep_written u P G1 W1 (fun _ _ _ X => X) _ _ _ Ft) as (o & Wo).
  assert (Mono : forall i o path t, written_deep u P W1 path t i o -> wr path t i o).
  { intros i0 o0 p c. apply deep_mono. intros ? ? ? ? [X _]. exact X. }
  assert (T2 : forall p c x y, W0 p c x y -> second c) by (intros p c x y (v & Rd & _); eapply reads_second; eauto).
  assert (Fn : forall p c x y y', W0 p c x y -> W0 p c x y' -> y' = y).
  { intros p c x y y' (v & Rd & ->) (v' & Rd' & ->). f_equal. symmetry. eapply (reads_unique A lib_read u P Un); eauto. }
  assert (Oo := deep_settle u its Ap W1 ltac:(intros p c x y [_ X]; split; exact X) _ _ _ _ Wo).
  exists o. split; [apply Mono; exact Wo|]. split; [intros o' W'; exact (deep_unique u its Un Ap W0 T2 Fn _ _ _ _ (Mono _ _ _ _ Wo) _ W')|]. split; [apply Mono; exact Oo|].
  intros o' W'. exact (deep_unique u its Un Ap W0 T2 Fn _ _ _ _ (Mono _ _ _ _ Oo) _ W').
Qed.
Print Assumptions C88_fixed_point.

(** With the library types of the repository. *)
Definition plain_single (words : str -> str -> Prop) (pattern : str -> str -> Prop) (digits : facet_type -> atom -> Prop) (u : uni) (schema : node) (own xsd : option str) (s : sref) (x : str) : Prop :=
  exists T, simple_is schema own xsd s T /\ plain_simple u T /\ patternless T /\ one_value atom (text words) atom_order atom_size pattern digits T x.
Theorem C88_library : forall lo hi chk words pattern digits u roots schema f its, chrono_years lo hi ->
  document roots schema -> ok_schema schema -> tidy schema -> parse u roots = Ok f ->
  (forall x, part x schema -> orderly u schema (ns_prefix (rf_target_ns f)) (ns_prefix (rf_xsd_ns f)) x) ->
  separate_types schema (type_name_of u f) (format_name u) -> separate_members schema u (format_name u) (variant_name u (rf_target_ns f)) -> file_items u f (rf_types f) its ->
  let own := ns_prefix (rf_target_ns f) in let xsd := ns_prefix (rf_xsd_ns f) in
  let P := concat (map (placed []) its) in
  let written := written_deep u P (shown_again atom u (library_read lo hi chk) (library_show chk) P) in
  forall T i path t, nested schema own xsd own_attribute (plain_single words pattern digits u schema own xsd) T i ->
    (exists q, type_named schema own xsd q T /\ regular_type xsd q /\ t = type_name_of u f q) \/
    (exists l d, SpecFit.declared schema "element" l d /\ absent d "ref" /\ absent d "type" /\ type_of schema own xsd d T /\
       (forall t c, T = Complex t -> ~ choice_type schema own xsd t c) /\ t = type_name_of u f l) ->
    settles (written path t) i.
Proof.
  intros lo hi chk words pattern digits u roots schema f its Y Do O Td H Or Sep Sm It own xsd P wr T i path t N Ht.
  apply (C88_fixed_point atom (text words) atom_order atom_size pattern digits (library_read lo hi chk) (library_show chk)
    (library_string lo hi chk) u roots schema f its Do O Td H Or Sep Sm It T i path t); [|exact Ht].
  eapply nested_mono; [|exact N]. intros s x (T0 & A & B & C & D). exists T0. split; [exact A|]. split; [apply plain_regular; auto|]. auto.
Qed.
Print Assumptions C88_library.

(** An entry to the party of C86 with the ticket 017: it meets the premises, ... *)
Notation tt := (Some (lit "tt")).
Notation xs := (Some (lit "xs")).
Notation single_parties := (plain_single all_texts every no_digits u2 parties tt xs).
Definition with_ticket (n : string) : inst := Inst (q "entry") [] [Inst (at_ "ticket") [] [] (lit n)] [].
Ltac single_builtin b := let X := fresh in eexists; split; [refers_builtin b|]; split; [plain b|]; split; [exact Logic.I|]; left; split; [intros ? X; discriminate X|]; split; [eexists|intros []].
Lemma single_int n z : num n z -> z <= 2147483647 -> single_parties (Named (lit "xs:int")) n.
Proof.
  intros Hn L. single_builtin "int". eexists. split; [|reflexivity]. split.
  - apply (l_integer _ _ _ (Some (-2147483648)%Z) (Some 2147483647%Z) (Z.of_N z)); [vm_compute; tauto| |split; lia]. apply xsd_int_plain; auto.
  - intros lo hi t I _. cbn [In xsd_builtins] in I. vm_compute in I. repeat (destruct I as [I|I]; [try discriminate I; injection I as <- <-; exact eq_refl|]). destruct I.
Qed.
Example C88_ex1 : nested parties tt xs own_attribute single_parties (Complex entry) (with_ticket "017") /\ nested parties tt xs own_attribute single_parties (Complex party) a_party.
Proof.
  split.
  - eapply (nested_alternative _ _ _ _ _ plain _ _ [att "seat" "xs:string"] _ _ (bare "ticket" "xs:int")); [apply entry_choice|apply simple_attributed; reflexivity| | |right; left; reflexivity| |builtin_type|apply nested_simple].
    + constructor; [left; eexists; reflexivity|constructor].
    + apply attributes_fitb_ok; [vm_compute; reflexivity|]. intros ? ? ? ? [].
    + eapply en_unqualified; [reflexivity|intros [X|[X _]]; discriminate X].
    + apply (single_int _ 17); first [number|lia].
  - apply party_nested.
    + intros a Pa. left. exact Pa.
    + intros x. single_builtin "string". exists (VText (lit x)). split; [|reflexivity]. split; [|exact Logic.I]. apply l_text; [left; vm_compute; tauto|exact Logic.I].
    + intros x [<-|[<-|[]]]; [apply (single_int _ 1)|apply (single_int _ 17)]; first [number|lia].
Qed.
(** ... is written in one way, which is final: *)
Example C88_ex2 : forall lo hi chk f its path, chrono_years lo hi -> parse u2 [parties] = Ok f -> file_items u2 f (rf_types f) its ->
  let P := concat (map (placed []) its) in
  settles (written_deep u2 P (shown_again atom u2 (library_read lo hi chk) (library_show chk) P) path (rust u2 "Entry")) (with_ticket "017").
Proof.
  intros lo hi chk f its path Y Hf Hi P. destruct C86_ex1 as (D & O & T & _ & Or).
  assert (Ef : ns_prefix (rf_target_ns f) = tt /\ ns_prefix (rf_xsd_ns f) = xs /\ type_name_of u2 f (lit "tt:Entry") = rust u2 "Entry" /\
    separate_types parties (type_name_of u2 f) (format_name u2) /\ separate_members parties u2 (format_name u2) (variant_name u2 (rf_target_ns f))).
  { vm_compute in Hf. injection Hf as <-. split; [reflexivity|]. split; [reflexivity|]. split; [vm_compute; reflexivity|]. split; [apply (separate_types_check _ _ _ 3)|apply (separate_members_check _ _ _ _ 3)]; vm_compute; reflexivity. }
  destruct Ef as (E1 & E2 & E3 & Se & Sm). assert (X := C88_library lo hi chk all_texts every no_digits u2 [parties] parties f its Y D O T Hf). rewrite E1, E2 in X.
  apply (X Or Se Sm Hi (Complex entry) (with_ticket "017") path (rust u2 "Entry")); [apply C88_ex1|].
  left. exists (lit "tt:Entry"). split; [|split; [apply regular_typeb_ok; reflexivity|symmetry; exact E3]]. eapply tn_complex; [apply own_local_iff; reflexivity|]. split; [do 2 right; left; reflexivity|split; reflexivity].
Qed.
(** with the ticket 17. *)
Example C88_ex3 : forall lo hi chk, exists f its, parse u2 [parties] = Ok f /\ file_items u2 f (rf_types f) its /\
  let P := concat (map (placed []) its) in
  written_deep u2 P (shown_again atom u2 (library_read lo hi chk) (library_show chk) P) [] (rust u2 "Entry") (with_ticket "017") (with_ticket "17").
Proof.
  intros lo hi chk. eexists. eexists. split; [vm_compute; reflexivity|]. split; [cbn [rf_types]; repeat econstructor|].
  cbv zeta. lazymatch goal with |- written_deep _ ?P (shown_again _ _ ?r ?s _) _ ?t ?i ?o => let P' := eval vm_compute in P in let t' := eval vm_compute in t in change (written_deep u2 P' (shown_again atom u2 r s P') [] t' i o) end.
  unfold with_ticket. eapply (writes_flat _ _ _ _ _ _ _ _ _ _ _ _ _ _ [(_, []); (_, [])]); [names_item|reflexivity|right; left; reflexivity|apply arguedb_iff; reflexivity| |names_item|left; reflexivity|right; left; reflexivity| | |reflexivity|].
  - intros g l [[= <- <-]|[[= <- <-]|[]]]; [right|left; auto]. exists (None, lit "seat"). split; [|split; [|intros ? []]].
    + split; [apply arguedb_iff; reflexivity|]. split; [apply arguedb_iff; reflexivity|]. split; [intros X; apply arguedb_iff in X; discriminate X|].
      intros p (l0 & [[= <-]|[]] & J). repeat (destruct J as [J|J]; [discriminate J|]). destruct J.
    + exists (rust u2 "String"). split; [holds_now|constructor].
  - split; [left; eexists; split; [left; reflexivity|left; reflexivity]|]. intros p (l0 & [[= <-]|[]] & J). repeat (destruct J as [J|J]; [discriminate J|]). destruct J.
  - intros w Iw Vw. apply variant_memberb_ok in Vw. repeat (destruct Iw as [<-|Iw]; [first [reflexivity|vm_compute in Vw; discriminate Vw]|]). destruct Iw.
  - lazymatch goal with |- written_deep _ ?P ?X ?p ?t ?i ?o => change (written_deep u2 P X p (rust u2 "i32") i o) end. apply writes_library; [cbn; tauto|]. shown_library "i32".
Qed.
(** In a union of integers and days, no text of a day is one of an integer, so days are covered. *)
Definition whens : node := sch [union_type "When" "xs:int xs:date"].
Lemma number_no_minus s n : num s n -> ~ In 45 s.
Proof. induction 1 as [d L|s n d _ IH L]; intros I; [destruct I as [I|[]]; lia|]. apply in_app_or in I as [I|[I|[]]]; [auto|lia]. Qed.
Lemma day_no_integer s y m d tz z : SpecDate.xsd_date s y m d tz -> ~ xsd_integer s z.
Proof.
  intros (ys & ms & ds & zs & nm & nd & -> & Yr & _) Xi. assert (X : In 45 (List.tl (ys ++ lit "-" ++ ms ++ lit "-" ++ ds ++ zs))).
  { assert (Ny : ys <> []) by (destruct Yr as [s n _ Ln _|s n _ Ln _]; [intros ->; cbn in Ln; lia|discriminate]). destruct ys as [|c ys]; [destruct (Ny eq_refl)|]. cbn [app List.tl]. apply in_or_app. right. left. reflexivity. }
  revert X. destruct Xi as [s n Hn|s n Hn|s n Hn]; intros X; apply (number_no_minus _ _ Hn); [|exact X|exact X]. destruct s; [destruct X|right; exact X].
Qed.
Example C88_ex4 : plain_single all_texts every no_digits u2 whens tt xs (Named (lit "tt:When")) (lit "2020-02-29Z").
Proof.
  exists (TUnion [TBuiltin (lit "int"); TBuiltin (lit "date")]). split; [|split; [|split; [repeat split|right]]].
  - refers_declared ltac:(left; reflexivity). eapply (de_union _ _ _ _ _ [lit "xs:int"; lit "xs:date"] [_; _] []); [only_here|reflexivity|apply (ParserProofs.blank_tokens_ok (lit "xs:int xs:date"))| |constructor].
    constructor; [refers_builtin "int"|]. constructor; [refers_builtin "date"|constructor].
  - split; [plain "int"|]. split; [exact I|]. split; [intros _; plain "int"|]. split; [plain "date"|]. split; [exact I|]. split; [congruence|exact I].
  - exists [TBuiltin (lit "int")], (TBuiltin (lit "date")), [], (Atom atom (VDate 2020 2 29 (Some 0%Z))). split; [reflexivity|]. split; [|split; [intros []|]].
    + eexists. split; [|reflexivity]. split.
      * apply (l_date _ _ _ 2020 2 29 (Some 0%Z)); [reflexivity|]. exists (lit "2020"), (lit "02"), (lit "29"), (lit "Z"), 2, 29. split; [reflexivity|]. split; [apply (year_pos (lit "2020") 2020); [number|apply Nat.leb_le; reflexivity|lia]|].
        split; [two_digits|]. split; [two_digits|]. split; [reflexivity|]. split; [reflexivity|]. split; [vm_compute; repeat split; discriminate|apply tz_present; constructor].
      * exists (lit "2020"), (lit "02-29Z"), 2020. split; [reflexivity|]. split; [number|reflexivity].
    + intros y V z (a & [La _] & E) [<-|[]] (b & [Lb _] & _). injection E as <-.
      assert (Xd : exists p m d t, SpecDate.xsd_date y p m d t) by (inversion La; subst; eauto). destruct Xd as (p & m & d & t & Xd).
      assert (Xi : exists k, xsd_integer y k).
      { destruct Lb as [J _|? ? k _ J _| | | | | | | | | | | | |]; [|exists k; exact J|..]; match goal with X : _ = lit _ |- _ => discriminate X | _ => idtac end.
        exfalso. destruct J as [J|J]; vm_compute in J; repeat (destruct J as [J|J]; [discriminate J|]); destruct J. }
      destruct Xi as (k & Xi). exact (day_no_integer _ _ _ _ _ _ Xd Xi).
Qed.
