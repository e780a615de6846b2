(** Property theorems C86, writing: what types of all kinds hold inside each other is written back. *)
From Coq Require Import Arith NArith ZArith Bool Ascii String List Permutation Lia.
From Verif Require Import Str StrFacts SpecLex SpecNames SpecBuiltin Xml Names NamesProofs Entity Parser ParserFacts SpecSchema PropsParser Link SpecLink PropsLink
  Gen SpecRust SpecGen RustFacts GenProofs PropsGen SpecDoc PropsDoc SpecScope PropsScope SpecTraits PropsTraits SpecSize PropsSize
  SpecDistinct DistinctProofs2 PropsDistinct PropsMembers SpecFit SpecRestrict SpecWrite FitProofs FitProofs2 ValueProofs PropsFit PropsWrite PropsRestrict SpecChoice PropsChoice SpecFlat PropsAlike PropsFlat SpecNest PropsNest.
Import ListNotations.
Local Open Scope string_scope.
Local Open Scope list_scope.
Local Open Scope N_scope.
Notation concat := List.concat.
Arguments lit : simpl never.

(** ** Something is written *)
Lemma all_shown {A B} (R : A -> B -> Prop) l : (forall x, In x l -> exists y, R x y) -> exists m, Forall2 R l m.
Proof. induction l as [|x l IH]; intros H; [exists []; constructor|]. destruct (H x (or_introl eq_refl)) as (y & Hy). destruct IH as (m & Hm); [intros; apply H; right; auto|]. exists (y :: m). constructor; auto. Qed.
Lemma attribute_shown u (P : list (list str * item)) (text : list str -> list token -> str -> Prop) (wtext : list str -> list token -> str -> str -> Prop) : (forall path t x, text path t x -> exists y, wtext path t x y) ->
  forall p f x attrs, (exists c, holds u (rf_type f) c 1 /\ forall v, In (x, v) attrs -> text p c v) ->
  exists l, (exists c, holds u (rf_type f) c 1 /\ Forall2 (wtext p c) (values x attrs) (map snd l)) /\ (forall a : qname * str, In a l -> fst a = x).
Proof.
  intros G p f x attrs (c & Hc & Hv). destruct (all_shown (wtext p c) (values x attrs)) as (m & Hm); [intros v I; apply G, Hv, values_in; auto|]. exists (map (pair x) m). split.
  - exists c. split; auto. rewrite map_map. cbn [snd]. rewrite map_id. auto.
  - intros b I. apply in_map_iff in I as (y & <- & _). auto.
Qed.
Lemma deep_written u P (text : list str -> list token -> str -> Prop) (wtext : list str -> list token -> str -> str -> Prop) : (forall path t x, text path t x -> exists y, wtext path t x y) ->
  forall path t i, fits_deep u P text path t i -> exists o, written_deep u P wtext path t i o.
Proof.
  intros G. fix IH 4. intros path t i Ft. destruct Ft as [path s n x Is Tx|path t p d m t' i Na Ft|path t p d a m c n x Na Tx|path t p d a m vs n x Na Te Tx|path t p d a m fs n attrs kids Na A1 A0 A2 K1 K2 Al|path t p d a m fs n attrs k f p' d' a' m' vs v c Na A1 A0 A2 If Fl Al Ne Cd Iv Vm Vu Vt Ft].
  - destruct (G _ _ _ Tx) as (y & Ty). eexists. apply writes_library; eauto.
  - destruct (IH p t' i Ft) as (o & W). exists o. eapply writes_alias; eauto.
  - destruct (G _ _ _ Tx) as (y & Ty). eexists. eapply writes_tuple; eauto.
  - destruct (G _ _ _ Tx) as (y & Ty). eexists. eapply writes_enum; eauto.
  - assert (Z : forall f x k, In f fs -> element_member f x -> In k (those x kids) -> forall c, holds u (rf_type f) c (number x kids) -> (forall k, In k kids -> inst_name k = x -> fits_deep u P text p c k) -> exists o, written_deep u P wtext p c k o).
    { intros f x k If Em Ik c Hc Hk. unfold those in Ik. apply filter_In in Ik as [Ik E]. apply name_eqb_iff in E. exact (IH p c k (Hk k Ik E)). }
    clear IH. destruct (chosen_outs (fun f (lk : list (qname * str) * list (inst * inst)) => exists x, attribute_member f x /\ snd lk = [] /\ (exists c, holds u (rf_type f) c 1 /\ Forall2 (wtext p c) (values x attrs) (map snd (fst lk))) /\ (forall a, In a (fst lk) -> fst a = x) \/
       element_member f x /\ fst lk = [] /\ map fst (snd lk) = those x kids /\ exists c, holds u (rf_type f) c (number x kids) /\ forall k o, In (k, o) (snd lk) -> written_deep u P wtext p c k o) fs) as (outs & E & Ho).
    { intros f If. destruct (Al f If) as (x & [Y|Y]).
      - destruct (attribute_shown u P text wtext G p f x attrs (A0 f x If Y)) as (l & L1 & L2). exists (l, []). exists x. left. cbn [fst snd]. auto.
      - destruct (K2 f x If Y) as (c & Hc & Hk). destruct (chosen_outs (fun k o => written_deep u P wtext p c k o) (those x kids)) as (ks & Ek & Hks); [intros k Ik; eapply Z; eauto|]. exists ([], ks). exists x. right. cbn [fst snd]. eauto 10. }
    eexists. eapply (writes_struct u P wtext path t p d a m fs n attrs kids outs); auto. intros f l ks I. exact (Ho f (l, ks) I).
  - destruct (IH _ _ _ Ft) as (k' & Wk). clear IH. destruct (chosen_outs (fun g l => g = f /\ l = [] \/ exists x, attribute_member g x /\ (exists c, holds u (rf_type g) c 1 /\ Forall2 (wtext p c) (values x attrs) (map snd l)) /\ forall b : qname * str, In b l -> fst b = x) fs) as (outs & E & Ho).
    { intros g Ig. destruct (Al g Ig) as [->|(x & Am)]; [exists []; auto|]. destruct (attribute_shown u P text wtext G p g x attrs (A0 g x Ig Am)) as (l & L1 & L2). exists l. right. exists x. auto. }
    eexists. eapply writes_flat; eauto.
Qed.

Section Deep.
Context (u : uni) (its : list item).
Notation P := (concat (map (placed []) its)).
Context (Un : unshadowed P) (Ap : forall p d a m fs, In (p, IStruct d a m fs) P -> apart fs).
Notation FD := (fits_deep u P any_texts).
Notation WD := (written_deep u P same_text).
Notation out := (rfield * (list (qname * str) * list (inst * inst)))%type.
Notation outl := (rfield * list (qname * str))%type.
Lemma same_all p c l m : Forall2 (same_text p c) l m -> m = l.
Proof. induction 1 as [|x y l m E F IH]; auto. unfold same_text in E. congruence. Qed.
Lemma all_same p c l : Forall2 (same_text p c) l l.
Proof. induction l; constructor; auto. reflexivity. Qed.
Definition out_ok (p : list str) (attrs : list (qname * str)) (kids : list inst) (outs : list out) : Prop :=
  forall f l ks, In (f, (l, ks)) outs -> exists x,
    attribute_member f x /\ ks = [] /\ map snd l = values x attrs /\ (forall a, In a l -> fst a = x) \/
    element_member f x /\ l = [] /\ map fst ks = those x kids /\ exists c, holds u (rf_type f) c (number x kids) /\ forall k o, In (k, o) ks -> WD p c k o.
Definition outl_ok (f : rfield) (attrs : list (qname * str)) (outs : list outl) : Prop :=
  forall g l, In (g, l) outs -> g = f /\ l = [] \/ exists x, attribute_member g x /\ map snd l = values x attrs /\ forall b, In b l -> fst b = x.

(** ** Inversions *)
Ltac cases Wr := inversion Wr as [? l' ? ? ? Is' Ty'|? ? ? ? ? ? ? ? Na' W'|? ? ? ? ? ? ? ? ? ? Na' Ty'|? ? ? ? ? ? ? ? ? ? Na' Te' Ty'|? ? p1 d1 a1 m1 fs1 n1 attrs1 kids1 outs1 Na' Ef' Ho'|? ? p1 d1 a1 m1 fs1 n1 attrs1 k1 k1' outs1 f1 p1' d1' a1' m1' vs1 v1 c1 Na' Ef' If' Fl' Ho' Ne' Cd' Iv' Vm' Vu' Vt' Wk'].
Lemma library_inv path s i o : In s library_types -> WD path (rust u s) i o -> exists n x, i = Inst n [] [] x /\ o = i.
Proof. intros Is Wr. remember (rust u s) as ts eqn:Es. cases Wr; subst; [unfold same_text in Ty'; subst; eauto|..]; exfalso; eapply (library_free u P Un); eauto. Qed.
Lemma alias_inv path t p d m t' i o : SpecFit.names u P path t p (IType d m t') -> WD path t i o -> WD p t' i o.
Proof. intros Na Wr. cases Wr; subst; [exfalso; eapply (library_free u P Un); eauto|..]; destruct (FitProofs2.names_same _ _ _ _ _ _ _ _ Na Na') as [E1 E2]; try discriminate E2. injection E2 as <- <- <-. subst. auto. Qed.
Lemma tuple_inv path t p d a m c i o : SpecFit.names u P path t p (ITuple d a m c) -> WD path t i o -> exists n x, i = Inst n [] [] x /\ o = i.
Proof. intros Na Wr. cases Wr; subst; [exfalso; eapply (library_free u P Un); eauto|..]; destruct (FitProofs2.names_same _ _ _ _ _ _ _ _ Na Na') as [E1 E2]; try discriminate E2. unfold same_text in Ty'. subst. eauto. Qed.
Lemma enum_inv path t p d a m vs i o : SpecFit.names u P path t p (IEnum d a m vs) -> WD path t i o -> exists n x, i = Inst n [] [] x /\ o = i.
Proof. intros Na Wr. cases Wr; subst; [exfalso; eapply (library_free u P Un); eauto|..]; destruct (FitProofs2.names_same _ _ _ _ _ _ _ _ Na Na') as [E1 E2]; try discriminate E2. unfold same_text in Ty'. subst. eauto. Qed.
Lemma plain_inv path t p d a m fs i o : SpecFit.names u P path t p (IStruct d a m fs) -> (forall f, In f fs -> exists x, in_instance f x) -> WD path t i o ->
  exists n attrs kids (outs : list out), i = Inst n attrs kids [] /\ map fst outs = fs /\ out_ok p attrs kids outs /\
    o = Inst n (concat (map (fun o => fst (snd o)) outs)) (map snd (concat (map (fun o => snd (snd o)) outs))) [].
Proof.
  intros Na Al Wr. cases Wr; subst; [exfalso; eapply (library_free u P Un); eauto|..]; destruct (FitProofs2.names_same _ _ _ _ _ _ _ _ Na Na') as [E1 E2]; try discriminate E2; injection E2 as _ _ _ ->; subst.
  - do 4 eexists. split; [reflexivity|]. split; [reflexivity|]. split; [|reflexivity]. intros f l ks I. destruct (Ho' f l ks I) as (x & [(X1 & X2 & (c & _ & F2) & X3)|X]); exists x; [left|right; exact X]. rewrite (same_all _ _ _ _ F2). auto.
  - exfalso. destruct (Al _ If') as (x & X). eapply flat_unnamed; eauto.
Qed.
Lemma deep_flat_inv path t p d a m fs i f p' d' a' m' vs o : SpecFit.names u P path t p (IStruct d a m fs) -> shape fs f -> SpecFit.names u P p (rf_type f) p' (IEnum d' a' m' vs) ->
  WD path t i o -> exists n attrs k k' (outs : list outl) v c, i = Inst n attrs [k] [] /\ o = Inst n (concat (map snd outs)) [k'] [] /\ map fst outs = fs /\ outl_ok f attrs outs /\
    In v vs /\ variant_member v (inst_name k) /\ va_type v = Some c /\ WD p' c k k'.
Proof.
  intros Na Sh Ne Wr. cases Wr; subst; [exfalso; eapply (library_free u P Un); eauto|..]; destruct (FitProofs2.names_same _ _ _ _ _ _ _ _ Na Na') as [E1 E2]; try discriminate E2; injection E2 as _ _ _ ->; subst.
  - exfalso. destruct Sh as (If & Fl & _). apply in_map_iff in If as ([g [l ks]] & <- & Ig). destruct (Ho' _ _ _ Ig) as (x & [(Bm & _)|(Bm & _)]); eapply flat_unnamed; eauto; apply Bm.
  - rewrite (shape_one _ _ _ Sh If' Fl') in *. destruct (FitProofs2.names_same _ _ _ _ _ _ _ _ Ne Ne') as [E3 E4]. injection E4 as -> -> -> ->. subst. do 7 eexists. split; [reflexivity|]. split; [reflexivity|]. split; [reflexivity|]. split; [|eauto]. intros g l I. destruct (Ho' g l I) as [X|(x & X1 & (c & _ & F2) & X2)]; [left; exact X|right]. exists x. rewrite (same_all _ _ _ _ F2). auto.
Qed.
Lemma deep_name path t i o : WD path t i o -> inst_name i = inst_name o.
Proof. intros X. induction X; auto. Qed.
Lemma deep_second path t i o : WD path t i o -> second t.
Proof. intros X. destruct X as [path s n x y I|? ? ? ? ? ? ? ? Na|? ? ? ? ? ? ? ? ? ? Na|? ? ? ? ? ? ? ? ? ? Na|? ? ? ? ? ? ? ? ? ? ? Na|? ? ? ? ? ? ? ? ? ? ? ? ? ? ? ? ? ? ? ? Na]; [apply library_second; auto|eapply seen_second; apply Na..]. Qed.
Lemma holding_second path t i : FD path t i -> second t.
Proof. intros X. destruct X as [path s n x I|? ? ? ? ? ? ? Na|? ? ? ? ? ? ? ? ? Na|? ? ? ? ? ? ? ? ? Na|? ? ? ? ? ? ? ? ? ? Na|? ? ? ? ? ? ? ? ? ? ? ? ? ? ? ? ? ? Na]; [apply library_second; auto|eapply seen_second; apply Na..]. Qed.

(** ** It is alike *)
Lemma members_named fs : (forall f, In f fs -> exists x, attribute_member f x \/ element_member f x) -> forall f, In f fs -> exists x, in_instance f x.
Proof. intros H f If. destruct (H f If) as (x & [X|X]); exists x; apply X. Qed.
Lemma deep_alike : forall path t i, FD path t i -> forall o, WD path t i o -> alike i o.
Proof.
  fix IH 4. intros path t i Ft. destruct Ft as [path s n x Is Tx|path t p d m t' i Na Ft|path t p d a m c n x Na Tx|path t p d a m vs n x Na Te Tx|path t p d a m fs n attrs kids Na A1 A0 A2 K1 K2 Al|path t p d a m fs n attrs k f p' d' a' m' vs v c Na A1 A0 A2 If Fl Al Ne Cd Iv Vm Vu Vt Ft]; intros o Wr.
  - destruct (library_inv _ _ _ _ Is Wr) as (? & ? & _ & ->). apply (alike_intro n [] [] [] [] x); [tauto|reflexivity|intros ? ? []|intros ? ? []].
  - exact (IH _ _ _ Ft _ (alias_inv _ _ _ _ _ _ _ _ Na Wr)).
  - destruct (tuple_inv _ _ _ _ _ _ _ _ _ Na Wr) as (? & ? & _ & ->). apply (alike_intro n [] [] [] [] x); [tauto|reflexivity|intros ? ? []|intros ? ? []].
  - destruct (enum_inv _ _ _ _ _ _ _ _ _ Na Wr) as (? & ? & _ & ->). apply (alike_intro n [] [] [] [] x); [tauto|reflexivity|intros ? ? []|intros ? ? []].
  - assert (Apf : apart fs) by (eapply Ap, seen_placed; apply Na). destruct Apf as [One Two].
    destruct (plain_inv _ _ _ _ _ _ _ _ _ Na (members_named _ Al) Wr) as (n' & attrs' & kids' & outs & Ei & Ef & Ho & ->). injection Ei as <- <- <-. subst fs.
    assert (Out : forall f, In f (map fst outs) -> exists l ks, In (f, (l, ks)) outs) by (intros f If; apply in_map_iff in If as ([f' [l ks]] & <- & I); eauto).
    assert (Fin : forall f l ks, In (f, (l, ks)) outs -> In f (map fst outs)) by (intros f l ks I; apply in_map_iff; exists (f, (l, ks)); auto).
    apply (alike_intro n attrs _ kids (concat (map (fun o : out => snd (snd o)) outs)) []).
    + intros [x v]. split; intros I.
      * destruct (A1 x v I) as (f & If & Am). destruct (Out f If) as (l & ks & Io). destruct (Ho _ _ _ Io) as (y & [(Bm & _ & F2 & Hl)|(Bm & _)]); [|exfalso; apply (proj1 Bm), (proj1 Am)].
        assert (y = x) by (eapply One; [exact If|apply Bm|apply Am]). subst y. apply in_values in I. rewrite <- F2 in I. rename I into Iw.
        apply in_map_iff in Iw as ([y w] & Ew & Iw). cbn [snd] in Ew. subst w. pose proof (Hl _ Iw) as Ey. cbn [fst] in Ey. subst y. apply in_concat. exists l. split; auto. apply in_map_iff. exists (f, (l, ks)). auto.
      * apply in_concat in I as (l & Il & I). apply in_map_iff in Il as ([f [l' ks]] & El & Io). cbn [fst snd] in El. subst l'. destruct (Ho _ _ _ Io) as (y & [(Bm & _ & F2 & Hl)|(_ & -> & _)]); [|destruct I].
        assert (Iv : In v (map snd l)) by (apply in_map_iff; exists (x, v); auto). rewrite F2 in Iv.
        pose proof (Hl _ I) as Ey. cbn [fst] in Ey. subst y. apply values_in. auto.
    + clear IH. intros y. assert (Inc : forall k, In k (map fst (concat (map (fun o : out => snd (snd o)) outs))) -> In k kids).
      { intros k I. apply in_map_iff in I as ([k' o] & <- & I). apply in_concat in I as (ks & Ik & I). apply in_map_iff in Ik as ([f [l ks']] & Ek & Io). cbn [fst snd] in Ek. subst ks'. destruct (Ho _ _ _ Io) as (x & [(_ & -> & _)|(_ & _ & E & _)]); [destruct I|].
        assert (J : In k' (those x kids)) by (rewrite <- E; apply in_map_iff; exists (k', o); auto). unfold those in J. apply filter_In in J. apply J. }
      destruct (those y kids) as [|k0 r] eqn:Ey.
      * apply filter_nil. intros k I. apply not_true_iff_false. intros X. assert (J : In k (those y kids)) by (apply filter_In; auto). rewrite Ey in J. destruct J.
      * assert (I0 : In k0 (those y kids)) by (rewrite Ey; left; auto). apply filter_In in I0 as [I0 N0]. apply name_eqb_iff in N0. destruct (K1 k0 I0) as (f & If & Em). rewrite N0 in Em. destruct (Out f If) as (l & ks & Io).
        destruct (in_split _ _ Io) as (oa & ob & Eo). destruct (Ho _ _ _ Io) as (x & [(Bm & _)|(Bm & _ & E & _)]); [exfalso; apply (proj1 Em), (proj1 Bm)|].
        assert (x = y) by (eapply One; [exact If|apply Bm|apply Em]). subst x.
        assert (Other : forall l', incl l' outs -> (forall g l1 ks1, In (g, (l1, ks1)) l' -> ~ in_instance g y) -> those y (map fst (concat (map (fun o : out => snd (snd o)) l'))) = []).
        { intros l' Il Nl. apply filter_nil. intros k I. apply not_true_iff_false. intros X. apply name_eqb_iff in X. apply in_map_iff in I as ([k' o] & <- & I). apply in_concat in I as (ks1 & Ik & I). apply in_map_iff in Ik as ([g [l1 ks2]] & Ek & Ig). cbn [fst snd] in *. subst ks2.
          destruct (Ho _ _ _ (Il _ Ig)) as (x & [(_ & -> & _)|(Gm & _ & E1 & _)]); [destruct I|]. assert (J : In k' (those x kids)) by (rewrite <- E1; apply in_map_iff; exists (k', o); auto). unfold those in J. apply filter_In in J as [_ J]. apply name_eqb_iff in J.
          apply (Nl _ _ _ Ig). rewrite <- X, J. apply Gm. }
        rewrite Eo, map_app, concat_app, map_app, those_app. cbn [map List.concat fst snd]. rewrite map_app, those_app, E, those_same, (Other oa), (Other ob), app_nil_r; auto.
        -- intros z I. rewrite Eo. apply in_or_app. right. right. auto.
        -- intros g l1 ks1 Ig X. destruct (in_split _ _ Ig) as (o1 & o2 & ->). apply (Two (map fst oa) f (map fst o1) g (map fst o2) y); [|apply Bm|auto]. rewrite Eo, map_app. cbn [map fst]. rewrite map_app. reflexivity.
        -- intros z I. rewrite Eo. apply in_or_app. auto.
        -- intros g l1 ks1 Ig X. destruct (in_split _ _ Ig) as (o1 & o2 & ->). apply (Two (map fst o1) g (map fst o2) f (map fst ob) y); [|auto|apply Bm]. rewrite Eo, map_app, map_app. cbn [map fst]. rewrite <- app_assoc. reflexivity.
    + clear IH. intros k o I. apply in_concat in I as (ks & Ik & I). apply in_map_iff in Ik as ([f [l ks']] & Ek & Io). cbn [fst snd] in Ek. subst ks'. destruct (Ho _ _ _ Io) as (x & [(_ & -> & _)|(_ & _ & _ & c & _ & Hw)]); [destruct I|].
      eapply deep_name. apply Hw. exact I.
    + intros k o I. apply in_concat in I as (ks & Ik & I). apply in_map_iff in Ik as ([f [l ks']] & Ek & Io). cbn [fst snd] in Ek. subst ks'. destruct (Ho _ _ _ Io) as (x & [(_ & -> & _)|(Bm & _ & E & c & Hc & Hw)]); [destruct I|].
      assert (J : In k (those x kids)) by (rewrite <- E; apply in_map_iff; exists (k, o); split; [reflexivity|exact I]). unfold those in J. apply filter_In in J as [J1 J2]. apply name_eqb_iff in J2.
      destruct (K2 f x (Fin _ _ _ Io) Bm) as (c' & Hc' & Hk). specialize (Hw k o I). assert (Fk := IH _ _ _ (Hk k J1 J2)).
      assert (c = c') by (eapply holds_same; [exact Hc|exact Hc'|eapply deep_second; exact Hw|eapply holding_second; apply (Hk k J1 J2)]). subst c'. exact (Fk o Hw).
  - assert (Sh : shape fs f) by (split; [exact If|split; [exact Fl|exact Al]]). destruct (deep_flat_inv _ _ _ _ _ _ _ _ _ _ _ _ _ _ _ Na Sh Ne Wr) as (n1 & attrs1 & k1 & k' & outs & v1 & c1 & Ei & -> & Ef & Ho & Iv1 & Vm1 & Vt1 & Wk).
    injection Ei as <- <- <-. rewrite (Vu _ Iv1 Vm1) in Vt1. rewrite Vt in Vt1. injection Vt1 as <-. assert (Ak := IH _ _ _ Ft _ Wk). clear IH.
    apply (alike_intro n attrs (concat (map snd outs)) [k] [(k, k')] []).
    + eapply flat_attributes; eauto. eapply Ap, seen_placed; apply Na.
    + reflexivity.
    + intros ? ? [[= <- <-]|[]]. eapply deep_name; eauto.
    + intros ? ? [[= <- <-]|[]]. exact Ak.
Qed.
Lemma alike_deep : forall path t i, FD path t i -> forall o, alike i o -> FD path t o.
Proof.
  fix IH 4. intros path t i Ft. destruct Ft as [path s n x Is Tx|path t p d m t' i Na Ft|path t p d a m c n x Na Tx|path t p d a m vs n x Na Te Tx|path t p d a m fs n attrs kids Na A1 A0 A2 K1 K2 Al|path t p d a m fs n attrs k f p' d' a' m' vs v c Na A1 A0 A2 If Fl Al Ne Cd Iv Vm Vu Vt Ft]; intros o Ao.
  - apply alike_text in Ao as ->. apply deep_library; [exact Is|exact I].
  - eapply deep_alias; [exact Na|]. exact (IH _ _ _ Ft _ Ao).
  - apply alike_text in Ao as ->. eapply deep_tuple; [exact Na|exact I].
  - apply alike_text in Ao as ->. eapply deep_enum; [exact Na|exact Te|exact I].
  - remember (Inst n attrs kids []) as i eqn:E. destruct Ao as [n' attrs0 attrs' kids0 pairs x' HA HK HN HR]. injection E as -> -> -> ->. pose proof (those_all _ _ HK) as Ka. eapply deep_struct; [exact Na|..].
    + intros x v I. apply (A1 x v). apply HA. auto.
    + intros f x If Am. destruct (A0 f x If Am) as (c & Hc & _). exists c. split; [exact Hc|]. intros v _. exact I.
    + intros f x If Am Nx. apply (A2 f x If Am). intros I. apply Nx. apply in_map_iff in I as ([y v] & <- & I). apply in_map_iff. exists (y, v). split; auto. apply HA. auto.
    + intros o Io. apply in_map_iff in Io as ([k o'] & <- & I). cbn [snd]. rewrite <- (HN _ _ I). apply K1. apply Ka. apply in_map_iff. exists (k, o'). auto.
    + intros f x If Em. destruct (K2 f x If Em) as (c & Hc & Hk). exists c. split.
      * rewrite <- (number_names x pairs HN), (those_counted x _ _ (HK x)). auto.
      * intros o Io Eo. apply in_map_iff in Io as ([k o'] & E & I). cbn [snd] in E. subst o'. assert (Ik : In k kids) by (apply Ka, in_map_iff; exists (k, o); auto). assert (Ek : inst_name k = x) by (rewrite (HN _ _ I); auto).
        exact (IH _ _ _ (Hk k Ik Ek) o (HR _ _ I)).
    + exact Al.
  - remember (Inst n attrs [k] []) as i eqn:E. destruct Ao as [n' attrs0 attrs' kids0 pairs x' HA HK HN HR]. injection E as -> -> -> ->. destruct (one_kid _ _ HK) as (k' & ->). specialize (HN k k' (or_introl eq_refl)). specialize (HR k k' (or_introl eq_refl)). cbn [map snd].
    assert (Fk := IH _ _ _ Ft _ HR). clear IH. eapply deep_flat; eauto.
    + intros x y Iy. apply (A1 x y). apply HA. auto.
    + intros g x Ig Am. destruct (A0 g x Ig Am) as (c0 & Hc & _). exists c0. split; [exact Hc|]. intros ? _. exact I.
    + intros g x Ig Am Nx. apply (A2 g x Ig Am). intros I. apply Nx. apply in_map_iff in I as ([y w] & <- & I). apply in_map_iff. exists (y, w). split; auto. apply HA. auto.
    + rewrite <- HN. auto.
    + rewrite <- HN. auto.
Qed.

(** ** What is written once is written the same way again, and in one way *)
Lemma outs_named p attrs kids (outs : list out) fs : map fst outs = fs -> out_ok p attrs kids outs -> forall f, In f fs -> exists x, in_instance f x.
Proof. intros <- Ho f If. apply in_map_iff in If as ([g [l ks]] & <- & Ig). destruct (Ho _ _ _ Ig) as (x & [(Bm & _)|(Bm & _)]); exists x; apply Bm. Qed.
Lemma raw_out p attrs kids (outs : list out) : (forall f l ks, In (f, (l, ks)) outs -> exists x,
    attribute_member f x /\ ks = [] /\ (exists c, holds u (rf_type f) c 1 /\ Forall2 (same_text p c) (values x attrs) (map snd l)) /\ (forall a, In a l -> fst a = x) \/
    element_member f x /\ l = [] /\ map fst ks = those x kids /\ exists c, holds u (rf_type f) c (number x kids) /\ forall k o, In (k, o) ks -> WD p c k o) -> out_ok p attrs kids outs.
Proof. intros Hr f l ks Io. destruct (Hr f l ks Io) as (x & [(X1 & X2 & (c & _ & F2) & X3)|X]); exists x; [left|right; exact X]. rewrite (same_all _ _ _ _ F2). auto. Qed.
Lemma raw_outl p f attrs (outs : list outl) : (forall g l, In (g, l) outs -> g = f /\ l = [] \/
    exists x, attribute_member g x /\ (exists c, holds u (rf_type g) c 1 /\ Forall2 (same_text p c) (values x attrs) (map snd l)) /\ forall b, In b l -> fst b = x) -> outl_ok f attrs outs.
Proof. intros Hr g l Io. destruct (Hr g l Io) as [X|(x & X1 & (c & _ & F2) & X2)]; [left; exact X|right]. exists x. rewrite (same_all _ _ _ _ F2). auto. Qed.
Lemma deep_again : forall path t i o, WD path t i o -> forall o', WD path t o o' -> o' = o.
Proof.
  fix IH 5. intros path t i o Wr. destruct Wr as [path s n x y Is Ty|path t p d m t' i o Na Wr|path t p d a m c n x y Na Ty|path t p d a m vs n x y Na Te Ty|path t p d a m fs n attrs kids outs Na Ef Hr|path t p d a m fs n attrs k k' outs f p' d' a' m' vs v c Na Ef If Fl Hr Ne Cd Iv Vm Vu Vt Wk]; intros o' Wr'.
  - destruct (library_inv _ _ _ _ Is Wr') as (? & ? & E & ->). unfold same_text in Ty. subst. try injection E as _ <-. reflexivity.
  - exact (IH _ _ _ _ Wr _ (alias_inv _ _ _ _ _ _ _ _ Na Wr')).
  - destruct (tuple_inv _ _ _ _ _ _ _ _ _ Na Wr') as (? & ? & E & ->). unfold same_text in Ty. subst. try injection E as _ <-. reflexivity.
  - destruct (enum_inv _ _ _ _ _ _ _ _ _ Na Wr') as (? & ? & E & ->). unfold same_text in Ty. subst. try injection E as _ <-. reflexivity.
  - assert (Ho := raw_out _ _ _ _ Hr). assert (Apf : apart fs) by (eapply Ap, seen_placed; apply Na). destruct Apf as [One Two].
    destruct (plain_inv _ _ _ _ _ _ _ _ _ Na (outs_named _ _ _ _ _ Ef Ho) Wr') as (n' & attrs' & kids' & outs' & Ei & E2 & Ho' & ->). injection Ei as <- <- <-. clear Wr'.
    assert (Own : forall f l ks x, In (f, (l, ks)) outs -> in_instance f x -> (forall b, In b l -> fst b = x) /\ (forall b, In b ks -> inst_name (snd b) = x)).
    { intros f l ks x Io Ix. assert (If : In f fs) by (rewrite <- Ef; apply in_map_iff; exists (f, (l, ks)); auto). destruct (Ho _ _ _ Io) as (y & [(Bm & -> & _ & Hl)|(Bm & -> & E & c & _ & Hw)]); (assert (y = x) by (eapply One; [exact If|apply Bm|exact Ix])); subst y.
      - split; auto. intros b [].
      - split; [intros b []|]. intros [k o] I. cbn [snd]. assert (J : In k (those x kids)) by (rewrite <- E; apply in_map_iff; exists (k, o); auto). unfold those in J. apply filter_In in J as [_ J]. apply name_eqb_iff in J. rewrite <- J.
        symmetry. eapply deep_name. apply Hw. exact I. }
    assert (Pick : forall f l ks x, In (f, (l, ks)) outs -> in_instance f x ->
      filter (fun b : qname * str => name_eqb (fst b) x) (concat (map (fun o : out => fst (snd o)) outs)) = l /\
      filter (fun b : inst * inst => name_eqb (inst_name (snd b)) x) (concat (map (fun o : out => snd (snd o)) outs)) = ks).
    { intros f l ks x Io Ix. destruct (Own _ _ _ _ Io Ix) as [O1 O2]. destruct (in_split _ _ Io) as (oa & ob & Eo).
      assert (No : forall g l1 ks1, In (g, (l1, ks1)) (oa ++ ob) -> ~ in_instance g x).
      { intros g l1 ks1 Ig X. apply in_app_or in Ig as [Ig|Ig]; destruct (in_split _ _ Ig) as (o1 & o2 & Eg); rewrite Eg in Eo.
        - apply (Two (map fst o1) g (map fst o2) f (map fst ob) x); auto. rewrite <- Ef, Eo, map_app, map_app. cbn [map fst]. rewrite <- app_assoc. reflexivity.
        - apply (Two (map fst oa) f (map fst o1) g (map fst o2) x); auto. rewrite <- Ef, Eo, map_app. cbn [map fst]. rewrite map_app. reflexivity. }
      assert (Nb : forall g l1 ks1, In (g, (l1, ks1)) (oa ++ ob) -> (forall b, In b l1 -> fst b <> x) /\ (forall b, In b ks1 -> inst_name (snd b) <> x)).
      { intros g l1 ks1 Ig. pose proof (No _ _ _ Ig) as Ng. assert (Ig' : In (g, (l1, ks1)) outs) by (rewrite Eo; apply in_app_or in Ig as [Ig|Ig]; apply in_or_app; [left|right; right]; auto).
        destruct (Ho _ _ _ Ig') as (y & [(Bm & _)|(Bm & _)]); destruct (Own _ _ _ y Ig' (proj2 Bm)) as [Q1 Q2]; split; intros b Ib E; [pose proof (Q1 b Ib)|pose proof (Q2 b Ib)|pose proof (Q1 b Ib)|pose proof (Q2 b Ib)]; apply Ng; (replace x with y by congruence); apply Bm. }
      rewrite Eo. split; [rewrite (picked fst (fun o : out => fst (snd o)) x oa (f, (l, ks)) ob)|rewrite (picked (fun b => inst_name (snd b)) (fun o : out => snd (snd o)) x oa (f, (l, ks)) ob)]; auto; intros [g [l1 ks1]] b Ig Ib; cbn [fst snd] in Ib; destruct (Nb _ _ _ Ig); auto. }
    assert (Th : forall (x : qname) (l : list (inst * inst)), those x (map snd l) = map snd (filter (fun b : inst * inst => name_eqb (inst_name (snd b)) x) l)).
    { intros x l. unfold those. induction l as [|[k o] l IHl]; auto. cbn [map filter snd]. destruct (name_eqb (inst_name o) x); cbn [map snd]; congruence. }
    assert (Same : forall f l ks l' ks', In (f, (l, ks)) outs -> In (f, (l', ks')) outs' -> l' = l /\ map snd ks' = map snd ks).
    { intros f l ks l' ks' Io Io'. assert (If : In f fs) by (rewrite <- Ef; apply in_map_iff; exists (f, (l, ks)); split; [reflexivity|exact Io]).
      destruct (Hr _ _ _ Io) as (x & [(Bm & Ek & _ & Hl)|(Bm & El & _ & c & Hc & Hw)]); destruct (Pick _ _ _ _ Io (proj2 Bm)) as [Pl Pk];
        destruct (Ho' _ _ _ Io') as (y & [(Bm' & Ek' & F2 & Hl')|(Bm' & El' & E' & c' & Hc' & Hw')]); try (exfalso; apply (proj1 Bm), (proj1 Bm'); fail); try (exfalso; apply (proj1 Bm'), (proj1 Bm); fail);
        (assert (y = x) by (eapply One; [exact If|apply Bm'|apply Bm])); subst y.
      - subst ks ks'. split; [|reflexivity]. unfold values in F2. rewrite Pl in F2. rewrite (all_named x l' Hl'), (all_named x l Hl), F2. reflexivity.
      - subst l l'. split; [reflexivity|]. rewrite Th, Pk in E'. rewrite <- E'.
        assert (Each : forall o1 o2, In (o1, o2) ks' -> o2 = o1).
        { intros o1 o2 I. assert (J : In o1 (map snd ks)) by (rewrite <- E'; apply in_map_iff; exists (o1, o2); auto). apply in_map_iff in J as ([k o0] & E & J). cbn [snd] in E. subst o0.
          pose proof (Hw' _ _ I) as W2. assert (c' = c) by (eapply holds_same; [exact Hc'|exact Hc|eapply deep_second; exact W2|eapply deep_second; exact (Hw _ _ J)]).
          subst c'. exact (IH _ _ _ _ (Hw _ _ J) _ W2). }
        clear - Each. induction ks' as [|[o1 o2] r IHr]; auto. cbn [map fst snd]. rewrite (Each o1 o2 (or_introl eq_refl)). f_equal. apply IHr. intros; apply Each. right. auto. }
    assert (Eq : map (fun o : out => fst (snd o)) outs' = map (fun o : out => fst (snd o)) outs /\ map (fun o : out => map snd (snd (snd o))) outs' = map (fun o : out => map snd (snd (snd o))) outs).
    { clear - Same Ef E2. assert (Em : map fst outs' = map fst outs) by congruence. clear Ef E2. revert outs' Same Em. induction outs as [|[f [l ks]] r IHr]; intros [|[f' [l' ks']] r'] Same Em; try discriminate Em; auto. cbn [map fst] in Em. injection Em as -> Em.
      destruct (Same f l ks l' ks' (or_introl eq_refl) (or_introl eq_refl)) as [-> E]. destruct (IHr r') as [Q1 Q2]; auto; [intros; eapply Same; right; eauto|]. cbn [map fst snd]. rewrite Q1, Q2, E. auto. }
    destruct Eq as [Q1 Q2]. assert (Mc : forall l : list out, map snd (concat (map (fun o : out => snd (snd o)) l)) = concat (map (fun o : out => map snd (snd (snd o))) l)).
    { intros l. rewrite concat_map, map_map. reflexivity. }
    rewrite !Mc, Q1, Q2. reflexivity.
  - assert (Ho := raw_outl _ _ _ _ Hr). clear Hr. assert (Sh := outs_shape _ _ _ _ Ef If Fl Ho). assert (Aps : apart fs) by (eapply Ap, seen_placed; apply Na). destruct (deep_flat_inv _ _ _ _ _ _ _ _ _ _ _ _ _ _ _ Na Sh Ne Wr') as (n1 & attrs1 & k1 & k2 & outs' & v1 & c1 & Ei & -> & Ef' & Ho' & Iv1 & Vm1 & Vt1 & Wk').
    injection Ei as <- <- <-. rewrite <- (deep_name _ _ _ _ Wk) in Vm1. rewrite (Vu _ Iv1 Vm1) in Vt1. rewrite Vt in Vt1. injection Vt1 as <-. rewrite (IH _ _ _ _ Wk _ Wk'). clear IH.
    rewrite (outs_same fs f outs outs' attrs (concat (map snd outs)) Aps Sh Ef Ef' Ho Ho'); [reflexivity|].
    intros g l x Io Am. unfold values. destruct (in_split _ _ Io) as (oa & ob & Eo). assert (Ig0 : In g fs) by (rewrite <- Ef; apply in_map_iff; exists (g, l); auto).
    assert (Hl : forall b, In b l -> fst b = x).
    { destruct (Ho _ _ Io) as [[-> ->]|(y & Bm & _ & Hl)]; [intros b []|]. assert (y = x) by (eapply (proj1 Aps); [exact Ig0|apply Bm|apply Am]). subst y. auto. }
    rewrite Eo, (picked fst (@snd rfield (list (qname * str))) x oa (g, l) ob); auto.
    intros [g1 l1] b Ig Ib Eb. cbn [snd] in Ib. assert (Io1 : In (g1, l1) outs) by (rewrite Eo; apply in_app_or in Ig as [Ig|Ig]; apply in_or_app; [left|right; right]; auto).
    destruct (Ho _ _ Io1) as [[_ ->]|(y & Bm & _ & Hl1)]; [destruct Ib|]. pose proof (Hl1 _ Ib) as Ey. assert (Ex : y = x) by congruence. rewrite Ex in Bm. destruct Aps as [_ Two].
    apply in_app_or in Ig as [Ig|Ig]; destruct (in_split _ _ Ig) as (o1 & o2 & Eg); rewrite Eg in Eo.
    + apply (Two (map fst o1) g1 (map fst o2) g (map fst ob) x); [|apply Bm|apply Am]. rewrite <- Ef, Eo, map_app, map_app. cbn [map fst]. rewrite <- app_assoc. reflexivity.
    + apply (Two (map fst oa) g (map fst o1) g1 (map fst o2) x); [|apply Am|apply Bm]. rewrite <- Ef, Eo, map_app. cbn [map fst]. rewrite map_app. reflexivity.
Qed.
Lemma deep_once : forall path t i o, WD path t i o -> forall o', WD path t i o' -> o' = o.
Proof.
  fix IH 5. intros path t i o Wr. destruct Wr as [path s n x y Is Ty|path t p d m t' i o Na Wr|path t p d a m c n x y Na Ty|path t p d a m vs n x y Na Te Ty|path t p d a m fs n attrs kids outs Na Ef Hr|path t p d a m fs n attrs k k' outs f p' d' a' m' vs v c Na Ef If Fl Hr Ne Cd Iv Vm Vu Vt Wk]; intros o' Wr'.
  - destruct (library_inv _ _ _ _ Is Wr') as (? & ? & E & ->). unfold same_text in Ty. subst. try injection E as _ <-. reflexivity.
  - exact (IH _ _ _ _ Wr _ (alias_inv _ _ _ _ _ _ _ _ Na Wr')).
  - destruct (tuple_inv _ _ _ _ _ _ _ _ _ Na Wr') as (? & ? & E & ->). unfold same_text in Ty. subst. try injection E as _ <-. reflexivity.
  - destruct (enum_inv _ _ _ _ _ _ _ _ _ Na Wr') as (? & ? & E & ->). unfold same_text in Ty. subst. try injection E as _ <-. reflexivity.
  - assert (Ho := raw_out _ _ _ _ Hr). assert (Apf : apart fs) by (eapply Ap, seen_placed; apply Na). destruct Apf as [One Two].
    destruct (plain_inv _ _ _ _ _ _ _ _ _ Na (outs_named _ _ _ _ _ Ef Ho) Wr') as (n' & attrs' & kids' & outs' & Ei & E2 & Ho' & ->). injection Ei as <- <- <-. clear Wr'.
    assert (Same : forall f l ks l' ks', In (f, (l, ks)) outs -> In (f, (l', ks')) outs' -> l' = l /\ map snd ks' = map snd ks).
    { intros f l ks l' ks' Io Io'. assert (If : In f fs) by (rewrite <- Ef; apply in_map_iff; exists (f, (l, ks)); split; [reflexivity|exact Io]).
      destruct (Hr _ _ _ Io) as (x & [(Bm & Ek & (c & _ & F2) & Hl)|(Bm & El & E & c & Hc & Hw)]);
        destruct (Ho' _ _ _ Io') as (y & [(Bm' & Ek' & F2' & Hl')|(Bm' & El' & E' & c' & Hc' & Hw')]); try (exfalso; apply (proj1 Bm), (proj1 Bm'); fail); try (exfalso; apply (proj1 Bm'), (proj1 Bm); fail);
        (assert (y = x) by (eapply One; [exact If|apply Bm'|apply Bm])); subst y.
      - subst ks ks'. split; [|reflexivity]. rewrite (all_named x l' Hl'), (all_named x l Hl), (same_all _ _ _ _ F2), F2'. reflexivity.
      - subst l l'. split; [reflexivity|]. rewrite <- E in E'.
        assert (Each : forall k o1 o2, In (k, o1) ks -> In (k, o2) ks' -> o2 = o1).
        { intros k o1 o2 I J. pose proof (Hw' _ _ J) as W2. assert (c' = c) by (eapply holds_same; [exact Hc'|exact Hc|eapply deep_second; exact W2|eapply deep_second; exact (Hw _ _ I)]).
          subst c'. exact (IH _ _ _ _ (Hw _ _ I) _ W2). }
        clear - Each E'. revert ks' Each E'. induction ks as [|[k o1] r IHr]; intros [|[k' o2] r'] Each E'; try discriminate E'; auto. cbn [map fst] in E'. injection E' as -> E'. cbn [map snd]. rewrite (Each k o1 o2 (or_introl eq_refl) (or_introl eq_refl)). f_equal. apply IHr; auto. intros; eapply Each; right; eauto. }
    assert (Eq : map (fun o : out => fst (snd o)) outs' = map (fun o : out => fst (snd o)) outs /\ map (fun o : out => map snd (snd (snd o))) outs' = map (fun o : out => map snd (snd (snd o))) outs).
    { clear - Same Ef E2. assert (Em : map fst outs' = map fst outs) by congruence. clear Ef E2. revert outs' Same Em. induction outs as [|[f [l ks]] r IHr]; intros [|[f' [l' ks']] r'] Same Em; try discriminate Em; auto. cbn [map fst] in Em. injection Em as -> Em.
      destruct (Same f l ks l' ks' (or_introl eq_refl) (or_introl eq_refl)) as [-> E]. destruct (IHr r') as [Q1 Q2]; auto; [intros; eapply Same; right; eauto|]. cbn [map fst snd]. rewrite Q1, Q2, E. auto. }
    destruct Eq as [Q1 Q2]. assert (Mc : forall l : list out, map snd (concat (map (fun o : out => snd (snd o)) l)) = concat (map (fun o : out => map snd (snd (snd o))) l)).
    { intros l. rewrite concat_map, map_map. reflexivity. }
    rewrite !Mc, Q1, Q2. reflexivity.
  - assert (Ho := raw_outl _ _ _ _ Hr). clear Hr. assert (Sh := outs_shape _ _ _ _ Ef If Fl Ho). assert (Aps : apart fs) by (eapply Ap, seen_placed; apply Na). destruct (deep_flat_inv _ _ _ _ _ _ _ _ _ _ _ _ _ _ _ Na Sh Ne Wr') as (n1 & attrs1 & k1 & k2 & outs' & v1 & c1 & Ei & -> & Ef' & Ho' & Iv1 & Vm1 & Vt1 & Wk').
    injection Ei as <- <- <-. rewrite (Vu _ Iv1 Vm1) in Vt1. rewrite Vt in Vt1. injection Vt1 as <-. rewrite (IH _ _ _ _ Wk _ Wk'). clear IH.
    rewrite (outs_same fs f outs outs' attrs attrs Aps Sh Ef Ef' Ho Ho'); [reflexivity|].
    intros g l x Io Am. destruct (Ho _ _ Io) as [[-> _]|(y & Bm & El & _)]; [exfalso; eapply flat_unnamed; [exact Fl|apply Am]|]. destruct Aps as [One _].
    assert (y = x) by (eapply One; [rewrite <- Ef; apply in_map_iff; exists (g, l); split; [reflexivity|exact Io]|apply Bm|apply Am]). subst y. symmetry. exact El.
Qed.
End Deep.

(** * C86, writing *)
Definition kept_deep (u : uni) (P : list (list str * item)) (path : list str) (t : list token) (i : inst) : Prop :=
  exists o, written_deep u P same_text path t i o /\ (forall o', written_deep u P same_text path t i o' -> o' = o) /\
    alike i o /\ fits_deep u P any_texts path t o /\ written_deep u P same_text path t o o.
Theorem C86_written_back : forall u f l its, file_items u f l its -> distinct_types its -> distinct_members its ->
  forall path t i, fits_deep u (concat (map (placed []) its)) any_texts path t i -> kept_deep u (concat (map (placed []) its)) path t i.
Proof.
  intros u f l its It Dt Dm path t i Ft. pose proof (distinct_unshadowed _ Dt) as Un. pose proof (items_apart _ _ _ _ _ _ It Dm) as Ap. destruct (deep_written u _ any_texts same_text (fun _ _ x _ => ex_intro _ x eq_refl) _ _ _ Ft) as (o & Wo). exists o.
  split; [exact Wo|]. split; [intros o' W'; eapply deep_once; eauto|]. assert (Ao : alike i o) by (eapply deep_alike; eauto). split; [exact Ao|]. assert (Fo := alike_deep u its _ _ _ Ft _ Ao). split; [exact Fo|].
  destruct (deep_written u _ any_texts same_text (fun _ _ x _ => ex_intro _ x eq_refl) _ _ _ Fo) as (o' & W'). rewrite (deep_again u its Un Ap _ _ _ _ Wo _ W') in W'. exact W'.
Qed.
Print Assumptions C86_written_back.
Theorem C86_nested_written : forall u roots schema f its, document roots schema -> ok_schema schema -> tidy schema -> parse u roots = Ok f ->
  (forall x, part x schema -> orderly u schema (ns_prefix (rf_target_ns f)) (ns_prefix (rf_xsd_ns f)) x) ->
  separate_types schema (type_name_of u f) (format_name u) -> separate_members schema u (format_name u) (variant_name u (rf_target_ns f)) -> file_items u f (rf_types f) its ->
  let own := ns_prefix (rf_target_ns f) in let xsd := ns_prefix (rf_xsd_ns f) in
  let kept := kept_deep u (concat (map (placed []) its)) in
  forall T i path, nested schema own xsd any_attribute any_text T i ->
    (forall q, type_named schema own xsd q T -> regular_type xsd q -> kept path (type_name_of u f q) i) /\
    (forall l d, SpecFit.declared schema "element" l d -> absent d "ref" -> absent d "type" -> type_of schema own xsd d T ->
       (forall t c, T = Complex t -> ~ choice_type schema own xsd t c) -> kept path (type_name_of u f l) i).
Proof.
  intros u roots schema f its D O T H Or St Sm It own xsd kept Ty i path Ne. assert (K : forall t, fits_deep u (concat (map (placed []) its)) any_texts path t i -> kept path t i).
  { intros t Ft. apply (C86_written_back u f (rf_types f)); auto; [eapply C66_distinct; eauto|eapply C67_members; eauto]. }
  destruct (C86_nested_fit u roots schema f its D O T H Or St It Ty i path Ne) as [F1 F2]. split; [intros q Tn Rt; apply K, F1; auto|intros l d De Ar At To Nc; apply K; eapply F2; eauto].
Qed.
Print Assumptions C86_nested_written.
(** The party of [C86_ex3]. *)
Example C86_ex5 : forall f its path, parse u2 [parties] = Ok f -> file_items u2 f (rf_types f) its ->
  kept_deep u2 (concat (map (placed []) its)) path (rust u2 "Party") a_party.
Proof.
  intros f its path Hf Hi. pose proof (C86_ex4 f its path Hf Hi) as Ft. destruct C86_ex1 as (D & O & T & _ & Or). refine (C86_written_back u2 f _ its Hi _ _ path _ _ Ft).
  - eapply (C66_distinct u2 [parties] parties f its D O T Hf); auto; vm_compute in Hf; injection Hf as <-; [exact Or|apply (separate_types_check _ _ _ 3); vm_compute; reflexivity].
  - eapply (C67_members u2 [parties] parties f its D O T Hf); auto; vm_compute in Hf; injection Hf as <-; [exact Or|apply (separate_members_check _ _ _ _ 3); vm_compute; reflexivity].
Qed.
