(** Property theorem C85 for types whose content is a choice: what they hold is written back. *)
From Coq Require Import Arith NArith ZArith Bool Ascii String List Permutation Lia.
From Verif Require Import Str StrFacts SpecLex SpecNames SpecBuiltin Xml Names NamesProofs Entity Parser ParserFacts SpecSchema PropsParser Link SpecLink PropsLink
  Gen SpecRust SpecGen RustFacts GenProofs PropsGen SpecDoc PropsDoc SpecScope PropsScope SpecTraits PropsTraits SpecSize PropsSize
  SpecDistinct DistinctProofs2 PropsDistinct PropsMembers SpecFit SpecWrite FitProofs FitProofs2 ValueProofs PropsFit PropsWrite SpecChoice PropsChoice SpecFlat PropsAlike.
Import ListNotations.
Local Open Scope string_scope.
Local Open Scope list_scope.
Local Open Scope N_scope.
Notation concat := List.concat.
Arguments lit : simpl never.

Lemma chosen_outs {A B} (Q : A -> B -> Prop) l : (forall x, In x l -> exists y, Q x y) -> exists outs, map fst outs = l /\ forall x y, In (x, y) outs -> Q x y.
Proof.
  induction l as [|x l IH]; intros H; [exists []; split; auto; intros ? ? []|]. destruct (H x (or_introl eq_refl)) as (y & Hy). destruct IH as (outs & E & Ho); [intros; apply H; right; auto|].
  exists ((x, y) :: outs). split; [cbn; congruence|]. intros x' y' [[= <- <-]|I]; auto.
Qed.
Lemma flat_unnamed f x : argued f "flatten" None -> ~ in_instance f x.
Proof. intros A (_ & N & _). auto. Qed.
Lemma all_named x l : (forall b : qname * str, In b l -> fst b = x) -> l = map (pair x) (map snd l).
Proof. induction l as [|[a v] l IH]; intros H; auto. cbn [map snd]. rewrite <- IH by (intros; apply H; right; auto). f_equal. f_equal. exact (H (a, v) (or_introl eq_refl)). Qed.
Lemma map_fst_eq {A B} (l m : list (A * B)) : map fst l = map fst m -> (forall x y z, In (x, y) l -> In (x, z) m -> y = z) -> l = m.
Proof.
  revert m. induction l as [|[x y] l IH]; intros [|[x' z] m] E H; try discriminate E; auto. cbn in E. injection E as -> E. f_equal; [f_equal; apply (H x'); left; auto|]. apply IH; auto. intros; eapply H; right; eauto.
Qed.

Section Flat.
Context (u : uni) (its : list item).
Notation P := (concat (map (placed []) its)).
Context (Un : unshadowed P) (Ap : forall p d a m fs, In (p, IStruct d a m fs) P -> apart fs).
Notation W := (written u P same_text).
Notation WA := (written_all u P).
Lemma written_alias_inv path t p d m t' i o : SpecFit.names u P path t p (IType d m t') -> W path t i o -> W p t' i o.
Proof.
  intros Na Wr. inversion Wr as [? l' ? ? z Is' Tz|? ? ? ? ? ? ? ? Na' W'|? ? ? ? ? ? ? ? ? z Na' Tz|? ? ? ? ? ? ? ? ? z Na' Te Tz|? ? ? ? ? ? ? ? ? ? ? Na']; subst; [exfalso; eapply (library_free u P Un); eauto|..];
    destruct (FitProofs2.names_same _ _ _ _ _ _ _ _ Na Na') as [E1 E2]; try discriminate E2. injection E2 as <- <- <-. subst. auto.
Qed.
(** A struct with a flattened member is not written in the plain way. *)
Lemma flat_not_plain path t p d a m fs f i o : SpecFit.names u P path t p (IStruct d a m fs) -> In f fs -> argued f "flatten" None -> ~ W path t i o.
Proof.
  intros Na If Fl Wr. inversion Wr as [? l' ? ? z Is' Tz|? ? ? ? ? ? ? ? Na' W'|? ? ? ? ? ? ? ? ? z Na' Tz|? ? ? ? ? ? ? ? ? z Na' Te Tz|? ? p' d' a' m' fs' n' attrs' kids' outs' Na' Ef' Ho']; subst; [eapply (library_free u P Un); eauto|..];
    destruct (FitProofs2.names_same _ _ _ _ _ _ _ _ Na Na') as [E1 E2]; try discriminate E2. injection E2 as _ _ _ ->. apply in_map_iff in If as ([g [l ks]] & <- & Ig). destruct (Ho' _ _ _ Ig) as (x & [(Bm & _)|(Bm & _)]); eapply flat_unnamed; eauto; apply Bm.
Qed.
Lemma flat_not_fits path t p d a m fs f i : SpecFit.names u P path t p (IStruct d a m fs) -> In f fs -> argued f "flatten" None -> ~ fits u P any_texts path t i.
Proof.
  intros Na If Fl Ft. destruct (fits_written u P any_texts same_text (fun _ _ x _ => ex_intro _ x eq_refl) _ _ _ Ft) as (o & Wr). eapply flat_not_plain; eauto.
Qed.
Lemma plain_written path t i : fits u P any_texts path t i -> forall o, WA path t i o -> W path t i o.
Proof.
  revert path t i. fix IH 4. intros path t i Ft. destruct Ft as [path s n x Is T|path t p d m t' i Na Ft|path t p d a m c n x Na T|path t p d a m vs n x Na Te T|path t p d a m fs n attrs kids Na A1 A0 A2 K1 K2 Al]; intros o Wr.
  - remember (rust u s) as ts eqn:Es. inversion Wr as [? ? ? ? W'|? ? ? ? ? ? ? ? Na'|? ? ? ? ? ? ? ? ? ? ? ? ? ? ? ? ? ? ? ? Na']; subst; try exact W'; exfalso; eapply (library_free u P Un); eauto.
  - inversion Wr as [? ? ? ? W'|? ? ? ? ? ? ? ? Na' W'|? ? ? ? ? ? ? ? ? ? ? ? ? ? ? ? ? ? ? ? Na']; subst; try exact W'; destruct (FitProofs2.names_same _ _ _ _ _ _ _ _ Na Na') as [E1 E2]; try discriminate E2. injection E2 as <- <- <-. subst. eapply written_alias; [exact Na|]. exact (IH _ _ _ Ft _ W').
  - inversion Wr as [? ? ? ? W'|? ? ? ? ? ? ? ? Na' W'|? ? ? ? ? ? ? ? ? ? ? ? ? ? ? ? ? ? ? ? Na']; subst; try exact W'; destruct (FitProofs2.names_same _ _ _ _ _ _ _ _ Na Na') as [E1 E2]; discriminate E2.
  - inversion Wr as [? ? ? ? W'|? ? ? ? ? ? ? ? Na' W'|? ? ? ? ? ? ? ? ? ? ? ? ? ? ? ? ? ? ? ? Na']; subst; try exact W'; destruct (FitProofs2.names_same _ _ _ _ _ _ _ _ Na Na') as [E1 E2]; discriminate E2.
  - assert (Ft : fits u P any_texts path t (Inst n attrs kids [])) by (eapply fits_struct; eauto).
    inversion Wr as [? ? ? ? W'|? ? ? ? ? ? ? ? Na' W'|? ? ? ? ? ? ? ? ? ? ? ? f ? ? ? ? ? ? ? Na' Ef If Fl]; subst; try exact W'; [destruct (FitProofs2.names_same _ _ _ _ _ _ _ _ Na Na') as [E1 E2]; discriminate E2|]. exfalso. eapply flat_not_fits; eauto.
Qed.
Lemma written_all_name path t i o : WA path t i o -> inst_name i = inst_name o.
Proof. intros X. induction X; [match goal with Y : W _ _ _ _ |- _ => symmetry; exact (FitProofs2.written_name u its same_text _ _ _ _ Y) end|auto|reflexivity]. Qed.
Lemma all_written path t i : fits_all u P path t i -> exists o, WA path t i o.
Proof.
  intros X. induction X as [path t i Ft|path t p d m t' i Na Ft (o & IH)|path t p d a m fs n attrs k f p' d' a' m' vs v c Na A1 A2 If Fl Al Ne Cd Iv Vm Vu Vt Ft (k' & IH)].
  - destruct (fits_written u P any_texts same_text (fun _ _ x _ => ex_intro _ x eq_refl) _ _ _ Ft) as (o & Wr). exists o. apply written_plain. auto.
  - exists o. eapply written_renamed; eauto.
  - destruct (chosen_outs (fun g l => g = f /\ l = [] \/ exists x, attribute_member g x /\ map snd l = values x attrs /\ forall b : qname * str, In b l -> fst b = x) fs) as (outs & E & Ho).
    { intros g Ig. destruct (Al g Ig) as [->|(x & Am)]; [exists []; auto|]. exists (map (pair x) (values x attrs)). right. exists x. split; auto. split; [rewrite map_map; apply map_id|]. intros b I. apply in_map_iff in I as (y & <- & _). auto. }
    eexists. eapply written_flat; eauto.
Qed.
(** The member and the variant are the same for all who look. *)
Definition shape (fs : list rfield) (f : rfield) : Prop := In f fs /\ argued f "flatten" None /\ forall g, In g fs -> g = f \/ exists x, attribute_member g x.
Lemma shape_one fs f g : shape fs f -> In g fs -> argued g "flatten" None -> g = f.
Proof. intros (_ & _ & H) I Fl. destruct (H g I) as [->|(x & _ & X)]; auto. exfalso. eapply flat_unnamed; eauto. Qed.
Lemma outs_shape fs f (outs : list (rfield * list (qname * str))) attrs : map fst outs = fs -> In f fs -> argued f "flatten" None ->
  (forall g l, In (g, l) outs -> g = f /\ l = [] \/ exists x, attribute_member g x /\ map snd l = values x attrs /\ forall b, In b l -> fst b = x) -> shape fs f.
Proof.
  intros E If Fl Ho. split; auto. split; auto. intros g Ig. rewrite <- E in Ig. apply in_map_iff in Ig as ([g' l] & <- & Ig). destruct (Ho _ _ Ig) as [[-> _]|(x & Am & _)]; [left; auto|right; eauto].
Qed.
(** The inversion of [written_all] for structs with a flattened member. *)
Lemma flat_inv path t p d a m fs n attrs kids f p' d' a' m' vs o : SpecFit.names u P path t p (IStruct d a m fs) -> shape fs f -> SpecFit.names u P p (rf_type f) p' (IEnum d' a' m' vs) ->
  WA path t (Inst n attrs kids []) o -> exists k k' (outs : list (rfield * list (qname * str))) v c, kids = [k] /\ o = Inst n (concat (map snd outs)) [k'] [] /\ map fst outs = fs /\
    (forall g l, In (g, l) outs -> g = f /\ l = [] \/ exists x, attribute_member g x /\ map snd l = values x attrs /\ forall b, In b l -> fst b = x) /\
    In v vs /\ variant_member v (inst_name k) /\ (forall w, In w vs -> variant_member w (inst_name k) -> w = v) /\ va_type v = Some c /\ WA p' c k k' /\ In choice_derive a'.
Proof.
  intros Na Sh Ne Wr. remember (Inst n attrs kids []) as i eqn:Ei.
  inversion Wr as [? ? ? ? W'|? ? ? ? ? ? ? ? Na' W'|? ? q1 d1 a1 m1 fs1 n1 attrs1 k k' outs f1 p1 d2 a2 m2 vs1 v c Na' Ef If Fl Ho Ne' Cd Iv Vm Vu Vt Wk]; subst.
  - exfalso. eapply flat_not_plain; eauto; apply Sh.
  - destruct (FitProofs2.names_same _ _ _ _ _ _ _ _ Na Na') as [E1 E2]; discriminate E2.
  - destruct (FitProofs2.names_same _ _ _ _ _ _ _ _ Na Na') as [E1 E2]. injection E2 as _ _ _ E2. subst q1 fs. match goal with X : Inst _ _ _ _ = Inst _ _ _ _ |- _ => injection X as -> -> <- end. rewrite (shape_one _ _ _ Sh If Fl) in *. destruct (FitProofs2.names_same _ _ _ _ _ _ _ _ Ne Ne') as [E3 E4]. injection E4 as -> -> -> ->. subst p1.
    exists k, k', outs, v, c. repeat (split; auto).
Qed.
Notation outl := (rfield * list (qname * str))%type.
Lemma flat_attributes fs f (outs : list outl) attrs : apart fs -> shape fs f -> map fst outs = fs ->
  (forall g l, In (g, l) outs -> g = f /\ l = [] \/ exists x, attribute_member g x /\ map snd l = values x attrs /\ forall b, In b l -> fst b = x) ->
  (forall x y, In (x, y) attrs -> exists g, In g fs /\ attribute_member g x) -> forall b, In b attrs <-> In b (concat (map snd outs)).
Proof.
  intros [One _] Sh E Ho A1 [x y]. split; intros I.
  - destruct (A1 x y I) as (g & Ig & Am). assert (Ig' := Ig). rewrite <- E in Ig'. apply in_map_iff in Ig' as ([g' l] & Eg & Io). cbn [fst] in Eg. subst g'. destruct (Ho _ _ Io) as [[-> _]|(z & Bm & El & Hl)]; [exfalso; eapply flat_unnamed; [apply Sh|apply Am]|].
    assert (z = x) by (eapply One; [exact Ig|apply Bm|apply Am]). subst z. apply in_values in I. rewrite <- El in I. apply in_map_iff in I as ([z w] & Ew & I). cbn [snd] in Ew. subst w. pose proof (Hl _ I) as Ez. cbn [fst] in Ez. subst z.
    apply in_concat. exists l. split; auto. apply in_map_iff. exists (g, l). auto.
  - apply in_concat in I as (l & Il & I). apply in_map_iff in Il as ([g l'] & El & Io). cbn [snd] in El. subst l'. destruct (Ho _ _ Io) as [[_ ->]|(z & Bm & El & Hl)]; [destruct I|]. pose proof (Hl _ I) as Ez. cbn [fst] in Ez. subst z. apply values_in. rewrite <- El. apply in_map_iff. exists (x, y). auto.
Qed.
Lemma all_alike path t i : fits_all u P path t i -> forall o, WA path t i o -> alike i o.
Proof.
  intros X. induction X as [path t i Ft|path t p d m t' i Na Ft IH|path t p d a m fs n attrs k f p' d' a' m' vs v c Na A1 A2 If Fl Al Ne Cd Iv Vm Vu Vt Ft IH]; intros o Wr.
  - eapply fits_alike; eauto. eapply plain_written; eauto.
  - apply IH. inversion Wr as [? ? ? ? W'|? ? ? ? ? ? ? ? Na' W'|? ? ? ? ? ? ? ? ? ? ? ? ? ? ? ? ? ? ? ? Na']; subst; [apply written_plain; eapply written_alias_inv; eauto|..]; destruct (FitProofs2.names_same _ _ _ _ _ _ _ _ Na Na') as [E1 E2]; try discriminate E2. injection E2 as <- <- <-. subst. auto.
  - assert (Sh : shape fs f) by (split; auto). destruct (flat_inv _ _ _ _ _ _ _ _ _ _ _ _ _ _ _ _ _ Na Sh Ne Wr) as (k1 & k' & outs & v1 & c1 & Ek & -> & Ef & Ho & Iv1 & Vm1 & _ & Vt1 & Wk & _). injection Ek as <-. rewrite (Vu _ Iv1 Vm1) in Vt1. rewrite Vt in Vt1. injection Vt1 as <-.
    apply (alike_intro n attrs (concat (map snd outs)) [k] [(k, k')] []).
    + eapply flat_attributes; eauto. eapply Ap, seen_placed; apply Na.
    + reflexivity.
    + intros ? ? [[= <- <-]|[]]. eapply written_all_name; eauto.
    + intros ? ? [[= <- <-]|[]]. apply IH. auto.
Qed.
Lemma one_kid (pairs : list (inst * inst)) k : (forall y, those y (map fst pairs) = those y [k]) -> exists k', pairs = [(k, k')].
Proof.
  intros H. assert (A := those_all _ _ H). assert (E := H (inst_name k)). assert (F : forall l, (forall z, In z l -> z = k) -> those (inst_name k) l = l).
  { intros l. induction l as [|z l IH]; intros Hl; auto. unfold those in *. cbn [filter]. rewrite (Hl z (or_introl eq_refl)), (proj2 (name_eqb_iff _ _) eq_refl). f_equal. apply IH. intros; apply Hl; right; auto. }
  rewrite (F (map fst pairs)) in E by (intros z I; apply (proj1 (A z)) in I; destruct I as [<-|[]]; auto). rewrite (F [k]) in E by (intros z [<-|[]]; auto). destruct pairs as [|[a b] [|? ?]]; try discriminate E. cbn [map fst] in E. injection E as ->. eauto.
Qed.
Lemma alike_all path t i : fits_all u P path t i -> forall o, alike i o -> fits_all u P path t o.
Proof.
  intros X. induction X as [path t i Ft|path t p d m t' i Na Ft IH|path t p d a m fs n attrs k f p' d' a' m' vs v c Na A1 A2 If Fl Al Ne Cd Iv Vm Vu Vt Ft IH]; intros o Ao.
  - apply fits_plain. eapply alike_fits; eauto.
  - eapply fits_renamed; eauto.
  - remember (Inst n attrs [k] []) as i eqn:E. destruct Ao as [n' attrs0 attrs' kids0 pairs x' HA HK HN HR]. injection E as -> -> -> ->. destruct (one_kid _ _ HK) as (k' & ->). specialize (HN k k' (or_introl eq_refl)). specialize (HR k k' (or_introl eq_refl)). cbn [map snd].
    eapply fits_flat; eauto.
    + intros x y I. apply (A1 x y). apply HA. auto.
    + intros g x Ig Am Nx. apply (A2 g x Ig Am). intros I. apply Nx. apply in_map_iff in I as ([y w] & <- & I). apply in_map_iff. exists (y, w). split; auto. apply HA. auto.
    + rewrite <- HN. auto.
    + rewrite <- HN. auto.
Qed.
Lemma outs_same fs f (outs outs' : list outl) attrs attrs' : apart fs -> shape fs f -> map fst outs = fs -> map fst outs' = fs ->
  (forall g l, In (g, l) outs -> g = f /\ l = [] \/ exists x, attribute_member g x /\ map snd l = values x attrs /\ forall b, In b l -> fst b = x) ->
  (forall g l, In (g, l) outs' -> g = f /\ l = [] \/ exists x, attribute_member g x /\ map snd l = values x attrs' /\ forall b, In b l -> fst b = x) ->
  (forall g l x, In (g, l) outs -> attribute_member g x -> values x attrs' = map snd l) -> outs' = outs.
Proof.
  intros [One _] (If & Fl & _) E E' Ho Ho' Sv. apply map_fst_eq; [congruence|]. intros g l' l Io' Io. assert (Ig : In g fs) by (rewrite <- E; apply in_map_iff; exists (g, l); auto).
  destruct (Ho _ _ Io) as [[-> ->]|(x & Am & El & Hl)]; destruct (Ho' _ _ Io') as [[Eg ->]|(y & Bm & El' & Hl')]; auto; try (subst; exfalso; eapply flat_unnamed; [exact Fl|first [apply Am|apply Bm]]; fail).
  assert (y = x) by (eapply One; [exact Ig|apply Bm|apply Am]). subst y. rewrite (all_named x l' Hl'), (all_named x l Hl), El', (Sv _ _ _ Io Am). reflexivity.
Qed.
Lemma all_once path t i o : WA path t i o -> forall o', WA path t i o' -> o' = o.
Proof.
  intros X. induction X as [path t i o Wr|path t p d m t' i o Na Wr IH|path t p d a m fs n attrs k k' outs f p' d' a' m' vs v c Na Ef If Fl Ho Ne Cd Iv Vm Vu Vt Wk IH]; intros o' Wr'.
  - assert (G : forall path t i o, W path t i o -> forall o', WA path t i o' -> W path t i o').
    { clear - Un. fix IH 5. intros path t i o Wr. destruct Wr as [path l n x y Is Ty|path t p d m t' i o Na Wr|path t p d a m c n x y Na Ty|path t p d a m vs n x y Na Te Ty|path t p d a m fs n attrs kids outs Na Ef Ho]; intros o' Wr'.
      - remember (rust u l) as ts eqn:Es. inversion Wr' as [? ? ? ? W'|? ? ? ? ? ? ? ? Na'|? ? ? ? ? ? ? ? ? ? ? ? ? ? ? ? ? ? ? ? Na']; subst; try exact W'; exfalso; eapply (library_free u P Un); eauto.
      - inversion Wr' as [? ? ? ? W'|? ? ? ? ? ? ? ? Na' W'|? ? ? ? ? ? ? ? ? ? ? ? ? ? ? ? ? ? ? ? Na']; subst; try exact W'; destruct (FitProofs2.names_same _ _ _ _ _ _ _ _ Na Na') as [E1 E2]; try discriminate E2. injection E2 as <- <- <-. subst. eapply written_alias; [exact Na|]. exact (IH _ _ _ _ Wr _ W').
      - inversion Wr' as [? ? ? ? W'|? ? ? ? ? ? ? ? Na' W'|? ? ? ? ? ? ? ? ? ? ? ? ? ? ? ? ? ? ? ? Na']; subst; try exact W'; destruct (FitProofs2.names_same _ _ _ _ _ _ _ _ Na Na') as [E1 E2]; discriminate E2.
      - inversion Wr' as [? ? ? ? W'|? ? ? ? ? ? ? ? Na' W'|? ? ? ? ? ? ? ? ? ? ? ? ? ? ? ? ? ? ? ? Na']; subst; try exact W'; destruct (FitProofs2.names_same _ _ _ _ _ _ _ _ Na Na') as [E1 E2]; discriminate E2.
      - assert (W0 : W path t (Inst n attrs kids []) (Inst n (concat (map (fun o => fst (snd o)) outs)) (map snd (concat (map (fun o => snd (snd o)) outs))) [])) by (eapply written_struct; eauto).
        inversion Wr' as [? ? ? ? W'|? ? ? ? ? ? ? ? Na' W'|? ? ? ? ? ? ? ? ? ? ? ? f ? ? ? ? ? ? ? Na' Ef' If Fl]; subst; try exact W'; [destruct (FitProofs2.names_same _ _ _ _ _ _ _ _ Na Na') as [E1 E2]; discriminate E2|]. exfalso. eapply flat_not_plain; eauto. }
    eapply written_once; eauto.
  - apply IH. inversion Wr' as [? ? ? ? W'|? ? ? ? ? ? ? ? Na' W'|? ? ? ? ? ? ? ? ? ? ? ? ? ? ? ? ? ? ? ? Na']; subst; [apply written_plain; eapply written_alias_inv; eauto|..]; destruct (FitProofs2.names_same _ _ _ _ _ _ _ _ Na Na') as [E1 E2]; try discriminate E2. injection E2 as <- <- <-. subst. auto.
  - assert (Sh := outs_shape _ _ _ _ Ef If Fl Ho). assert (Aps : apart fs) by (eapply Ap, seen_placed; apply Na). destruct (flat_inv _ _ _ _ _ _ _ _ _ _ _ _ _ _ _ _ _ Na Sh Ne Wr') as (k1 & k2 & outs' & v1 & c1 & Ek & -> & Ef' & Ho' & Iv1 & Vm1 & _ & Vt1 & Wk' & _). injection Ek as <-.
    rewrite (Vu _ Iv1 Vm1) in Vt1. rewrite Vt in Vt1. injection Vt1 as <-. rewrite (IH _ Wk'). rewrite (outs_same fs f outs outs' attrs attrs Aps Sh Ef Ef' Ho Ho'); auto.
    intros g l x Io Am. destruct (Ho _ _ Io) as [[-> _]|(y & Bm & El & _)]; [exfalso; eapply flat_unnamed; [exact Fl|apply Am]|]. destruct Aps as [One _].
    assert (y = x) by (eapply One; [rewrite <- Ef; apply in_map_iff; exists (g, l); split; [reflexivity|exact Io]|apply Bm|apply Am]). subst y. auto.
Qed.
Lemma all_again path t i : fits_all u P path t i -> forall o, WA path t i o -> WA path t o o.
Proof.
  intros X. induction X as [path t i Ft|path t p d m t' i Na Ft IH|path t p d a m fs n attrs k f p' d' a' m' vs v c Na A1 A2 If Fl Al Ne Cd Iv Vm Vu Vt Ft IH]; intros o Wr.
  - assert (Wo := plain_written _ _ _ Ft _ Wr). assert (Ao := fits_alike _ _ Un Ap _ _ _ Ft _ Wo). assert (Fo := alike_fits _ _ _ _ _ Ft _ Ao).
    destruct (fits_written u P any_texts same_text (fun _ _ x _ => ex_intro _ x eq_refl) _ _ _ Fo) as (o' & W'). rewrite (written_again _ _ Un Ap _ _ _ _ Wo _ W') in W'. apply written_plain. auto.
  - eapply written_renamed; eauto. apply IH. inversion Wr as [? ? ? ? W'|? ? ? ? ? ? ? ? Na' W'|? ? ? ? ? ? ? ? ? ? ? ? ? ? ? ? ? ? ? ? Na']; subst; [apply written_plain; eapply written_alias_inv; eauto|..]; destruct (FitProofs2.names_same _ _ _ _ _ _ _ _ Na Na') as [E1 E2]; try discriminate E2. injection E2 as <- <- <-. subst. auto.
  - assert (Sh : shape fs f) by (split; auto). assert (Aps : apart fs) by (eapply Ap, seen_placed; apply Na). destruct (flat_inv _ _ _ _ _ _ _ _ _ _ _ _ _ _ _ _ _ Na Sh Ne Wr) as (k1 & k' & outs & v1 & c1 & Ek & -> & Ef & Ho & Iv1 & Vm1 & _ & Vt1 & Wk & _). injection Ek as <-. rewrite (Vu _ Iv1 Vm1) in Vt1. rewrite Vt in Vt1. injection Vt1 as <-.
    assert (En := written_all_name _ _ _ _ Wk). eapply (written_flat u P) with (v := v); eauto; try (rewrite <- En; auto).
    intros g l Io. destruct (Ho _ _ Io) as [X|(x & Am & El & Hl)]; auto. right. exists x. split; auto. split; auto. unfold values.
    destruct (in_split _ _ Io) as (oa & ob & Eo). rewrite Eo, (picked fst (@snd rfield (list (qname * str))) x oa (g, l) ob); auto.
    intros [g1 l1] b Ig Ib Eb. cbn [snd] in Ib. assert (Io1 : In (g1, l1) outs) by (rewrite Eo; apply in_app_or in Ig as [Ig|Ig]; apply in_or_app; [left|right; right]; auto).
    destruct (Ho _ _ Io1) as [[_ ->]|(y & Bm & _ & Hl1)]; [destruct Ib|]. pose proof (Hl1 _ Ib) as Ey. assert (Ex : y = x) by congruence. rewrite Ex in Bm. destruct Aps as [_ Two].
    apply in_app_or in Ig as [Ig|Ig]; destruct (in_split _ _ Ig) as (o1 & o2 & Eg); rewrite Eg in Eo.
    + apply (Two (map fst o1) g1 (map fst o2) g (map fst ob) x); [|apply Bm|apply Am]. rewrite <- Ef, Eo, map_app, map_app. cbn [map fst]. rewrite <- app_assoc. reflexivity.
    + apply (Two (map fst oa) g (map fst o1) g1 (map fst o2) x); [|apply Am|apply Bm]. rewrite <- Ef, Eo, map_app. cbn [map fst]. rewrite map_app. reflexivity.
Qed.
End Flat.

(** * C85, choices included *)
Definition kept_all (u : uni) (P : list (list str * item)) (path : list str) (t : list token) (i : inst) : Prop :=
  exists o, written_all u P path t i o /\ (forall o', written_all u P path t i o' -> o' = o) /\
    alike i o /\ fits_all u P path t o /\ written_all u P path t o o.
Theorem C85_choices_written_back : forall u f l its, file_items u f l its -> distinct_types its -> distinct_members its ->
  forall path t i, fits_all u (concat (map (placed []) its)) path t i -> kept_all u (concat (map (placed []) its)) path t i.
Proof.
  intros u f l its It Dt Dm path t i Ft. pose proof (distinct_unshadowed _ Dt) as Un. pose proof (items_apart _ _ _ _ _ _ It Dm) as Ap. destruct (all_written u its _ _ _ Ft) as (o & Wo). exists o.
  split; auto. split; [intros o' W'; eapply all_once; eauto|]. assert (Ao : alike i o) by (eapply all_alike; eauto). split; auto. split; [eapply alike_all; eauto|eapply all_again; eauto].
Qed.
Print Assumptions C85_choices_written_back.
Theorem C85_choices : forall u roots schema f its, document roots schema -> ok_schema schema -> tidy schema -> parse u roots = Ok f ->
  (forall x, part x schema -> orderly u schema (ns_prefix (rf_target_ns f)) (ns_prefix (rf_xsd_ns f)) x) ->
  separate_types schema (type_name_of u f) (format_name u) -> separate_members schema u (format_name u) (variant_name u (rf_target_ns f)) -> file_items u f (rf_types f) its ->
  let own := ns_prefix (rf_target_ns f) in let xsd := ns_prefix (rf_xsd_ns f) in
  forall T i q path, chosen schema own xsd T i -> type_named schema own xsd q T -> regular_type xsd q ->
    kept_all u (concat (map (placed []) its)) path (type_name_of u f q) i.
Proof.
  intros u roots schema f its D O T H Or St Sm It own xsd Ty i q path Ch Tn Rt. apply (C85_choices_written_back u f (rf_types f)); auto; [eapply C66_distinct; eauto|eapply C67_members; eauto|eapply C83_choices_fit; eauto].
Qed.
Print Assumptions C85_choices.
(** The bill of C83, with a payment inside. *)
Example C85_ex2 : forall f its path, parse u2 [payments] = Ok f -> file_items u2 f (rf_types f) its ->
  kept_all u2 (concat (map (placed []) its)) path (rust u2 "Bill") a_bill.
Proof.
  intros f its path Hf Hi. pose proof (C83_ex4 f its path Hf Hi) as Ft. destruct C83_ex1 as (D & O & T & _ & Or). refine (C85_choices_written_back u2 f _ its Hi _ _ path _ _ Ft).
  - eapply (C66_distinct u2 [payments] payments f its D O T Hf); auto; vm_compute in Hf; injection Hf as <-; [exact Or|apply (separate_types_check _ _ _ 3); vm_compute; reflexivity].
  - eapply (C67_members u2 [payments] payments f its D O T Hf); auto; vm_compute in Hf; injection Hf as <-; [exact Or|apply (separate_members_check _ _ _ _ 3); vm_compute; reflexivity].
Qed.
