(** Property theorems C85: what generated types hold is written back in full. *)
From Coq Require Import Arith NArith ZArith Bool Ascii String List Permutation Lia.
From Verif Require Import Str StrFacts SpecLex SpecNames SpecBuiltin Xml Names NamesProofs Entity Parser ParserFacts SpecSchema PropsParser Link SpecLink PropsLink
  Gen SpecRust SpecGen RustFacts GenProofs PropsGen SpecDoc PropsDoc SpecScope PropsScope SpecTraits PropsTraits SpecSize PropsSize
  SpecDistinct DistinctProofs2 PropsDistinct PropsMembers SpecFit SpecRestrict SpecWrite FitProofs FitProofs2 ValueProofs PropsFit PropsWrite PropsRestrict.
Import ListNotations.
Local Open Scope string_scope.
Local Open Scope list_scope.
Local Open Scope N_scope.
Notation concat := List.concat.
Arguments lit : simpl never.

(** ** Structs whose members have one name each, and no two the same *)
Definition apart (fs : list rfield) : Prop :=
  (forall f x y, In f fs -> in_instance f x -> in_instance f y -> x = y) /\
  (forall a f b g c x, fs = a ++ f :: b ++ g :: c -> in_instance f x -> in_instance g x -> False).

Section Generated.
Context (u : uni) (tns : option namespace) (tid vid : str -> str).
Notation items := (items u tns tid (format_name u) vid).
Notation all_items := (all_items u tns tid (format_name u) vid).
Notation members := (members u tns tid (format_name u)).
Notation member := (member u tns tid (format_name u)).
Definition made_of_members (pi : list str * item) : Prop := forall d a m fs, snd pi = IStruct d a m fs -> exists mm ffs, fs = members mm ffs.
Lemma placed_members : (forall e l, items e l -> forall path, Forall made_of_members (concat (map (placed path) l))) /\
  (forall es l, all_items es l -> forall path, Forall made_of_members (concat (map (placed path) l))).
Proof.
  assert (Pl : forall path i l, (forall d a m fs, i = IStruct d a m fs -> exists mm ffs, fs = members mm ffs) -> (forall m is, i <> IMod m is) ->
    Forall made_of_members (concat (map (placed path) l)) -> Forall made_of_members (concat (map (placed path) (i :: l)))).
  { intros path i l H N F. cbn [map List.concat]. apply Forall_app. split; auto. destruct i; try (exfalso; eapply N; reflexivity); (constructor; [intros d a m fs E; apply (H _ _ _ _ E)|constructor]). }
  assert (Ap : forall path a b, Forall made_of_members (concat (map (placed path) a)) -> Forall made_of_members (concat (map (placed path) b)) -> Forall made_of_members (concat (map (placed path) (a ++ b)))).
  { intros path a b Fa Fb. rewrite map_app, concat_app. apply Forall_app. auto. }
  assert (G : forall es l, all_items es l -> forall path, Forall made_of_members (concat (map (placed path) l))).
  { fix IH 3. intros es l X. destruct X as [|e es a b Y X]; intros path; [constructor|]. apply Ap; [|apply (IH _ _ X)]. destruct Y as [s inner Z|t inner ks Z F|en inner Z|al D|al D|im].
    - apply Ap.
      + apply Pl; [intros ? ? ? ? [= _ _ _ <-]; eauto|discriminate|]. apply Pl; try discriminate. constructor.
      + destruct (nested s); [constructor|]. cbn [map List.concat placed]. rewrite app_nil_r. constructor; [intros ? ? ? ? [=]|]. apply (IH _ _ Z).
    - apply Pl; try discriminate. apply Ap; [apply (IH _ _ Z)|]. apply Pl; try discriminate. constructor.
    - apply Pl; try discriminate. apply Pl; try discriminate. apply Pl; try discriminate. apply (IH _ _ Z).
    - apply Pl; try discriminate. constructor.
    - apply Pl; try discriminate. constructor.
    - apply Pl; try discriminate. constructor. }
  split; auto. intros e l X path. rewrite <- (app_nil_r l). apply (G [e]). apply all_cons; [auto|constructor].
Qed.
Lemma colon_last n p l : colon_split n = (p, l) -> last_segment 58 n = last_segment 58 l.
Proof.
  unfold colon_split. destruct (before_colon n) as [[a b]|] eqn:E; intros [= _ <-]; auto. revert a b E. induction n as [|c n IH]; [discriminate|]. cbn [before_colon]. intros a b. unfold last_segment. cbn [split_on].
  destruct (N.eqb_spec c 58) as [->|Nc].
  - intros [= _ <-]. rewrite N.eqb_refl. pose proof (split_on_nonempty 58 n) as X. destruct (split_on 58 n); [congruence|reflexivity].
  - destruct (before_colon n) as [[a' b']|] eqn:En; [|discriminate]. intros [= _ <-]. specialize (IH a' b' eq_refl). unfold last_segment in IH. destruct (N.eqb_spec 58 c) as [X|_]; [congruence|].
    assert (L : (2 <= List.length (split_on 58 n))%nat).
    { clear - En. revert a' b' En. induction n as [|x n IH]; [discriminate|]. cbn [before_colon split_on]. intros a' b'. destruct (N.eqb_spec x 58) as [->|Nx].
      - intros _. rewrite N.eqb_refl. pose proof (split_on_nonempty 58 n) as X. destruct (split_on 58 n); [congruence|cbn [List.length]; lia].
      - destruct (N.eqb_spec 58 x); [congruence|]. destruct (before_colon n) as [[a b]|]; [|discriminate]. intros _. specialize (IH a b eq_refl). destruct (split_on 58 n); cbn in *; lia. }
    destruct (split_on 58 n) as [|q [|q' qs]]; cbn in L; try lia. exact IH.
Qed.
Lemma one_list f l k v : field_attrs tns f = [AYaserde l] -> argued {| rf_doc := []; rf_attrs := field_attrs tns f; rf_name := []; rf_type := [] |} k v <-> In (k, v) l.
Proof. intros E. unfold argued. cbn [rf_attrs]. rewrite E. split; [intros (l' & [[= <-]|[]] & I); auto|intros I; exists l; split; [left; auto|auto]]. Qed.
(** The name of a member is given once, and decides about its identifier. *)
Lemma member_name m f x : in_instance (member m f) x -> format_name u (fl_name f) = format_name u (snd x) /\
  fst x = match fl_source f with FromElement => match fst (colon_split (fl_name f)) with Some p => Some p | None => match tns with Some t => ns_name t | None => None end end | _ => fst (colon_split (fl_name f)) end /\
  snd x = snd (colon_split (fl_name f)).
Proof.
  intros (R & Nf & Pr). unfold argued, member in *. cbn [rf_attrs] in *. unfold field_attrs in *. destruct (colon_split (fl_name f)) as [p n] eqn:Ec. cbn [fst snd].
  assert (Nm : snd x = n -> format_name u (fl_name f) = format_name u (snd x)) by (intros ->; unfold format_name; rewrite (colon_last _ _ _ Ec); auto).
  destruct (fl_source f).
  - destruct R as (l & [[= <-]|[]] & R). assert (E : snd x = n). { destruct R as [R|R]; [discriminate R|]. apply in_app_or in R as [R|[R|[]]]; [destruct p; [destruct R as [R|[]]; discriminate R|destruct R]|congruence]. }
    split; auto. split; auto. destruct (fst x) as [q|], p as [q'|]; auto.
    + destruct Pr as (l & [[= <-]|[]] & R'). destruct R' as [R'|[R'|[R'|[]]]]; try discriminate R'. congruence.
    + destruct Pr as (l & [[= <-]|[]] & R'). destruct R' as [R'|[R'|[]]]; discriminate R'.
    + exfalso. eapply Pr. eexists. split; [left; reflexivity|right; left; reflexivity].
  - destruct R as (l & [[= <-]|[]] & R). set (q := match p with Some _ => p | None => match tns with Some t => ns_name t | None => None end end) in *.
    assert (E : snd x = n). { apply in_app_or in R as [R|[R|[]]]; [destruct q; [destruct R as [R|[]]; discriminate R|destruct R]|congruence]. }
    split; auto. split; auto. assert (Eq : fst x = q); [|rewrite Eq; unfold q; destruct p; auto]. destruct (fst x) as [q1|], q as [q'|]; auto.
    + destruct Pr as (l & [[= <-]|[]] & R'). destruct R' as [R'|[R'|[]]]; try discriminate R'. congruence.
    + destruct Pr as (l & [[= <-]|[]] & R'). destruct R' as [R'|[]]; discriminate R'.
    + exfalso. eapply Pr. eexists. split; [left; reflexivity|left; reflexivity].
  - destruct R as (l & [] & _).
  - destruct R as (l & [[= <-]|[]] & R). destruct R as [R|[]]. discriminate R.
  - destruct R as (l & [] & _).
Qed.
Lemma members_apart m ffs : NoDup (map rf_name (members m ffs)) -> apart (members m ffs).
Proof.
  intros N. split.
  - intros f x y I X Y. unfold SpecGen.members in I. apply in_map_iff in I as (f0 & <- & _). apply member_name in X as (_ & X1 & X2). apply member_name in Y as (_ & Y1 & Y2). destruct x, y. cbn [fst snd] in *. congruence.
  - intros a f b g c x E X Y. rewrite E in N. assert (I : In f (members m ffs) /\ In g (members m ffs)) by (rewrite E; split; repeat (apply in_or_app; right || apply in_or_app; cbn; auto); auto using in_or_app, in_eq, in_cons; cbn; auto using in_or_app, in_eq).
    destruct I as [If Ig]. unfold SpecGen.members in If, Ig. apply in_map_iff in If as (f0 & <- & _). apply in_map_iff in Ig as (g0 & <- & _). apply member_name in X as (X & _). apply member_name in Y as (Y & _).
    rewrite map_app, map_cons in N. apply NoDup_remove_2 in N. apply N. apply in_or_app. right. rewrite map_app. apply in_or_app. right. left. unfold SpecGen.member. cbn [rf_name]. congruence.
Qed.
Lemma items_apart es its : all_items es its -> distinct_members its -> forall p d a m fs, In (p, IStruct d a m fs) (concat (map (placed []) its)) -> apart fs.
Proof.
  intros A D p d a m fs I. destruct placed_members as [_ G]. specialize (G _ _ A []). rewrite Forall_forall in G. destruct (G _ I d a m fs eq_refl) as (mm & ffs & ->). apply members_apart. apply (D _ _ I).
Qed.
End Generated.

(** ** Writing *)
Section Alike.
Context (u : uni) (its : list item).
Notation P := (concat (map (placed []) its)).
Context (Un : unshadowed P) (Ap : forall p d a m fs, In (p, IStruct d a m fs) P -> apart fs).
Lemma fits_second path t i : fits u P any_texts path t i -> second t.
Proof. intros X. destruct X as [path s n x I|? ? ? ? ? ? ? Na|? ? ? ? ? ? ? ? ? Na|? ? ? ? ? ? ? ? ? Na|? ? ? ? ? ? ? ? ? ? Na]; [apply library_second; auto|eapply seen_second; apply Na..]. Qed.
Lemma holds_same t c c' k k' : holds u t c k -> holds u t c' k' -> second c -> second c' -> c = c'.
Proof.
  intros H H' S S'. assert (X : forall a b w w', w ++ a ++ rust u ">" = w' ++ b ++ rust u ">" -> w = w' -> a = b) by (intros a b w w' E ->; apply app_inv_head in E; apply app_inv_tail in E; auto).
  destruct H as [[-> _]|[[-> _]|H]]; [| |subst t]; destruct H' as [[E _]|[[E _]|E]]; auto; try (subst; destruct S; fail); try (subst; destruct S'; fail); try discriminate E; try (eapply X; [exact E|reflexivity]).
Qed.
Lemma seen_placed path t p i : seen u P path t p i -> In (p, i) P.
Proof. intros X. inversion X; subst; auto. Qed.
Lemma fits_alike : forall path t i, fits u P any_texts path t i -> forall o, written u P same_text path t i o -> alike i o.
Proof.
  assert (Tx : forall n x, alike (Inst n [] [] x) (Inst n [] [] x)) by (intros n x; apply (alike_intro n [] [] [] []); try tauto; intros ? ? []).
  fix IH 4. intros path t i Ft. destruct Ft as [path s n x Is _|path t p d m t' i Na Ft|path t p d a m c n x Na _|path t p d a m vs n x Na Te _|path t p d a m fs n attrs kids Na A1 _ _ K1 K2 _]; intros o Wr.
  - remember (rust u s) as ts eqn:Es. inversion Wr as [? l' ? ? y Is' Ty|? ? ? ? ? ? ? ? Na'|? ? ? ? ? ? ? ? ? y Na' Ty|? ? ? ? ? ? ? ? ? y Na' Te Ty|? ? ? ? ? ? ? ? ? ? ? Na']; subst; try (exfalso; eapply (library_free u P Un); eauto; fail).
    unfold same_text in Ty. subst. apply Tx.
  - inversion Wr as [? l' ? ? y Is' Ty|? ? ? ? ? ? ? ? Na' W'|? ? ? ? ? ? ? ? ? y Na' Ty|? ? ? ? ? ? ? ? ? y Na' Te Ty|? ? ? ? ? ? ? ? ? ? ? Na']; subst; [exfalso; eapply (library_free u P Un); eauto|..];
      destruct (FitProofs2.names_same _ _ _ _ _ _ _ _ Na Na') as [E1 E2]; try discriminate E2. injection E2 as <- <- <-. subst. exact (IH _ _ _ Ft _ W').
  - inversion Wr as [? l' ? ? y Is' Ty|? ? ? ? ? ? ? ? Na' W'|? ? ? ? ? ? ? ? ? y Na' Ty|? ? ? ? ? ? ? ? ? y Na' Te Ty|? ? ? ? ? ? ? ? ? ? ? Na']; subst; [exfalso; eapply (library_free u P Un); eauto|..];
      destruct (FitProofs2.names_same _ _ _ _ _ _ _ _ Na Na') as [E1 E2]; try discriminate E2. unfold same_text in Ty. subst. apply Tx.
  - inversion Wr as [? l' ? ? y Is' Ty|? ? ? ? ? ? ? ? Na' W'|? ? ? ? ? ? ? ? ? y Na' Ty|? ? ? ? ? ? ? ? ? y Na' Te' Ty|? ? ? ? ? ? ? ? ? ? ? Na']; subst; [exfalso; eapply (library_free u P Un); eauto|..];
      destruct (FitProofs2.names_same _ _ _ _ _ _ _ _ Na Na') as [E1 E2]; try discriminate E2. unfold same_text in Ty. subst. apply Tx.
  - assert (Apf : apart fs) by (eapply Ap, seen_placed; apply Na). destruct Apf as [One Two].
    remember (Inst n attrs kids []) as i0 eqn:Ei.
    inversion Wr as [? l' ? ? y Is' Ty|? ? ? ? ? ? ? ? Na' W'|? ? ? ? ? ? ? ? ? y Na' Ty|? ? ? ? ? ? ? ? ? y Na' Te' Ty|? ? p' d' a' m' fs' n' attrs' kids' outs Na' Ef Ho]; [exfalso; subst; eapply (library_free u P Un); eauto|..];
      destruct (FitProofs2.names_same _ _ _ _ _ _ _ _ Na Na') as [E1 E2]; try discriminate E2.
    injection E2 as _ _ _ E2. rewrite Ei in H1. injection H1 as -> -> ->. subst p' fs' fs o. clear Wr Na' Ei.
    assert (Out : forall f, In f (map fst outs) -> exists l ks, In (f, (l, ks)) outs) by (intros f If; apply in_map_iff in If as ([f' [l ks]] & <- & I); eauto).
    assert (Fin : forall f l ks, In (f, (l, ks)) outs -> In f (map fst outs)) by (intros f l ks I; apply in_map_iff; exists (f, (l, ks)); auto).
    apply (alike_intro n attrs _ kids (concat (map (fun o : rfield * (list (qname * str) * list (inst * inst)) => snd (snd o)) outs)) []).
    + intros [x v]. split; intros I.
      * destruct (A1 x v I) as (f & If & Am). destruct (Out f If) as (l & ks & Io). destruct (Ho _ _ _ Io) as (y & [(Bm & _ & (c & _ & F2) & Hl)|(Bm & _)]); [|exfalso; apply (proj1 Bm), (proj1 Am)].
        assert (y = x) by (eapply One; [exact If|apply Bm|apply Am]). subst y. apply in_values in I. destruct (Forall2_in_l _ _ _ _ F2 I) as (w & Iw & Ew). unfold same_text in Ew. subst w.
        apply in_map_iff in Iw as ([y w] & Ew & Iw). cbn [snd] in Ew. subst w. pose proof (Hl _ Iw) as Ey. cbn [fst] in Ey. subst y. apply in_concat. exists l. split; auto. apply in_map_iff. exists (f, (l, ks)). auto.
      * apply in_concat in I as (l & Il & I). apply in_map_iff in Il as ([f [l' ks]] & El & Io). cbn [fst snd] in El. subst l'. destruct (Ho _ _ _ Io) as (y & [(Bm & _ & (c & _ & F2) & Hl)|(_ & -> & _)]); [|destruct I].
        assert (Iv : In v (map snd l)) by (apply in_map_iff; exists (x, v); auto). destruct (Forall2_in_r _ _ _ _ F2 Iv) as (w & Iw & Ew). unfold same_text in Ew. subst w.
        pose proof (Hl _ I) as Ey. cbn [fst] in Ey. subst y. apply values_in. auto.
    + intros y. assert (Inc : forall k, In k (map fst (concat (map (fun o : rfield * (list (qname * str) * list (inst * inst)) => snd (snd o)) outs))) -> In k kids).
      { intros k I. apply in_map_iff in I as ([k' o] & <- & I). apply in_concat in I as (ks & Ik & I). apply in_map_iff in Ik as ([f [l ks']] & Ek & Io). cbn [fst snd] in Ek. subst ks'. destruct (Ho _ _ _ Io) as (x & [(_ & -> & _)|(_ & _ & E & _)]); [destruct I|].
        assert (J : In k' (those x kids)) by (rewrite <- E; apply in_map_iff; exists (k', o); auto). unfold those in J. apply filter_In in J. apply J. }
      destruct (those y kids) as [|k0 r] eqn:Ey.
      * apply filter_nil. intros k I. apply not_true_iff_false. intros X. assert (J : In k (those y kids)) by (apply filter_In; auto). rewrite Ey in J. destruct J.
      * assert (I0 : In k0 (those y kids)) by (rewrite Ey; left; auto). apply filter_In in I0 as [I0 N0]. apply name_eqb_iff in N0. destruct (K1 k0 I0) as (f & If & Em). rewrite N0 in Em. destruct (Out f If) as (l & ks & Io).
        destruct (in_split _ _ Io) as (oa & ob & Eo). destruct (Ho _ _ _ Io) as (x & [(Bm & _)|(Bm & _ & E & _)]); [exfalso; apply (proj1 Em), (proj1 Bm)|].
        assert (x = y) by (eapply One; [exact If|apply Bm|apply Em]). subst x.
        assert (Other : forall l', incl l' outs -> (forall g l1 ks1, In (g, (l1, ks1)) l' -> ~ in_instance g y) -> those y (map fst (concat (map (fun o : rfield * (list (qname * str) * list (inst * inst)) => snd (snd o)) l'))) = []).
        { intros l' Il Nl. apply filter_nil. intros k I. apply not_true_iff_false. intros X. apply name_eqb_iff in X. apply in_map_iff in I as ([k' o] & <- & I). apply in_concat in I as (ks1 & Ik & I). apply in_map_iff in Ik as ([g [l1 ks2]] & Ek & Ig). cbn [fst snd] in *. subst ks2.
          destruct (Ho _ _ _ (Il _ Ig)) as (x & [(_ & -> & _)|(Gm & _ & E1 & _)]); [destruct I|]. assert (J : In k' (those x kids)) by (rewrite <- E1; apply in_map_iff; exists (k', o); auto). unfold those in J. apply filter_In in J as [_ J]. apply name_eqb_iff in J.
          apply (Nl _ _ _ Ig). rewrite <- X, J. apply Gm. }
        rewrite Eo, map_app, concat_app, map_app, those_app. cbn [map List.concat fst snd]. rewrite map_app, those_app, E, those_same, (Other oa), (Other ob), app_nil_r; auto.
        -- intros z I. rewrite Eo. apply in_or_app. right. right. auto.
        -- intros g l1 ks1 Ig X. destruct (in_split _ _ Ig) as (o1 & o2 & ->). apply (Two (map fst oa) f (map fst o1) g (map fst o2) y); [|apply Bm|auto]. rewrite Eo, map_app. cbn [map fst]. rewrite map_app. reflexivity.
        -- intros z I. rewrite Eo. apply in_or_app. auto.
        -- intros g l1 ks1 Ig X. destruct (in_split _ _ Ig) as (o1 & o2 & ->). apply (Two (map fst o1) g (map fst o2) f (map fst ob) y); [|auto|apply Bm]. rewrite Eo, map_app, map_app. cbn [map fst]. rewrite <- app_assoc. reflexivity.
    + intros k o I. apply in_concat in I as (ks & Ik & I). apply in_map_iff in Ik as ([f [l ks']] & Ek & Io). cbn [fst snd] in Ek. subst ks'. destruct (Ho _ _ _ Io) as (x & [(_ & -> & _)|(_ & _ & _ & c & _ & Hw)]); [destruct I|].
      symmetry. eapply (FitProofs2.written_name u its same_text). apply Hw. exact I.
    + intros k o I. apply in_concat in I as (ks & Ik & I). apply in_map_iff in Ik as ([f [l ks']] & Ek & Io). cbn [fst snd] in Ek. subst ks'. destruct (Ho _ _ _ Io) as (x & [(_ & -> & _)|(Bm & _ & E & c & Hc & Hw)]); [destruct I|].
      assert (J : In k (those x kids)) by (rewrite <- E; apply in_map_iff; exists (k, o); auto). unfold those in J. apply filter_In in J as [J1 J2]. apply name_eqb_iff in J2.
      destruct (K2 f x (Fin _ _ _ Io) Bm) as (c' & Hc' & Hk). specialize (Hw k o I). assert (Fk := IH _ _ _ (Hk k J1 J2)).
      assert (c = c') by (eapply holds_same; [exact Hc|exact Hc'|eapply (FitProofs2.written_second u its same_text); exact Hw|eapply fits_second; apply (Hk k J1 J2)]). subst c'. exact (Fk o Hw).
Qed.
End Alike.

(** ** What is alike fits alike *)
Lemma those_counted x l m : those x l = those x m -> number x l = number x m.
Proof. unfold number, those. intros ->. reflexivity. Qed.
Lemma number_names x (pairs : list (inst * inst)) : (forall k o, In (k, o) pairs -> inst_name k = inst_name o) -> number x (map fst pairs) = number x (map snd pairs).
Proof.
  unfold number. intros H. f_equal. induction pairs as [|[k o] l IH]; auto. cbn [map filter fst snd]. rewrite (H k o (or_introl eq_refl)). assert (E := IH (fun k o I => H k o (or_intror I))). destruct (name_eqb (inst_name o) x); cbn [List.length]; congruence.
Qed.
Lemma those_all (pairs : list (inst * inst)) kids : (forall y, those y (map fst pairs) = those y kids) -> forall k, In k (map fst pairs) <-> In k kids.
Proof.
  intros H k. assert (X : forall l, In k (those (inst_name k) l) <-> In k l). { intros l. unfold those. rewrite filter_In. split; [tauto|]. split; auto. apply name_eqb_iff. auto. } rewrite <- X, H, X. tauto.
Qed.
Lemma alike_text n x o : alike (Inst n [] [] x) o -> o = Inst n [] [] x.
Proof.
  intros X. remember (Inst n [] [] x) as i eqn:E. destruct X as [n' attrs attrs' kids pairs x' HA HK _ _]. injection E as -> -> -> ->.
  assert (attrs' = []) as -> by (destruct attrs' as [|b l]; auto; destruct (proj2 (HA b) (or_introl eq_refl))). destruct pairs as [|[k o] l]; auto. exfalso. apply (proj1 (those_all _ _ HK k)). left. auto.
Qed.
Lemma alike_fits u P : forall path t i, fits u P any_texts path t i -> forall o, alike i o -> fits u P any_texts path t o.
Proof.
  fix IH 4. intros path t i Ft. destruct Ft as [path s n x Is T|path t p d m t' i Na Ft|path t p d a m c n x Na T|path t p d a m vs n x Na Te T|path t p d a m fs n attrs kids Na A1 A0 A2 K1 K2 Al]; intros o Ao.
  - apply alike_text in Ao as ->. apply fits_library; auto.
  - eapply fits_alias; [exact Na|]. exact (IH _ _ _ Ft _ Ao).
  - apply alike_text in Ao as ->. eapply fits_tuple; eauto.
  - apply alike_text in Ao as ->. eapply fits_enum; eauto.
  - remember (Inst n attrs kids []) as i eqn:E. destruct Ao as [n' attrs0 attrs' kids0 pairs x' HA HK HN HR]. injection E as -> -> -> ->. pose proof (those_all _ _ HK) as Ka. eapply fits_struct; [exact Na|..].
    + intros x v I. apply (A1 x v). apply HA. auto.
    + intros f x If Am. destruct (A0 f x If Am) as (c & Hc & _). exists c. split; auto. intros; exact Logic.I.
    + intros f x If Am Nx. apply (A2 f x If Am). intros I. apply Nx. apply in_map_iff in I as ([y v] & <- & I). apply in_map_iff. exists (y, v). split; auto. apply HA. auto.
    + intros o Io. apply in_map_iff in Io as ([k o'] & <- & I). cbn [snd]. rewrite <- (HN _ _ I). apply K1. apply Ka. apply in_map_iff. exists (k, o'). auto.
    + intros f x If Em. destruct (K2 f x If Em) as (c & Hc & Hk). exists c. split.
      * rewrite <- (number_names x pairs HN), (those_counted x _ _ (HK x)). auto.
      * intros o Io Eo. apply in_map_iff in Io as ([k o'] & E & I). cbn [snd] in E. subst o'. assert (Ik : In k kids) by (apply Ka, in_map_iff; exists (k, o); auto). assert (Ek : inst_name k = x) by (rewrite (HN _ _ I); auto).
        exact (IH _ _ _ (Hk k Ik Ek) o (HR _ _ I)).
    + auto.
Qed.

(** ** Writing again *)
Lemma picked {A B} (name : B -> qname) (g : A -> list B) x oa o ob : (forall b, In b (g o) -> name b = x) -> (forall o' b, In o' (oa ++ ob) -> In b (g o') -> name b <> x) ->
  filter (fun b => name_eqb (name b) x) (concat (map g (oa ++ o :: ob))) = g o.
Proof.
  intros Ho No. assert (Z : forall l, incl l (oa ++ ob) -> filter (fun b => name_eqb (name b) x) (concat (map g l)) = []).
  { intros l Il. apply filter_nil. intros b I. apply not_true_iff_false. intros X. apply name_eqb_iff in X. apply in_concat in I as (r & Ir & I). apply in_map_iff in Ir as (o' & <- & Io). apply (No o' b (Il _ Io) I X). }
  rewrite map_app, concat_app, filter_app. cbn [map List.concat]. rewrite filter_app, (Z oa), (Z ob), app_nil_r by (intros z I; apply in_or_app; auto). cbn [app].
  clear Z No. induction (g o) as [|b l IH]; auto. cbn [filter]. rewrite (proj2 (name_eqb_iff (name b) x)) by (apply Ho; left; auto). f_equal. apply IH. intros; apply Ho. right. auto.
Qed.
Section Again.
Context (u : uni) (its : list item).
Notation P := (concat (map (placed []) its)).
Context (Un : unshadowed P) (Ap : forall p d a m fs, In (p, IStruct d a m fs) P -> apart fs).
Notation out := (rfield * (list (qname * str) * list (inst * inst)))%type.
Lemma written_again : forall path t i o, written u P same_text path t i o -> forall o', written u P same_text path t o o' -> o' = o.
Proof.
  fix IH 5. intros path t i o Wr. destruct Wr as [path l n x y Is Ty|path t p d m t' i o Na Wr|path t p d a m c n x y Na Ty|path t p d a m vs n x y Na Te Ty|path t p d a m fs n attrs kids outs Na Ef Ho]; intros o' Wr'.
  - remember (rust u l) as ts eqn:Es. inversion Wr' as [? l' ? ? z Is' Tz|? ? ? ? ? ? ? ? Na'|? ? ? ? ? ? ? ? ? z Na' Tz|? ? ? ? ? ? ? ? ? z Na' Te Tz|? ? ? ? ? ? ? ? ? ? ? Na']; subst; try (exfalso; eapply (library_free u P Un); eauto; fail).
    unfold same_text in *. subst. auto.
  - inversion Wr' as [? l' ? ? z Is' Tz|? ? ? ? ? ? ? ? Na' W'|? ? ? ? ? ? ? ? ? z Na' Tz|? ? ? ? ? ? ? ? ? z Na' Te Tz|? ? ? ? ? ? ? ? ? ? ? Na']; subst; [exfalso; eapply (library_free u P Un); eauto|..];
      destruct (FitProofs2.names_same _ _ _ _ _ _ _ _ Na Na') as [E1 E2]; try discriminate E2. injection E2 as <- <- <-. subst. exact (IH _ _ _ _ Wr _ W').
  - inversion Wr' as [? l' ? ? z Is' Tz|? ? ? ? ? ? ? ? Na' W'|? ? ? ? ? ? ? ? ? z Na' Tz|? ? ? ? ? ? ? ? ? z Na' Te Tz|? ? ? ? ? ? ? ? ? ? ? Na']; subst; [exfalso; eapply (library_free u P Un); eauto|..];
      destruct (FitProofs2.names_same _ _ _ _ _ _ _ _ Na Na') as [E1 E2]; try discriminate E2. unfold same_text in *. subst. auto.
  - inversion Wr' as [? l' ? ? z Is' Tz|? ? ? ? ? ? ? ? Na' W'|? ? ? ? ? ? ? ? ? z Na' Tz|? ? ? ? ? ? ? ? ? z Na' Te' Tz|? ? ? ? ? ? ? ? ? ? ? Na']; subst; [exfalso; eapply (library_free u P Un); eauto|..];
      destruct (FitProofs2.names_same _ _ _ _ _ _ _ _ Na Na') as [E1 E2]; try discriminate E2. unfold same_text in *. subst. auto.
  - assert (Apf : apart fs) by (eapply Ap, seen_placed; apply Na). destruct Apf as [One Two].
    match type of Wr' with written _ _ _ _ _ ?i _ => remember i as i0 eqn:Ei end.
    inversion Wr' as [? l' ? ? z Is' Tz|? ? ? ? ? ? ? ? Na' W'|? ? ? ? ? ? ? ? ? z Na' Tz|? ? ? ? ? ? ? ? ? z Na' Te' Tz|? ? p' d' a' m' fs' n' attrs' kids' outs' Na' Ef' Ho']; [exfalso; subst; eapply (library_free u P Un); eauto|..];
      destruct (FitProofs2.names_same _ _ _ _ _ _ _ _ Na Na') as [E1 E2]; try discriminate E2.
    injection E2 as _ _ _ E2. rewrite Ei in H1. injection H1 as -> -> ->. subst p' fs' o'. clear Wr' Na' Ei H H0.
    assert (Own : forall f l ks x, In (f, (l, ks)) outs -> in_instance f x -> (forall b, In b l -> fst b = x) /\ (forall b, In b ks -> inst_name (snd b) = x)).
    { intros f l ks x Io Ix. assert (If : In f fs) by (rewrite <- Ef; apply in_map_iff; exists (f, (l, ks)); auto). destruct (Ho _ _ _ Io) as (y & [(Bm & -> & _ & Hl)|(Bm & -> & E & c & _ & Hw)]); (assert (y = x) by (eapply One; [exact If|apply Bm|exact Ix])); subst y.
      - split; auto. intros b [].
      - split; [intros b []|]. intros [k o] I. cbn [snd]. assert (J : In k (those x kids)) by (rewrite <- E; apply in_map_iff; exists (k, o); auto). unfold those in J. apply filter_In in J as [_ J]. apply name_eqb_iff in J. rewrite <- J.
        eapply (FitProofs2.written_name u its same_text). apply Hw. exact I. }
    assert (Pick : forall f l ks x, In (f, (l, ks)) outs -> in_instance f x ->
      filter (fun b : qname * str => name_eqb (fst b) x) (concat (map (fun o : out => fst (snd o)) outs)) = l /\
      filter (fun b : inst * inst => name_eqb (inst_name (snd b)) x) (concat (map (fun o : out => snd (snd o)) outs)) = ks).
    { intros f l ks x Io Ix. destruct (Own _ _ _ _ Io Ix) as [O1 O2]. destruct (in_split _ _ Io) as (oa & ob & Eo).
      assert (No : forall g l1 ks1, In (g, (l1, ks1)) (oa ++ ob) -> ~ in_instance g x).
      { intros g l1 ks1 Ig X. apply in_app_or in Ig as [Ig|Ig]; destruct (in_split _ _ Ig) as (o1 & o2 & Eg); rewrite Eg in Eo.
        - apply (Two (map fst o1) g (map fst o2) f (map fst ob) x); auto. rewrite <- Ef, Eo, map_app, map_app. cbn [map fst]. rewrite <- app_assoc. reflexivity.
        - apply (Two (map fst oa) f (map fst o1) g (map fst o2) x); auto. rewrite <- Ef, Eo, map_app. cbn [map fst]. rewrite map_app. reflexivity. }
      assert (Nb : forall g l1 ks1, In (g, (l1, ks1)) (oa ++ ob) -> (forall b, In b l1 -> fst b <> x) /\ (forall b, In b ks1 -> inst_name (snd b) <> x)).
      { intros g l1 ks1 Ig. pose proof (No _ _ _ Ig) as Ng. assert (Ig' : In (g, (l1, ks1)) outs) by (rewrite Eo; apply in_app_or in Ig as [Ig|Ig]; apply in_or_app; [left|right; right]; auto).
        destruct (Ho _ _ _ Ig') as (y & [(Bm & _)|(Bm & _)]); destruct (Own _ _ _ y Ig' (proj2 Bm)) as [Q1 Q2]; split; intros b Ib E; [pose proof (Q1 b Ib)|pose proof (Q2 b Ib)|pose proof (Q1 b Ib)|pose proof (Q2 b Ib)]; apply Ng; (replace x with y by congruence); apply Bm. }
      rewrite Eo. split; [rewrite (picked fst (fun o : out => fst (snd o)) x oa (f, (l, ks)) ob)|rewrite (picked (fun b => inst_name (snd b)) (fun o : out => snd (snd o)) x oa (f, (l, ks)) ob)]; auto; intros [g [l1 ks1]] b Ig Ib; cbn [fst snd] in Ib; destruct (Nb _ _ _ Ig); auto. }
    assert (Th : forall (x : qname) (l : list (inst * inst)), those x (map snd l) = map snd (filter (fun b : inst * inst => name_eqb (inst_name (snd b)) x) l)).
    { intros x l. unfold those. induction l as [|[k o] l IHl]; auto. cbn [map filter snd]. destruct (name_eqb (inst_name o) x); cbn [map snd]; congruence. }
    assert (Same : forall f l ks l' ks', In (f, (l, ks)) outs -> In (f, (l', ks')) outs' -> l' = l /\ map snd ks' = map snd ks).
    { intros f l ks l' ks' Io Io'. assert (If : In f fs) by (rewrite <- Ef; apply in_map_iff; exists (f, (l, ks)); auto).
      destruct (Ho _ _ _ Io) as (x & [(Bm & Ek & _ & Hl)|(Bm & El & _ & c & Hc & Hw)]); destruct (Pick _ _ _ _ Io (proj2 Bm)) as [Pl Pk];
        destruct (Ho' _ _ _ Io') as (y & [(Bm' & Ek' & (c' & _ & F2) & Hl')|(Bm' & El' & E' & c' & Hc' & Hw')]); try (exfalso; apply (proj1 Bm), (proj1 Bm'); fail); try (exfalso; apply (proj1 Bm'), (proj1 Bm); fail);
        (assert (y = x) by (eapply One; [exact If|apply Bm'|apply Bm])); subst y.
      - subst ks ks'. split; auto. unfold values in F2. rewrite Pl in F2. clear - F2 Hl Hl'. unfold same_text in F2. revert l' F2 Hl'. induction l as [|[a v] l IHl]; intros [|[b w] l'] F2 Hl'; cbn [map snd] in F2; inversion F2; subst; auto.
        f_equal; [|apply IHl; auto; intros; [apply Hl|apply Hl']; right; auto]. pose proof (Hl (a, w) (or_introl eq_refl)). pose proof (Hl' (b, w) (or_introl eq_refl)). cbn [fst] in *. congruence.
      - subst l l'. split; auto. rewrite Th, Pk in E'. rewrite <- E'.
        assert (Each : forall o1 o2, In (o1, o2) ks' -> o2 = o1).
        { intros o1 o2 I. assert (J : In o1 (map snd ks)) by (rewrite <- E'; apply in_map_iff; exists (o1, o2); auto). apply in_map_iff in J as ([k o0] & E & J). cbn [snd] in E. subst o0.
          pose proof (Hw' _ _ I) as W2. assert (c' = c) by (eapply holds_same; [exact Hc'|exact Hc|eapply (FitProofs2.written_second u its same_text); exact W2|eapply (FitProofs2.written_second u its same_text); exact (Hw _ _ J)]).
          subst c'. exact (IH _ _ _ _ (Hw _ _ J) _ W2). }
        clear - Each. induction ks' as [|[o1 o2] r IHr]; auto. cbn [map fst snd]. rewrite (Each o1 o2 (or_introl eq_refl)). f_equal. apply IHr. intros; apply Each. right. auto. }
    assert (Eq : map (fun o : out => fst (snd o)) outs' = map (fun o : out => fst (snd o)) outs /\ map (fun o : out => map snd (snd (snd o))) outs' = map (fun o : out => map snd (snd (snd o))) outs).
    { clear - Same Ef E2. assert (Em : map fst outs' = map fst outs) by congruence. clear Ef E2. revert outs' Same Em. induction outs as [|[f [l ks]] r IHr]; intros [|[f' [l' ks']] r'] Same Em; try discriminate Em; auto. cbn [map fst] in Em. injection Em as -> Em.
      destruct (Same f l ks l' ks' (or_introl eq_refl) (or_introl eq_refl)) as [-> E]. destruct (IHr r') as [Q1 Q2]; auto; [intros; eapply Same; right; eauto|]. cbn [map fst snd]. rewrite Q1, Q2, E. auto. }
    destruct Eq as [Q1 Q2]. assert (Mc : forall l : list out, map snd (concat (map (fun o : out => snd (snd o)) l)) = concat (map (fun o : out => map snd (snd (snd o))) l)).
    { intros l. rewrite concat_map, map_map. reflexivity. }
    rewrite !Mc, Q1, Q2. reflexivity.
Qed.
Lemma written_once : forall path t i o, written u P same_text path t i o -> forall o', written u P same_text path t i o' -> o' = o.
Proof.
  fix IH 5. intros path t i o Wr. destruct Wr as [path l n x y Is Ty|path t p d m t' i o Na Wr|path t p d a m c n x y Na Ty|path t p d a m vs n x y Na Te Ty|path t p d a m fs n attrs kids outs Na Ef Ho]; intros o' Wr'.
  - remember (rust u l) as ts eqn:Es. inversion Wr' as [? l' ? ? z Is' Tz|? ? ? ? ? ? ? ? Na'|? ? ? ? ? ? ? ? ? z Na' Tz|? ? ? ? ? ? ? ? ? z Na' Te Tz|? ? ? ? ? ? ? ? ? ? ? Na']; subst; try (exfalso; eapply (library_free u P Un); eauto; fail).
    unfold same_text in *. subst. auto.
  - inversion Wr' as [? l' ? ? z Is' Tz|? ? ? ? ? ? ? ? Na' W'|? ? ? ? ? ? ? ? ? z Na' Tz|? ? ? ? ? ? ? ? ? z Na' Te Tz|? ? ? ? ? ? ? ? ? ? ? Na']; subst; [exfalso; eapply (library_free u P Un); eauto|..];
      destruct (FitProofs2.names_same _ _ _ _ _ _ _ _ Na Na') as [E1 E2]; try discriminate E2. injection E2 as <- <- <-. subst. exact (IH _ _ _ _ Wr _ W').
  - inversion Wr' as [? l' ? ? z Is' Tz|? ? ? ? ? ? ? ? Na' W'|? ? ? ? ? ? ? ? ? z Na' Tz|? ? ? ? ? ? ? ? ? z Na' Te Tz|? ? ? ? ? ? ? ? ? ? ? Na']; subst; [exfalso; eapply (library_free u P Un); eauto|..];
      destruct (FitProofs2.names_same _ _ _ _ _ _ _ _ Na Na') as [E1 E2]; try discriminate E2. unfold same_text in *. subst. auto.
  - inversion Wr' as [? l' ? ? z Is' Tz|? ? ? ? ? ? ? ? Na' W'|? ? ? ? ? ? ? ? ? z Na' Tz|? ? ? ? ? ? ? ? ? z Na' Te' Tz|? ? ? ? ? ? ? ? ? ? ? Na']; subst; [exfalso; eapply (library_free u P Un); eauto|..];
      destruct (FitProofs2.names_same _ _ _ _ _ _ _ _ Na Na') as [E1 E2]; try discriminate E2. unfold same_text in *. subst. auto.
  - assert (Apf : apart fs) by (eapply Ap, seen_placed; apply Na). destruct Apf as [One Two].
    match type of Wr' with written _ _ _ _ _ ?i _ => remember i as i0 eqn:Ei end.
    inversion Wr' as [? l' ? ? z Is' Tz|? ? ? ? ? ? ? ? Na' W'|? ? ? ? ? ? ? ? ? z Na' Tz|? ? ? ? ? ? ? ? ? z Na' Te' Tz|? ? p' d' a' m' fs' n' attrs' kids' outs' Na' Ef' Ho']; [exfalso; subst; eapply (library_free u P Un); eauto|..];
      destruct (FitProofs2.names_same _ _ _ _ _ _ _ _ Na Na') as [E1 E2]; try discriminate E2.
    injection E2 as _ _ _ E2. rewrite Ei in H1. injection H1 as -> -> ->. subst p' fs' o'. clear Wr' Na' Ei H H0.
    assert (Same : forall f l ks l' ks', In (f, (l, ks)) outs -> In (f, (l', ks')) outs' -> l' = l /\ map snd ks' = map snd ks).
    { intros f l ks l' ks' Io Io'. assert (If : In f fs) by (rewrite <- Ef; apply in_map_iff; exists (f, (l, ks)); auto).
      destruct (Ho _ _ _ Io) as (x & [(Bm & Ek & (c & _ & F2) & Hl)|(Bm & El & E & c & Hc & Hw)]);
        destruct (Ho' _ _ _ Io') as (y & [(Bm' & Ek' & (c' & _ & F2') & Hl')|(Bm' & El' & E' & c' & Hc' & Hw')]); try (exfalso; apply (proj1 Bm), (proj1 Bm'); fail); try (exfalso; apply (proj1 Bm'), (proj1 Bm); fail);
        (assert (y = x) by (eapply One; [exact If|apply Bm'|apply Bm])); subst y.
      - subst ks ks'. split; auto. clear - F2 F2' Hl Hl'. unfold same_text in *. revert l l' F2 F2' Hl Hl'. induction (values x attrs) as [|v vs IHv]; intros [|[a w] l] [|[b w'] l'] F2 F2' Hl Hl'; cbn [map snd] in F2, F2'; inversion F2; inversion F2'; subst; auto.
        f_equal; [|apply IHv; auto; intros; [apply Hl|apply Hl']; right; auto]. pose proof (Hl (a, w') (or_introl eq_refl)). pose proof (Hl' (b, w') (or_introl eq_refl)). cbn [fst] in *. congruence.
      - subst l l'. split; auto. rewrite <- E in E'.
        assert (Each : forall k o1 o2, In (k, o1) ks -> In (k, o2) ks' -> o2 = o1).
        { intros k o1 o2 I J. pose proof (Hw' _ _ J) as W2. assert (c' = c) by (eapply holds_same; [exact Hc'|exact Hc|eapply (FitProofs2.written_second u its same_text); exact W2|eapply (FitProofs2.written_second u its same_text); exact (Hw _ _ I)]).
          subst c'. exact (IH _ _ _ _ (Hw _ _ I) _ W2). }
        clear - Each E'. revert ks' Each E'. induction ks as [|[k o1] r IHr]; intros [|[k' o2] r'] Each E'; try discriminate E'; auto. cbn [map fst] in E'. injection E' as -> E'. cbn [map snd]. rewrite (Each k o1 o2 (or_introl eq_refl) (or_introl eq_refl)). f_equal. apply IHr; auto. intros; eapply Each; right; eauto. }
    assert (Eq : map (fun o : out => fst (snd o)) outs' = map (fun o : out => fst (snd o)) outs /\ map (fun o : out => map snd (snd (snd o))) outs' = map (fun o : out => map snd (snd (snd o))) outs).
    { clear - Same Ef E2. assert (Em : map fst outs' = map fst outs) by congruence. clear Ef E2. revert outs' Same Em. induction outs as [|[f [l ks]] r IHr]; intros [|[f' [l' ks']] r'] Same Em; try discriminate Em; auto. cbn [map fst] in Em. injection Em as -> Em.
      destruct (Same f l ks l' ks' (or_introl eq_refl) (or_introl eq_refl)) as [-> E]. destruct (IHr r') as [Q1 Q2]; auto; [intros; eapply Same; right; eauto|]. cbn [map fst snd]. rewrite Q1, Q2, E. auto. }
    destruct Eq as [Q1 Q2]. assert (Mc : forall l : list out, map snd (concat (map (fun o : out => snd (snd o)) l)) = concat (map (fun o : out => map snd (snd (snd o))) l)).
    { intros l. rewrite concat_map, map_map. reflexivity. }
    rewrite !Mc, Q1, Q2. reflexivity.
Qed.
End Again.

(** * C85 *)
(** Whatever a type of the generated code holds is written, in one way only, with all its
    attributes and elements; what is written is held by the same type and written as it is. *)
Definition kept (u : uni) (P : list (list str * item)) (path : list str) (t : list token) (i : inst) : Prop :=
  exists o, written u P same_text path t i o /\ (forall o', written u P same_text path t i o' -> o' = o) /\
    alike i o /\ fits u P any_texts path t o /\ written u P same_text path t o o.
Theorem C85_written_back : forall u f l its, file_items u f l its -> distinct_types its -> distinct_members its ->
  forall path t i, fits u (concat (map (placed []) its)) any_texts path t i -> kept u (concat (map (placed []) its)) path t i.
Proof.
  intros u f l its It Dt Dm path t i Ft. pose proof (distinct_unshadowed _ Dt) as Un. pose proof (items_apart _ _ _ _ _ _ It Dm) as Ap.
  assert (Ex : forall i, fits u (concat (map (placed []) its)) any_texts path t i -> exists o, written u (concat (map (placed []) its)) same_text path t i o) by (intros j; apply fits_written; intros; eexists; reflexivity).
  destruct (Ex i Ft) as (o & Wo). exists o. split; auto. split; [intros o' W'; eapply written_once; eauto|]. assert (Ao : alike i o) by (eapply fits_alike; eauto). split; auto.
  assert (Fo := alike_fits _ _ _ _ _ Ft _ Ao). split; auto. destruct (Ex o Fo) as (o' & W'). rewrite (written_again _ _ Un Ap _ _ _ _ Wo _ W') in W'. auto.
Qed.
Print Assumptions C85_written_back.
(** For the code made from a document, the premises of C66 and C67 suffice; with C84 this is so
    for instances of types derived by restriction. *)
Theorem C85_documents : forall u roots schema f its, document roots schema -> ok_schema schema -> tidy schema -> parse u roots = Ok f ->
  (forall x, part x schema -> orderly u schema (ns_prefix (rf_target_ns f)) (ns_prefix (rf_xsd_ns f)) x) ->
  separate_types schema (type_name_of u f) (format_name u) -> separate_members schema u (format_name u) (variant_name u (rf_target_ns f)) -> file_items u f (rf_types f) its ->
  let own := ns_prefix (rf_target_ns f) in let xsd := ns_prefix (rf_xsd_ns f) in
  let kept := kept u (concat (map (placed []) its)) in
  (forall path t i, fits u (concat (map (placed []) its)) any_texts path t i -> kept path t i) /\
  forall T i path, sound schema own xsd T i ->
    (forall q, type_named schema own xsd q T -> regular_type xsd q -> kept path (type_name_of u f q) i) /\
    (forall l d, SpecFit.declared schema "element" l d -> absent d "ref" -> absent d "type" -> type_of schema own xsd d T -> kept path (type_name_of u f l) i).
Proof.
  intros u roots schema f its D O T H Or St Sm It own xsd K. assert (G : forall path t i, fits u (concat (map (placed []) its)) any_texts path t i -> K path t i).
  { apply (C85_written_back u f (rf_types f)); auto; [eapply C66_distinct; eauto|eapply C67_members; eauto]. }
  split; auto. intros Ty i path So. destruct (C84_restrictions_fit u roots schema f its D O T H Or St It Ty i path So) as [F1 F2]. split; intros; apply G; eauto.
Qed.
Print Assumptions C85_documents.

(** The club of C84, with its members in another order than in the schema. *)
Example C85_ex1 : forall f its path, parse u2 [clubs] = Ok f -> file_items u2 f (rf_types f) its ->
  kept u2 (concat (map (placed []) its)) path (rust u2 "Club") a_club.
Proof.
  intros f its path Hf Hi. pose proof (C84_ex4 f its path Hf Hi) as Ft. destruct C84_ex1 as (D & O & T & _ & Or).
  refine (proj1 (C85_documents u2 [clubs] clubs f its D O T Hf _ _ _ Hi) path _ _ Ft).
  - vm_compute in Hf. injection Hf as <-. exact Or.
  - vm_compute in Hf. injection Hf as <-. apply (separate_types_check _ _ _ 3). vm_compute. reflexivity.
  - vm_compute in Hf. injection Hf as <-. apply (separate_members_check _ _ _ _ 3). vm_compute. reflexivity.
Qed.
