(** Proofs about distinct names: generated code. *)
From Coq Require Import Arith NArith ZArith Bool Ascii String List Lia Permutation.
From Verif Require Import Str StrFacts SpecLex SpecNames SpecBuiltin Xml Comment CommentProofs Names NamesProofs Entity Parser ParserFacts SpecSchema ParserProofs Link SpecLink LinkProofs Gen SpecRust SpecGen RustFacts GenProofs GenProofs2 SpecDoc DocProofs SpecScope ScopeProofs SpecTraits TraitProofs SpecSize SizeProofs ShapeProofs SpecDistinct DistinctProofs.
Import ListNotations.
Local Open Scope string_scope.
Local Open Scope list_scope.
Local Open Scope N_scope.
Notation concat := List.concat.
Arguments lit : simpl never.
Notation below f := (concat (map names (fl_subtypes f))).

Section Items.
Context (u : uni) (tns : option namespace) (type_text ident variant_ident : str -> str).
Notation items := (items u tns type_text ident variant_ident).
Notation all_items := (all_items u tns type_text ident variant_ident).
Notation ty := (ty u type_text).
Notation nested := SpecGen.nested.

(** ** The names, modules and implementations of items *)
Definition under (path p : list str) : Prop := exists r, p = path ++ r.
Definition beneath (path p : list str) : Prop := exists r, p = path ++ r /\ r <> [].
Definition tally (path : list str) (its : list item) (ns : list str) : Prop :=
  map snd (concat (map (introduces path) its)) = map ty ns /\
  (forall p n, In (p, n) (concat (map (introduces path) its)) -> under path p) /\
  sub (map (fun p => last p []) (concat (map (modules path) its))) (map ident ns) /\
  (forall p, In p (concat (map (modules path) its)) -> beneath path p) /\
  sub (concat (map (validated path) its)) (concat (map (introduces path) its)) /\
  sub (concat (map (defaulted path) its)) (concat (map (introduces path) its)).
Lemma tally_app path a b ns ms : tally path a ns -> tally path b ms -> tally path (a ++ b) (ns ++ ms).
Proof.
  intros (A1 & A2 & A3 & A4 & A5 & A6) (B1 & B2 & B3 & B4 & B5 & B6). unfold tally. rewrite !map_app, !concat_app, !map_app, A1, B1.
  split; [auto|]. split; [intros p n I; apply in_app_or in I as [I|I]; eauto|]. split; [apply sub_app; auto|]. split; [intros p I; apply in_app_or in I as [I|I]; eauto|]. split; apply sub_app; auto.
Qed.
Lemma tally_nil path : tally path [] [].
Proof. split; auto. split; [intros p n []|]. split; [apply sub_nil|]. split; [intros p []|]. split; apply sub_nil. Qed.
Lemma tally_list l : (forall e, In e l -> forall its path, items e its -> tally path its (names e)) -> forall its path, all_items l its -> tally path its (concat (map names l)).
Proof.
  intros H its path A. induction A as [|e l a b A1 A2 IH]; [apply tally_nil|]. cbn. apply tally_app; [apply H; [left; auto|auto]|apply IH; intros; apply H; [right; auto|auto]].
Qed.
Lemma under_in path m p : under (path ++ [m]) p -> beneath path p.
Proof. intros (r & ->). exists (m :: r). rewrite <- app_assoc. split; [auto|discriminate]. Qed.
Lemma beneath_under path p : beneath path p -> under path p.
Proof. intros (r & E & _). exists r. auto. Qed.
Lemma names_nested s : names (EStruct s) = st_name s :: concat (map names (nested s)).
Proof.
  unfold nested. rewrite map_app, concat_app. cbn. do 2 f_equal. induction (st_fields s) as [|f l IH]; auto. cbn. rewrite map_app, concat_app, <- IH. auto.
Qed.
Lemma names_inner s : concat (map names (nested s)) = inner (EStruct s).
Proof. pose proof (names_nested s) as E. cbn [names] in E. injection E as E. symmetry. exact E. Qed.
Lemma alias_names a : SpecGen.documented (al_comment a) /\ names (EAlias a) = [al_name a] \/ ~ SpecGen.documented (al_comment a) /\ names (EAlias a) = [].
Proof.
  cbn. destruct (doc_words (al_comment a)) as [|w l] eqn:E; [right|left]; split; auto; [intros D|]; apply documented_words in D || apply documented_words; congruence.
Qed.
Lemma self_under (path : list str) : under path path.
Proof. exists []. rewrite app_nil_r. auto. Qed.
Lemma tally_items e : forall its path, items e its -> tally path its (names e).
Proof.
  induction e as [s IHf IHs|t IH|n IH|f|c|a|i] using entity_sub_ind; intros its path A; inversion A as [s' inn A'|t' inn ks A' Fk|n' inn A'|a' D|a' D|i']; subst.
  - assert (N : tally (path ++ [ident (st_name s)]) inn (concat (map names (nested s)))).
    { apply tally_list; auto. intros e I. unfold nested in I. apply in_app_or in I as [I|I]; [auto|]. apply in_concat in I as (l & Il & I). apply in_map_iff in Il as (f & <- & If). eauto. }
    rewrite names_nested. destruct N as (N1 & N2 & N3 & N4 & N5 & N6). unfold tally. destruct (nested s) as [|x l] eqn:En.
    + clear. cbn. split; auto. split; [intros p n [[= <- _]|[]]; apply self_under|].
      split; [apply sub_nil|]. split; [intros p []|]. split; [apply sub_refl|apply sub_nil].
    + remember (concat (map names (x :: l))) as ns. cbn -[List.concat]. cbn [List.concat app]. rewrite !app_nil_r. split; [cbn; f_equal; auto|]. split; [|split; [|split; [|split]]].
      * intros p n [[= <- _]|I]; [apply self_under|]. eapply beneath_under, under_in, N2; eauto.
      * cbn. rewrite last_last. apply sub_cons. auto.
      * intros p [<-|I]; [exists [ident (st_name s)]; split; [auto|discriminate]|]. apply N4, beneath_under, under_in in I. auto.
      * apply sub_cons. auto.
      * apply sub_skip. auto.
  - destruct (tally_list _ IH _ path A') as (N1 & N2 & N3 & N4 & N5 & N6). unfold tally. cbn [names]. rewrite !map_app, !concat_app. cbn [map introduces modules validated defaulted List.concat app]. rewrite !app_nil_r.
    split; [cbn; f_equal; auto|]. split; [|split; [|split; [|split]]]; auto.
    + intros p n [[= <- _]|I]; [apply self_under|eauto].
    + apply sub_skip. auto.
    + eapply sub_trans; [apply sub_perm, Permutation_app_comm|]. apply sub_cons. auto.
    + apply sub_skip. auto.
  - destruct (tally_list _ IH _ path A') as (N1 & N2 & N3 & N4 & N5 & N6). unfold tally. cbn [names]. rewrite !map_app, !concat_app. cbn [map introduces modules validated defaulted List.concat app].
    split; [cbn; f_equal; auto|]. split; [|split; [|split; [|split]]]; auto.
    + intros p m [[= <- _]|I]; [apply self_under|eauto].
    + apply sub_skip. auto.
    + apply sub_cons. auto.
    + apply sub_cons. auto.
  - destruct (alias_names a) as [[D' _]|[_ ->]]; [contradiction|]. apply tally_nil.
  - destruct (alias_names a) as [[_ ->]|[D' _]]; [|contradiction]. unfold tally. cbn. split; auto. split; [intros p n [[= <- _]|[]]; apply self_under|].
      split; [apply sub_nil|]. split; [intros p []|]. split; apply sub_nil.
  - apply tally_nil.
Qed.

(** *** Declarations *)
Lemma struct_block s its : items (EStruct s) its ->
  exists inn, all_items (nested s) inn /\
    concat (map (introduces []) its) = ([], ty (st_name s)) :: concat (map (introduces [ident (st_name s)]) inn) /\
    concat (map (modules []) its) = match nested s with [] => [] | _ => [ident (st_name s)] :: concat (map (modules [ident (st_name s)]) inn) end.
Proof.
  intros A. inversion A as [s' inn A'| | | | |]; subst. exists inn. split; auto. destruct (nested s) as [|x l]; [inversion A'; subst; auto|].
  cbn -[List.concat]. cbn [List.concat app]. rewrite !app_nil_r. auto.
Qed.
Definition level (its : list item) : Prop := (forall path p n, In (p, n) (concat (map (introduces path) its)) -> p = path) /\ forall path, concat (map (modules path) its) = [].
Lemma level_app a b : level a -> level b -> level (a ++ b).
Proof.
  intros [A1 A2] [B1 B2]. split; [intros path p n I; rewrite map_app, concat_app in I; apply in_app_or in I as [I|I]; eauto|]. intros path. rewrite map_app, concat_app, A2, B2. auto.
Qed.
Lemma level_list l : (forall e, In e l -> forall its, items e its -> level its) -> forall its, all_items l its -> level its.
Proof.
  intros H its A. induction A as [|e l a b A1 A2 IH]; [split; [intros ? ? ? []|auto]|]. apply level_app; [eapply H; [left; auto|auto]|apply IH; intros; eapply H; [right; eauto|auto]].
Qed.
Lemma level_one i : match i with IMod _ _ => False | _ => True end -> level [i].
Proof. intros H. destruct i; try contradiction; (split; [intros path p n' I|intros path; auto]); cbn in I; try (destruct I as [[= <- _]|[]]; auto; fail); destruct I. Qed.
Lemma level_cons i l : match i with IMod _ _ => False | _ => True end -> level l -> level (i :: l).
Proof. intros H L. apply (level_app [i] l); auto. apply level_one; auto. Qed.
Lemma level_nil : level [].
Proof. split; [intros ? ? ? []|auto]. Qed.
Lemma plain_level e : forall its, plainly e -> items e its -> level its.
Proof.
  induction e as [s IHf IHs|t IH|n IH|f|c|a|i] using entity_sub_ind; intros its P A; cbn in P; try contradiction; inversion A as [s' inn A'|t' inn ks A' Fk|n' inn A'|a' D|a' D|i']; subst; apply plainly_list in P; rewrite Forall_forall in P.
  - apply level_cons; [exact Logic.I|]. apply level_app; [|apply level_one; exact Logic.I]. eapply level_list; eauto.
  - cbn [app]. apply level_cons; [exact Logic.I|]. apply level_cons; [exact Logic.I|]. apply level_cons; [exact Logic.I|]. eapply level_list; eauto.
Qed.
Lemma shallow_level e its : shallow e ->
  (forall en s, e = EEnum en -> In (EStruct s) (en_subtypes en) -> inner (EStruct s) = [] -> nested s = []) -> items e its -> level its.
Proof.
  intros S N A. inversion S as [e0 P|a|i|en s Es In0]; subst.
  - eapply plain_level; eauto.
  - inversion A; subst; apply level_one; exact Logic.I.
  - inversion A; subst; apply level_one; exact Logic.I.
  - inversion A as [| |n' inn A'| | |]; subst. specialize (N en s eq_refl). rewrite Es in *. specialize (N (or_introl eq_refl) In0). inversion A' as [|? ? a b A1 A2]; subst. inversion A2; subst. rewrite app_nil_r.
    cbn [app]. apply level_cons; [exact Logic.I|]. apply level_cons; [exact Logic.I|]. apply level_cons; [exact Logic.I|].
    inversion A1 as [s' inn' A''| | | | |]; subst. rewrite N. apply level_cons; [exact Logic.I|]. apply level_one; exact Logic.I.
Qed.

(** *** Documents *)
Context (schema : node).
Definition heads (dn : node * list str) : list str := match snd dn with [] => [] | _ => map ident (name_of (fst dn)) end.
Definition headed (dn : node * list str) (p : list str) : Prop := exists m r, p = m :: r /\ In m (heads dn).
Definition block (dn : node * list str) (b : list item) : Prop :=
  exists outs J, Permutation (concat (map (introduces []) b)) (map (fun x => ([], ty x)) outs ++ J) /\
    sub outs (outside_names schema (fst dn)) /\ (forall x, In x J -> headed dn (fst x)) /\ sub (map snd J) (map ty (snd dn)) /\
    (forall p, In p (concat (map (modules []) b)) -> headed dn p) /\ NoDup (concat (map (modules []) b)) /\
    (forall p, In p (concat (map (modules []) b)) -> In (last p []) (heads dn ++ map ident (snd dn))) /\
    sub (concat (map (validated []) b)) (concat (map (introduces []) b)) /\ sub (concat (map (defaulted []) b)) (concat (map (introduces []) b)).

(** What a declaration has become. *)
Definition settled (d : node) (e : entity) : Prop :=
  (exists s, e = EStruct s /\ has d "name" (st_name s) /\ sub [st_name s] (own_names d) /\ (nested s <> [] -> inner e <> []) /\
     (structured d = true /\ (forall n, expands schema [d] n -> sub (inner e) n) \/ nested s = [])) \/
  shallow e /\ sub (names e) (outside_names schema d) /\ (forall en s, e = EEnum en -> In (EStruct s) (en_subtypes en) -> inner (EStruct s) = [] -> nested s = []).
Lemma settled_block d e ns its : settled d e -> inside_names schema d ns -> NoDup (map ident ns) -> items e its -> block (d, ns) its.
Proof.
  intros S I N A. destruct (tally_items _ _ [] A) as (T1 & T2 & T3 & T4 & T5 & T6). destruct S as [(s & -> & Hn & Ow & Ne & G)|(Sh & Su & C)].
  - destruct (struct_block _ _ A) as (inn & Ai & EI & EM).
    destruct (tally_list (nested s) (fun e _ its path => tally_items e its path) inn [ident (st_name s)] Ai) as (N1 & N2 & N3 & N4 & _). rewrite names_inner in *.
    assert (Su : sub (inner (EStruct s)) ns /\ (nested s <> [] -> heads (d, ns) = [ident (st_name s)])).
    { destruct G as [[St G]|G].
      - unfold inside_names in I. rewrite St in I. specialize (G ns I). split; auto. intros X. specialize (Ne X). unfold heads. cbn. destruct ns; [apply sub_empty in G; contradiction|].
        unfold name_of. unfold has in Hn. rewrite Hn. auto.
      - split; [|contradiction]. rewrite <- names_inner, G. apply sub_nil. }
    destruct Su as [Su Hd]. exists [st_name s], (concat (map (introduces [ident (st_name s)]) inn)). rewrite EI. split; [apply Permutation_refl|]. split; [eapply sub_trans; [exact Ow|apply sub_l]|].
    destruct (nested s) as [|x l] eqn:En.
    + inversion Ai; subst. cbn [map List.concat] in *. rewrite EM. split; [intros x []|]. split; [apply sub_nil|]. split; [intros p []|]. split; [constructor|]. split; [intros p []|]. rewrite <- EI. auto.
    + specialize (Hd ltac:(discriminate)). split; [intros [p n] J; apply N2 in J as (r & ->); exists (ident (st_name s)), r; rewrite Hd; split; [auto|left; auto]|].
      split; [rewrite N1; apply sub_map; auto|]. rewrite EM. split; [|split; [|split; [|rewrite <- EI; auto]]].
      * intros p [<-|J]; [|apply N4 in J as (r & -> & _)]; eexists _, _; (split; [reflexivity|rewrite Hd; left; auto]).
      * constructor; [intros J; apply N4 in J as (r & E & Nr); apply Nr; injection E as E; auto|]. eapply NoDup_map_inv. eapply sub_nodup; [exact N3|]. eapply sub_nodup; [apply sub_map; exact Su|auto].
      * rewrite Hd. intros p [<-|J]; [left; auto|]. right. eapply sub_incl; [apply sub_map; exact Su|]. eapply sub_incl; [exact N3|]. apply in_map_iff. eauto.
  - destruct (shallow_level _ _ Sh C A) as [L1 L2]. exists (names e), []. rewrite app_nil_r, L2. split.
    + replace (concat (map (introduces []) its)) with (map (fun x => ([] : list str, ty x)) (names e)); [apply Permutation_refl|]. rewrite <- (map_map ty (fun t => ([], t))), <- T1.
      rewrite map_map. rewrite <- map_id. apply map_ext_in. intros [p n] J. cbn. rewrite (L1 _ _ _ J). auto.
    + split; auto. split; [intros x []|]. split; [apply sub_nil|]. split; [intros p []|]. split; [constructor|]. split; [intros p []|]. auto.
Qed.
Lemma blocks_apart dns bs : Forall2 (fun dn (b : list (list str)) => (forall p, In p b -> headed dn p) /\ NoDup b) dns bs -> NoDup (concat (map heads dns)) -> NoDup (concat bs).
Proof.
  intros F. induction F as [|dn b dns bs [H Nb] F IH]; intros N; cbn in *; [constructor|]. apply nodup_disjoint in N as (_ & N & D). apply nodup_join; auto.
  intros p I J. destruct (H p I) as (m & r & -> & Im). apply (D m Im). clear - F J. induction F as [|dn b dns bs [H Nb] F IH]; cbn in *; [destruct J|]. apply in_or_app.
  apply in_app_or in J as [J|J]; [|right; auto]. left. destruct (H _ J) as (m' & r' & [= -> ->] & I). auto.
Qed.
Lemma heads_in dns (P : node * list str -> list (list str * list token) -> Prop) Js x : Forall2 (fun dn J => (forall x, In x J -> headed dn (fst x)) /\ P dn J) dns Js -> In x (concat Js) ->
  exists m r, fst x = m :: r /\ In m (concat (map heads dns)).
Proof.
  intros F. induction F as [|dn J dns Js [H _] F IH]; cbn; intros I; [destruct I|]. apply in_app_or in I as [I|I].
  - destruct (H x I) as (m & r & E & Im). exists m, r. split; auto. apply in_or_app. auto.
  - destruct (IH I) as (m & r & E & Im). exists m, r. split; auto. apply in_or_app. auto.
Qed.
Lemma hidden_apart dns (Js : list (list (list str * list token))) : Forall2 (fun dn J => (forall x, In x J -> headed dn (fst x)) /\ NoDup (map snd J)) dns Js -> NoDup (concat (map heads dns)) ->
  NoDup (concat Js) /\ forall p r n, In (p, n) (concat Js) -> In (p ++ r, n) (concat Js) -> r = [].
Proof.
  intros F. induction F as [|dn J dns Js [H Nj] F IH]; intros N; cbn in *; [split; [constructor|intros p r n []]|]. apply nodup_disjoint in N as (_ & N & D). destruct (IH N) as [I1 I2]. split.
  - apply nodup_join; auto; [eapply NoDup_map_inv; eauto|]. intros x A B. destruct (H x A) as (m & r & E & I). destruct (heads_in _ _ _ _ F B) as (m' & r' & E' & I'). apply (D m I). congruence.
  - intros p r n A B. apply in_app_or in A as [A|A]; apply in_app_or in B as [B|B].
    + assert (X : forall l : list (list str * list token), NoDup (map snd l) -> forall a b t, In (a, t) l -> In (b, t) l -> a = b).
      { clear. induction l as [|[a0 t0] l IH]; intros N a b t A B; [destruct A|]. cbn in N. inversion N; subst. destruct A as [A|A]; destruct B as [B|B]; [congruence| | |eauto]; [injection A as -> ->|injection B as -> ->].
        - exfalso. apply H1. apply in_map_iff. exists (b, t). auto.
        - exfalso. apply H1. apply in_map_iff. exists (a, t). auto. }
      specialize (X J Nj _ _ _ A B). rewrite <- (app_nil_r p) in X at 1. apply app_inv_head in X. auto.
    + exfalso. destruct (H _ A) as (m & x & E & I). destruct (heads_in _ _ _ _ F B) as (m' & x' & E' & I'). cbn in E, E'. subst p. injection E' as -> _. eauto.
    + exfalso. destruct (H _ B) as (m & x & E & I). destruct (heads_in _ _ _ _ F A) as (m' & x' & E' & I'). cbn in E, E'. subst p. injection E as -> _. eauto.
    + eauto.
Qed.
Lemma blocks_distinct dns bs : Forall2 block dns bs ->
  NoDup (map ty (concat (map (fun dn => outside_names schema (fst dn)) dns))) ->
  Forall (fun dn => NoDup (map ty (snd dn ++ concat (map (fun dn => outside_names schema (fst dn)) dns)))) dns ->
  NoDup (concat (map heads dns)) ->
  (forall x, In x (concat (map (fun dn => outside_names schema (fst dn)) dns) ++ concat (map snd dns)) -> unborrowed (ty x)) ->
  (forall m, In m (concat (map heads dns) ++ map ident (concat (map snd dns))) -> m <> lit "xs") -> distinct_types (concat bs).
Proof.
  intros F NO NI NH NB NX.
  assert (MX : forall p, In p (concat (map (modules []) (concat bs))) -> last p [] <> lit "xs").
  { intros p I. apply NX. assert (EM : concat (map (modules []) (concat bs)) = concat (map (fun b => concat (map (modules []) b)) bs)) by (clear; induction bs as [|b bs IH]; auto; cbn; rewrite map_app, concat_app, IH; auto).
    rewrite EM in I. apply in_concat in I as (l & Il & I). apply in_map_iff in Il as (b & <- & Ib). destruct (Forall2_in_r _ _ _ _ F Ib) as (dn & Idn & o & J & _ & _ & _ & _ & _ & _ & H & _). specialize (H p I).
    apply in_or_app. apply in_app_or in H as [H|H]; [left; apply in_concat; exists (heads dn); split; [apply in_map; auto|auto]|right]. apply in_map_iff in H as (x & <- & H). apply in_map. apply in_concat. exists (snd dn). split; [apply in_map; auto|auto]. }
  assert (X : exists outs Js, Permutation (concat (map (introduces []) (concat bs))) (map (fun x => ([], ty x)) outs ++ concat Js) /\ sub outs (concat (map (fun dn => outside_names schema (fst dn)) dns)) /\
    Forall2 (fun dn J => (forall x, In x J -> headed dn (fst x)) /\ sub (map snd J) (map ty (snd dn))) dns Js /\
    NoDup (concat (map (modules []) (concat bs))) /\ sub (concat (map (validated []) (concat bs))) (concat (map (introduces []) (concat bs))) /\ sub (concat (map (defaulted []) (concat bs))) (concat (map (introduces []) (concat bs)))).
  { assert (FM : Forall2 (fun dn b => (forall p, In p b -> headed dn p) /\ NoDup b) dns (map (fun b => concat (map (modules []) b)) bs)).
    { clear - F. induction F as [|dn b dns bs (o & J & _ & _ & _ & _ & H & N & _) F IH]; cbn; constructor; auto. }
    assert (NM := blocks_apart _ _ FM NH).
    assert (EM : concat (map (modules []) (concat bs)) = concat (map (fun b => concat (map (modules []) b)) bs)) by (clear; induction bs as [|b bs IH]; auto; cbn; rewrite map_app, concat_app, IH; auto).
    rewrite EM. clear NI NO NH NB NX MX FM EM. induction F as [|dn b dns bs (o & J & H1 & H2 & H3 & H4 & _ & _ & _ & H5 & H6) F IH].
    - exists [], []. cbn. split; auto. split; [apply sub_nil|]. split; [constructor|]. split; [constructor|]. split; apply sub_nil.
    - cbn in NM. apply nodup_disjoint in NM as (M1 & M2 & M3). destruct (IH M2) as (os & Js & J1 & J2 & J3 & J4 & J5 & J6). exists (o ++ os), (J :: Js). cbn. rewrite !map_app, !concat_app.
      split; [|split; [apply sub_app; auto|split; [constructor; auto|split; [apply nodup_join; auto|split; apply sub_app; auto]]]].
      rewrite H1, J1. rewrite <- !app_assoc. apply Permutation_app_head. rewrite !app_assoc. apply Permutation_app_tail, Permutation_app_comm. }
  destruct X as (outs & Js & PI & SO & FJ & NM & SV & SD).
  assert (No : NoDup (map ty outs)) by (eapply sub_nodup; [apply sub_map; exact SO|auto]).
  assert (FJ' : Forall2 (fun dn J => (forall x, In x J -> headed dn (fst x)) /\ NoDup (map snd J)) dns Js).
  { clear - FJ NI. revert NI. generalize (concat (map (fun dn => outside_names schema (fst dn)) dns)). intros O NI. induction FJ as [|dn J dns Js [H S] F IH]; constructor; inversion NI; subst; auto.
    split; auto. eapply sub_nodup; [exact S|]. rewrite map_app in H2. apply nodup_disjoint in H2. tauto. }
  destruct (hidden_apart _ _ FJ' NH) as [NJ HJ].
  assert (HP : forall x, In x (concat Js) -> fst x <> []).
  { intros x I. destruct (heads_in _ _ _ _ FJ' I) as (m & r & E & _). rewrite E. discriminate. }
  assert (Cross : forall n p, In n (map ty outs) -> In (p, n) (concat Js) -> False).
  { intros n p Io I. apply in_concat in I as (J & IJ & I). destruct (Forall2_in_r _ _ _ _ FJ IJ) as (dn & Idn & _ & S). rewrite Forall_forall in NI. specialize (NI dn Idn).
    rewrite map_app in NI. apply nodup_disjoint in NI as (_ & _ & D). apply (D n); [eapply sub_incl; [exact S|]; apply in_map_iff; exists (p, n); auto|]. eapply sub_incl; [apply sub_map; exact SO|auto]. }
  assert (NI' : NoDup (concat (map (introduces []) (concat bs)))).
  { eapply Permutation_NoDup; [symmetry; exact PI|]. apply nodup_join; auto.
    - rewrite <- (map_map ty (fun t => ([], t))). apply FinFun.Injective_map_NoDup; auto. intros a b [= E]. auto.
    - intros x I J. apply in_map_iff in I as (y & <- & _). apply (HP _ J). auto. }
  split; [exact NI'|]. split; [|split; [exact NM|split; [eapply sub_nodup; eauto|split; [eapply sub_nodup; eauto|split; [|exact MX]]]]].
  2:{ intros p n I. eapply Permutation_in in I; [|exact PI]. apply in_app_or in I as [I|I].
    - apply in_map_iff in I as (x & [= <- <-] & I). apply NB. apply in_or_app. left. eapply sub_incl; eauto.
    - apply in_concat in I as (J & IJ & I). destruct (Forall2_in_r _ _ _ _ FJ IJ) as (dn & Idn & _ & S). assert (X : In n (map ty (snd dn))) by (eapply sub_incl; [exact S|apply in_map_iff; exists (p, n); auto]).
      apply in_map_iff in X as (x & <- & X). apply NB. apply in_or_app. right. apply in_concat. exists (snd dn). split; [apply in_map; auto|auto]. }
  intros p r n A B. eapply Permutation_in in A; [|exact PI]. eapply Permutation_in in B; [|exact PI]. apply in_app_or in A as [A|A]; apply in_app_or in B as [B|B].
  - apply in_map_iff in A as (x & [= <- <-] & _). apply in_map_iff in B as (y & [= E] & _). auto.
  - apply in_map_iff in A as (x & [= <- <-] & I). exfalso. eapply Cross; [apply in_map; exact I|exact B].
  - apply in_map_iff in B as (x & E & I). injection E as E _. exfalso. apply (HP _ A). cbn. destruct p; [auto|discriminate].
  - eauto.
Qed.
End Items.

(** ** Documents *)
Lemma good_fine u schema tns xsd : (forall x, part x schema -> orderly u schema (ns_prefix tns) (ns_prefix xsd) x) -> all_fine schema.
Proof.
  intros Or x Px. destruct (Or x Px) as (R & Nm & _ & _ & Li & Ch). split; [|split; auto].
  assert (HN : forall nm, introduced schema nm -> clear_name u (ns_prefix tns) (ns_prefix xsd) nm) by (intros nm I; eapply introduced_clear; eauto).
  intros O v [H|H].
  - destruct (Nm v H) as [(c & t & -> & L) _]. intros [= -> _]. unfold letter, lower, upper in L. lia.
  - eapply base_unknown; [exact HN|]. apply R. left. auto.
Qed.
Lemma lu_nested u tns xsd K sc s : lu u tns xsd K sc (EStruct s) -> SpecGen.nested s <> [] -> inner (EStruct s) <> [].
Proof.
  intros L N. inversion L as [s' Es Ff| | | |]; subst. rewrite Forall_forall in Ff. unfold SpecGen.nested in N. rewrite Es in N. cbn [app] in N.
  cbn [inner]. rewrite Es. cbn [map List.concat app]. revert N Ff. induction (st_fields s) as [|f l IH]; intros N Ff; [contradiction|]. cbn [map List.concat] in *.
  destruct (Ff f (or_introl eq_refl)) as [g E _|g x E Ty _ _ _ _]; rewrite E in *; cbn [map List.concat app] in *; [apply IH; auto; intros; apply Ff; right; auto|].
  intros X. destruct x; cbn in Ty; try contradiction; discriminate.
Qed.
Lemma top_nested u tns xsd K e : ScopeProofs.top u tns xsd K e ->
  (forall s, e = EStruct s -> SpecGen.nested s <> [] -> inner e <> []) /\
  (forall en s, e = EEnum en -> In (EStruct s) (en_subtypes en) -> inner (EStruct s) = [] -> SpecGen.nested s = []).
Proof.
  intros [L _]. split.
  - intros s ->. eapply lu_nested; eauto.
  - intros en s -> I E. inversion L as [| |n _ _ F _| |]; subst. rewrite Forall_forall in F. specialize (F _ I). destruct (SpecGen.nested s) as [|x l] eqn:N; auto.
    exfalso. eapply lu_nested; eauto. rewrite N. discriminate.
Qed.
Lemma expands_one schema d n : expands schema [d] n -> sub (given [schema] d) n.
Proof. intros E. inversion E; subst. apply sub_l. Qed.
Lemma declared_settled schema u tns xsd K d e : declared_like schema d e -> ScopeProofs.top u tns xsd K e -> settled schema d e.
Proof.
  intros D T. destruct (top_nested _ _ _ _ _ T) as [T1 T2]. destruct D as [(s & -> & Es & Hn & Ow & G)|[Sh Su]]; [left|right; auto].
  exists s. split; auto. split; auto. split; auto. split; [apply T1; auto|]. destruct G as [(St & G & _)|[Ef _]].
  - left. split; auto. intros n E. eapply sub_trans; [exact G|]. apply expands_one. auto.
  - right. unfold SpecGen.nested. rewrite Es, Ef. auto.
Qed.
Lemma Forall2_at {A B} (R : A -> B -> Prop) l l' : Forall2 R l l' -> forall i y d, nth_error l' i = Some y -> R (nth i l d) y.
Proof. intros F. induction F; intros [|i] z d E; cbn in *; try discriminate; [injection E as <-; auto|eauto]. Qed.
Lemma linked_settled u schema f0 f tns xsd K : ok_schema schema -> all_fine schema -> parse_schema u schema [] = Ok f0 -> link f0 = Ok f ->
  Forall (ScopeProofs.top u tns xsd K) (rf_types f) -> Forall (ScopeProofs.linkable u schema tns xsd) (top_level f0) -> Forall2 (settled schema) (declarations schema) (rf_types f).
Proof.
  intros O F H L T Lk. destruct (schema_inv _ _ _ _ H) as (_ & H1 & H2 & _).
  assert (D : Forall2 (declared_like schema) (declarations schema) (rf_types f0)).
  { assert (X : forall d, In d (declarations schema) -> forall e, parse_node u d [schema] = Ok e -> declared_like schema d e) by (intros; eapply declaration_like; eauto).
    revert X. clear - H1. induction H1; intros X; constructor; [apply X; [left; auto|auto]|apply IHForall2; intros; eapply X; [right; auto|auto]]. }
  destruct (link_ok _ _ L) as (Eg & _ & _ & El & Ot & Str).
  set (ds := declarations schema ++ tagged_children ["attributeGroup"] schema). set (origin := fun i => nth i ds schema).
  assert (Ld : List.length (declarations schema) = List.length (rf_types f0)) by (eapply Forall2_same_length; eauto).
  assert (OT : forall i s, struct_at (rf_types f0) i s -> declared_like schema (origin i) (EStruct s)).
  { intros i s A. assert (B := struct_at_bound _ _ _ A). unfold origin, ds. rewrite app_nth1 by lia. eapply Forall2_at; eauto. }
  assert (Origin : forall i s, struct_at (top_level f0) i s -> comes_from schema s (origin i)).
  { intros i s A. assert (Es : st_subtypes s = []) by (rewrite Forall_forall in Lk; apply (Lk (EStruct s)); eapply nth_error_In; eauto).
    destruct (Nat.lt_ge_cases i (List.length (rf_types f0))) as [Li|Li].
    - apply struct_at_types in A; auto. destruct (OT i s A) as [(s' & E & _ & Hn & _ & G)|[Sh _]]; [|inversion Sh; contradiction]. injection E as <-.
      split; auto. split; auto. split.
      + unfold origin, ds. rewrite app_nth1 by lia. assert (X : In (nth i (declarations schema) schema) (declarations schema)) by (apply nth_In; lia). apply filter_In in X. tauto.
      + destruct G as [(_ & G & _)|[Ef _]]; auto. cbn. rewrite Es, Ef. apply sub_nil.
    - assert (Gi : Forall2 declares_group (tagged_children ["attributeGroup"] schema) (rf_groups f0)).
      { clear - H2 O. assert (X : forall d, In d (tagged_children ["attributeGroup"] schema) -> forall e, parse_node u d [schema] = Ok e -> declares_group d e).
        { intros d I e He. apply filter_In in I as [_ I]. cbn in I. rewrite orb_false_r in I. apply tagged_iff in I. eapply global_group_ok; [apply O|exact I|exact He]. }
        revert X. induction H2; intros X; constructor; [apply X; [left; auto|auto]|apply IHForall2; intros; eapply X; [right; auto|auto]]. }
      unfold struct_at, top_level in A. rewrite nth_error_app2 in A by lia. unfold origin, ds. rewrite app_nth2 by lia. rewrite Ld.
      set (j := (i - List.length (rf_types f0))%nat) in *. assert (Lj : (j < List.length (rf_groups f0))%nat) by (apply nth_error_Some; congruence).
      assert (Lg : List.length (tagged_children ["attributeGroup"] schema) = List.length (rf_groups f0)) by (eapply Forall2_same_length; eauto).
      assert (Y : declares_group (nth j (tagged_children ["attributeGroup"] schema) schema) (EStruct s)).
      { eapply Forall2_at; eauto. }
      destruct Y as (s' & E & Hn & Fa). injection E as <-. split; auto. split; auto. split.
      + assert (X : In (nth j (tagged_children ["attributeGroup"] schema) schema) (tagged_children ["attributeGroup"] schema)) by (apply nth_In; lia). apply filter_In in X. tauto.
      + cbn [inner]. rewrite Es. destruct (attrs_quiet _ _ Fa) as [-> _]. apply sub_nil. }
  assert (OS : forall i s, struct_at (rf_types f0) i s -> sub (spl (EStruct s)) (spliced [schema] (origin i))).
  { intros i s A. destruct (OT i s A) as [(s' & E & Es & Hn & _ & G)|[Sh _]]; [|inversion Sh; contradiction]. injection E as <-. destruct G as [(_ & _ & G)|[Ef Eg']]; auto. cbn. rewrite Ef, Eg'. apply sub_nil. }
  assert (P : forall i d e e', nth_error (declarations schema) i = Some d -> nth_error (rf_types f0) i = Some e -> nth_error (rf_types f) i = Some e' -> declared_like schema d e -> settled schema d e').
  { intros i d e e' Hd He He' Dl. assert (Te : ScopeProofs.top u tns xsd K e') by (rewrite Forall_forall in T; apply T; eapply nth_error_In; eauto).
    assert (Ei : origin i = d) by (unfold origin, ds; rewrite app_nth1 by (apply nth_error_Some; congruence); apply nth_error_nth; auto).
    destruct Dl as [(s & -> & Es & Hn & Ow & G)|[Sh Su]].
    - destruct (Str i s He) as (t & Ht & R). assert (e' = EStruct t) as -> by (unfold struct_at in Ht; congruence).
      destruct R as (own & out & gs & (En & _ & _ & Et) & Fo & As & Fg & Ef). left. exists t. split; auto. rewrite En. split; auto. split; auto. split; [apply (proj1 (top_nested _ _ _ _ _ Te)); auto|].
      destruct G as [(St & _)|[Ef0 Eg0]].
      + left. split; auto. intros n En'. eapply linked_names; [exact L|exact Origin|exact OS|exact He|exact Ht|rewrite Ei; exact En'].
      + right. rewrite Ef0 in Fo. rewrite Eg0 in Fg. inversion Fo; subst. inversion Fg; subst. destruct As as (cs & Fc & ->). inversion Fc; subst. unfold SpecGen.nested. rewrite Et, Es, Ef. auto.
    - assert (Ns : forall s, e <> EStruct s) by (intros s ->; inversion Sh; contradiction). rewrite (Ot i e He Ns) in He'. injection He' as <-. right. split; auto. split; auto. apply (top_nested _ _ _ _ _ Te). }
  clear - D P El Ld. revert P. generalize (rf_types f) El. clear El. revert D Ld. generalize (declarations schema), (rf_types f0). intros l l0 D Ld l1 El P.
  revert l1 El P. induction D as [|d e l l0 Dl D IH]; intros [|e' l1] El P; try discriminate; constructor.
  - eapply (P 0%nat); eauto; reflexivity.
  - apply IH; auto. intros i d' x x' A B C. apply (P (S i)); auto.
Qed.
Lemma restrict {A} (R : node -> A -> Prop) p cs ns : Forall2 R cs ns -> exists ms, Forall2 R (filter p cs) ms /\ sub (combine (filter p cs) ms) (combine cs ns).
Proof.
  intros F. induction F as [|c n cs ns H F (ms & I1 & I2)]; cbn; [exists []; split; [constructor|apply sub_nil]|]. destruct (p c).
  - exists (n :: ms). split; auto. cbn. apply sub_cons. auto.
  - exists ms. split; auto. apply sub_skip. auto.
Qed.
Lemma settled_distinct u tns xsd schema es its : Forall2 (settled schema) (declarations schema) es ->
  separate_types schema (SpecGen.ty u (fun q => format_type_name u q xsd tns)) (format_name u) ->
  all_items u tns (fun q => format_type_name u q xsd tns) (format_name u) (variant_name u tns) es its -> distinct_types its.
Proof.
  intros S (NO & nss & FI & NI & NH & NB & NX) A. set (ty := SpecGen.ty u (fun q => format_type_name u q xsd tns)) in *.
  destruct (restrict _ (fun c => is_element c && negb (tagged "annotation" c) && negb (tagged "attributeGroup" c)) _ _ FI) as (ms & FM & SM). fold (declarations schema) in FM, SM.
  assert (Lm : List.length (declarations schema) = List.length ms) by (eapply Forall2_same_length; eauto).
  assert (Ln : List.length (children schema) = List.length nss) by (eapply Forall2_same_length; eauto).
  assert (CF : forall (B : Type) (g : node -> B) (l : list node) (r : list (list str)), List.length l = List.length r -> map (fun dn => g (fst dn)) (combine l r) = map g l).
  { clear. intros B g l. induction l as [|x l IH]; intros [|y r] E; try discriminate; auto. cbn. f_equal. auto. }
  assert (SO : sub (concat (map (fun dn => outside_names schema (fst dn)) (combine (declarations schema) ms))) (outsides schema)).
  { unfold outsides. rewrite CF by auto. apply (sub_filter (outside_names schema)). }
  assert (HI : forall dn, In dn (combine (declarations schema) ms) -> NoDup (map ty (snd dn ++ outsides schema)) /\ NoDup (map (format_name u) (snd dn))).
  { intros dn I. eapply sub_incl in I; [|exact SM]. destruct dn as [d n]. apply in_combine_r in I. rewrite Forall_forall in NI. apply NI. auto. }
  assert (X : exists bs, its = concat bs /\ Forall2 (block u (fun q => format_type_name u q xsd tns) (format_name u) schema) (combine (declarations schema) ms) bs).
  { clear NO NI NH SM SO FI. revert S its A ms FM Lm HI. generalize (declarations schema). intros ds0 S. induction S as [|d e ds es Sd S IH]; intros its A ms FM Lm HI; inversion A as [|? ? a b A1 A2]; subst; inversion FM as [|? n ? ms' F1 F2]; subst; [exists []; split; [auto|constructor]|].
    destruct (IH b A2 ms' F2) as (bs & -> & Fb); [injection Lm; auto|intros; apply HI; right; auto|]. exists (a :: bs). split; auto. cbn. constructor; auto.
    eapply settled_block; eauto. apply (HI (d, n)). left. auto. }
  destruct X as (bs & -> & Fb). rewrite Forall_forall in NB, NX.
  assert (Ims : forall x, In x (concat (map snd (combine (declarations schema) ms))) -> In x (concat nss)).
  { intros x I. apply in_concat in I as (l & Il & I). apply in_map_iff in Il as (dn & <- & Il). eapply sub_incl in Il; [|exact SM]. destruct dn as [d n]. apply in_combine_r in Il. apply in_concat. eauto. }
  eapply blocks_distinct; [exact Fb| | | | |].
  - eapply sub_nodup; [apply sub_map; exact SO|auto].
  - apply Forall_forall. intros dn I. eapply sub_nodup; [|apply (HI dn I)]. apply sub_map, sub_app; [apply sub_refl|exact SO].
  - eapply sub_nodup; [|exact NH]. destruct SM as (r & P). exists (concat (map (fun p => match snd p with [] => [] | _ => map (format_name u) (name_of (fst p)) end) r)).
    unfold module_names, heads. rewrite <- concat_app, <- map_app. apply concat_perm, Permutation_map. auto.
  - intros x I. apply NB. apply in_or_app. apply in_app_or in I as [I|I]; [left; eapply sub_incl; eauto|right; auto].
  - intros m I. apply NX. apply in_or_app. apply in_app_or in I as [I|I]; [left|right; apply in_map_iff in I as (x & <- & I); apply in_map; auto].
    unfold module_names. apply in_concat in I as (l & Il & I). apply in_map_iff in Il as (dn & <- & Il). apply in_concat. eexists. split; [apply in_map; eapply sub_incl; [exact SM|exact Il]|exact I].
Qed.
Lemma document_distinct u roots schema f its : document roots schema -> ok_schema schema -> tidy schema -> parse u roots = Ok f ->
  (forall x, part x schema -> orderly u schema (ns_prefix (rf_target_ns f)) (ns_prefix (rf_xsd_ns f)) x) ->
  separate_types schema (SpecGen.ty u (fun q => format_type_name u q (rf_xsd_ns f) (rf_target_ns f))) (format_name u) ->
  all_items u (rf_target_ns f) (fun q => format_type_name u q (rf_xsd_ns f) (rf_target_ns f)) (format_name u) (variant_name u (rf_target_ns f)) (rf_types f) its -> distinct_types its.
Proof.
  intros (a & b & -> & E & L) O T H Or Sep A. destruct (parse_document u (a ++ schema :: b)) as [PD _].
  destruct (proj1 (proj1 (PD a schema b eq_refl E L) f) H) as (f0 & Hp & Hl). destruct (link_ok _ _ Hl) as (_ & Et & Ex & _).
  assert (GP : forall x, part x schema -> ScopeProofs.good u schema (rf_target_ns f) (rf_xsd_ns f) x) by (intros; apply ScopeProofs.good_parts; auto).
  destruct (ScopeProofs.file_top u schema (rf_target_ns f) (rf_xsd_ns f) schema f0 O GP Hp) as [Tp Lk].
  assert (Tp' := ScopeProofs.link_top _ _ _ _ _ _ Hl Tp Lk).
  eapply settled_distinct; [|exact Sep|exact A]. eapply linked_settled; eauto. eapply good_fine; eauto.
Qed.
Lemma schema_distinct u schema f its : ok_schema schema -> tidy schema -> parse_schema u schema [] = Ok f ->
  (forall x, part x schema -> orderly u schema (ns_prefix (rf_target_ns f)) (ns_prefix (rf_xsd_ns f)) x) ->
  separate_types schema (SpecGen.ty u (fun q => format_type_name u q (rf_xsd_ns f) (rf_target_ns f))) (format_name u) ->
  all_items u (rf_target_ns f) (fun q => format_type_name u q (rf_xsd_ns f) (rf_target_ns f)) (format_name u) (variant_name u (rf_target_ns f)) (rf_types f) its -> distinct_types its.
Proof.
  intros O T H Or Sep A.
  assert (GP : forall x, part x schema -> ScopeProofs.good u schema (rf_target_ns f) (rf_xsd_ns f) x) by (intros; apply ScopeProofs.good_parts; auto).
  destruct (ScopeProofs.file_top u schema (rf_target_ns f) (rf_xsd_ns f) schema f O GP H) as [Tp Lk].
  eapply settled_distinct; [|exact Sep|exact A]. destruct (schema_inv _ _ _ _ H) as (_ & H1 & _). assert (F := good_fine _ _ _ _ Or).
  assert (X : forall d, In d (declarations schema) -> forall e, In e (rf_types f) -> parse_node u d [schema] = Ok e -> settled schema d e).
  { intros d Id e Ie He. rewrite Forall_forall in Tp. eapply declared_settled; eauto. eapply declaration_like; eauto. }
  clear - H1 X. induction H1; constructor; [apply X; [left; auto|left; auto|auto]|apply IHForall2; intros; apply X; [right; auto|right; auto|auto]].
Qed.

(** ** Consequences: the conditions of C64 and C65 *)
Lemma nodup_fst {A B} (l : list (A * B)) a b c : NoDup (map fst l) -> In (a, b) l -> In (a, c) l -> b = c.
Proof.
  induction l as [|[x y] l IH]; intros N I J; [destruct I|]. cbn in N. inversion N; subst. destruct I as [I|I]; destruct J as [J|J]; [congruence| | |eauto].
  - injection I as -> ->. destruct H1. apply in_map_iff. exists (a, c). auto.
  - injection J as -> ->. destruct H1. apply in_map_iff. exists (a, b). auto.
Qed.
(** The words of the path of an item are names of modules. *)
Lemma path_modules i : forall path p j m, In (p, j) (placed path i) -> In m p -> In m path \/ exists q, In q (modules path i) /\ last q [] = m.
Proof.
  induction i as [i N|m l IH] using item_nested_ind; intros path p j w I W; [destruct i; cbn in I; try (destruct I as [[= <- _]|[]]; auto; fail); exfalso; eapply N; eauto|].
  cbn [placed] in I. destruct I as [[= <- _]|I]; auto. apply in_concat in I as (x & Ix & I). apply in_map_iff in Ix as (k & <- & Ik). destruct (IH k Ik (path ++ [m]) p j w I W) as [Y|(q & Iq & Eq)].
  - apply in_app_or in Y as [Y|[<-|[]]]; auto. right. exists (path ++ [m]). split; [left; auto|apply last_last].
  - right. exists q. split; auto. cbn [modules]. right. apply in_concat. eexists. split; [apply in_map; exact Ik|auto].
Qed.
Lemma placed_modules its p j : In (p, j) (concat (map (placed []) its)) -> (forall q, In q (concat (map (modules []) its)) -> last q [] <> lit "xs") -> ~ In (lit "xs") p.
Proof.
  intros I X W. apply in_concat in I as (x & Ix & I). apply in_map_iff in Ix as (k & <- & Ik). destruct (path_modules k [] p j _ I W) as [[]|(q & Iq & Eq)]. apply (X q); auto. apply in_concat. eexists. split; [apply in_map; exact Ik|auto].
Qed.
Lemma defined_placed i : forall path p n d, In (p, n, d) (definitions path i) -> exists j, In (p, j) (placed path i).
Proof.
  induction i as [i N|m l IH] using item_nested_ind; intros path p n d I; [destruct i; cbn in I; try (destruct I as [[= <- _ _]|[]]; eexists; left; reflexivity); try destruct I; exfalso; eapply N; eauto|].
  cbn [definitions] in I. apply in_concat in I as (x & Ix & I). apply in_map_iff in Ix as (k & <- & Ik). destruct (IH k Ik _ _ _ _ I) as (j & J). exists j. right. apply in_concat. eexists. split; [apply in_map; exact Ik|auto].
Qed.
Lemma defined_modules its p n d : In (p, n, d) (concat (map (definitions []) its)) -> (forall q, In q (concat (map (modules []) its)) -> last q [] <> lit "xs") -> ~ In (lit "xs") p.
Proof.
  intros I X. apply in_concat in I as (x & Ix & I). apply in_map_iff in Ix as (k & <- & Ik). destruct (defined_placed k [] p n d I) as (j & J). eapply placed_modules; eauto. apply in_concat. eexists. split; [apply in_map; exact Ik|exact J].
Qed.
Lemma distinct_consistent its : distinct_types its -> consistent (concat (map (definitions []) its)).
Proof.
  intros (N & H & _ & _ & _ & B & X). split; [|intros p n d I; split; [apply (B p); rewrite introduces_all; apply in_map_iff; exists (p, n, d); auto|apply (defined_modules _ _ _ _ I X)]]. clear B X. rewrite introduces_all in *. intros p r n d e I J.
  assert (r = []) as -> by (apply (H p r n); apply in_map_iff; [exists (p, n, d)|exists (p ++ r, n, e)]; auto). rewrite app_nil_r in J.
  assert (d = e) as <- by (eapply nodup_fst; eauto). split; auto. destruct d; exact Logic.I.
Qed.
Definition own_intro (x : list str * item) : list (list str * list token) :=
  match snd x with IStruct _ _ n _ | ITuple _ _ n _ | IEnum _ _ n _ | IType _ n _ => [(fst x, n)] | _ => [] end.
Lemma introduces_placed i : forall path, introduces path i = concat (map own_intro (placed path i)).
Proof.
  induction i as [i N|m l IH] using item_nested_ind; intros path; [destruct i; auto; exfalso; eapply N; eauto|].
  cbn [introduces placed]. cbn [map List.concat]. unfold own_intro at 1. cbn [snd app]. induction l as [|i l IHl]; auto. cbn. rewrite map_app, concat_app, IH by (left; auto). f_equal. apply IHl. intros; apply IH; right; auto.
Qed.
Lemma introduces_places path its : concat (map (introduces path) its) = concat (map own_intro (concat (map (placed path) its))).
Proof. induction its as [|i l IH]; auto. cbn. rewrite map_app, concat_app, IH, introduces_placed. auto. Qed.
Lemma nodup_own {A B} (g : A -> list B) l x y z : NoDup (concat (map g l)) -> In x l -> In y l -> In z (g x) -> In z (g y) -> x = y.
Proof.
  induction l as [|a l IH]; cbn; intros N I J Zx Zy; [destruct I|]. apply nodup_disjoint in N as (_ & N & D).
  destruct I as [<-|I]; destruct J as [<-|J]; auto; exfalso; apply (D z); auto; apply in_concat; eexists; (split; [apply in_map; eassumption|auto]).
Qed.
Lemma distinct_unshadowed its : distinct_types its -> unshadowed (concat (map (placed []) its)).
Proof.
  intros (N & H & _ & _ & _ & B & X). split; [|intros p i n I D; split; [apply (B p); rewrite introduces_places; apply in_concat; exists (own_intro (p, i)); split; [apply in_map; auto|destruct i; cbn in *; try destruct D; subst; left; auto]|apply (placed_modules _ _ _ I X)]]. clear B X.
  rewrite introduces_places in *. intros p r n i j I J Di Dj.
  assert (Oi : In (p, n) (own_intro (p, i))) by (destruct i; cbn in *; try destruct Di; subst; left; auto).
  assert (Oj : In (p ++ r, n) (own_intro (p ++ r, j))) by (destruct j; cbn in *; try destruct Dj; subst; left; auto).
  assert (r = []) as -> by (apply (H p r n); apply in_concat; [exists (own_intro (p, i))|exists (own_intro (p ++ r, j))]; (split; [apply in_map|]; auto)). rewrite app_nil_r in *. split; auto.
  assert (E := nodup_own own_intro _ _ _ _ N I J Oi Oj). congruence.
Qed.
