(** Facts about the lexer of SpecRust. *)
From Coq Require Import Arith NArith ZArith Bool Ascii String List Lia.
From Verif Require Import Str StrFacts Entity Names Comment Gen SpecRust.
Import ListNotations.
Local Open Scope string_scope.
Local Open Scope list_scope.
Local Open Scope N_scope.

Section L.
Context (u : uni).
Notation run := (run u).
Notation word_char := (word_char u).

Lemma run_app st a b : run st (a ++ b) =
  match run st a with
  | Some (st', t) => match run st' b with Some (st'', t') => Some (st'', t ++ t') | None => None end
  | None => None end.
Proof.
  revert st. induction a as [|c a IH]; intros st; cbn [app SpecRust.run].
  - destruct (run st b) as [[st' t]|]; auto.
  - destruct (lex_step u st c) as [[st' t]|]; auto. rewrite IH. destruct (run st' a) as [[st1 t1]|]; auto.
    destruct (run st1 b) as [[st2 t2]|]; auto. rewrite app_assoc. reflexivity.
Qed.

(** Closed and open pieces. *)
Definition closed (s : str) (t : list token) : Prop := run LNone s = Some (LNone, t).
Definition opened (s : str) (t : list token) : Prop :=
  exists st t', run LNone s = Some (st, t') /\ (st = LNone /\ t = t' \/ exists w, st = LWord w /\ t = t' ++ [TWord (rev w)]).
Definition stops (b : str) : Prop := match b with c :: _ => word_char c = false | [] => False end.

Lemma closed_nil : closed [] [].
Proof. reflexivity. Qed.
Lemma closed_app a b ta tb : closed a ta -> closed b tb -> closed (a ++ b) (ta ++ tb).
Proof. unfold closed. intros Ha Hb. rewrite run_app, Ha, Hb. reflexivity. Qed.
Lemma closed_skip a b t : closed a [] -> closed b t -> closed (a ++ b) t.
Proof. exact (closed_app a b [] t). Qed.
Lemma closed_opened a t : closed a t -> opened a t.
Proof. intros H. exists LNone, t. auto. Qed.
Lemma stops_app b c : stops b -> stops (b ++ c).
Proof. destruct b; cbn; auto. intros []. Qed.
Lemma run_word_stop w b : stops b -> run (LWord w) b = match run LNone b with Some (st, t) => Some (st, TWord (rev w) :: t) | None => None end.
Proof.
  destruct b as [|c b]; cbn [stops]; [intros []|]. intros H. cbn [SpecRust.run lex_step]. rewrite H. unfold after.
  destruct (start u c) as [st t]. cbn [fst snd]. destruct (run st b) as [[st' t']|]; auto.
Qed.
Lemma opened_run a ta b : opened a ta -> stops b -> run LNone (a ++ b) = match run LNone b with Some (st, t) => Some (st, ta ++ t) | None => None end.
Proof.
  intros (st & t' & H & [[-> ->]|(w & -> & ->)]) S; rewrite run_app, H; [destruct (run LNone b) as [[? ?]|]; auto|].
  rewrite run_word_stop by auto. destruct (run LNone b) as [[st1 t1]|]; auto. rewrite <- app_assoc. reflexivity.
Qed.
Lemma opened_closed a ta b tb : opened a ta -> stops b -> closed b tb -> closed (a ++ b) (ta ++ tb).
Proof. unfold closed. intros Ha S Hb. rewrite (opened_run _ _ _ Ha S), Hb. reflexivity. Qed.
Lemma opened_opened a ta b tb : opened a ta -> stops b -> opened b tb -> opened (a ++ b) (ta ++ tb).
Proof.
  intros Ha S (st & t' & H & D). exists st, (ta ++ t'). rewrite (opened_run _ _ _ Ha S), H. split; auto.
  destruct D as [[-> ->]|(w & -> & ->)]; [auto|]. right. exists w. rewrite app_assoc. auto.
Qed.
Lemma closed_open_app a ta b tb : closed a ta -> opened b tb -> opened (a ++ b) (ta ++ tb).
Proof.
  intros Ha (st & t' & H & D). exists st, (ta ++ t'). unfold closed in Ha. rewrite run_app, Ha, H. split; auto.
  destruct D as [[-> ->]|(w & -> & ->)]; [auto|]. right. exists w. rewrite app_assoc. auto.
Qed.
Lemma opened_lex a t : opened a t -> lex u a = Some t.
Proof. intros (st & t' & H & [[-> ->]|(w & -> & ->)]); unfold lex; rewrite H; cbn; rewrite ?app_nil_r; auto. Qed.
Lemma opened_lexemes a t : opened a t -> lexemes u a = t.
Proof. intros H. unfold lexemes. rewrite (opened_lex _ _ H). reflexivity. Qed.
Lemma opened_self a t : opened a t -> opened a (lexemes u a).
Proof. intros H. rewrite (opened_lexemes _ _ H). exact H. Qed.

(** Words and literals. *)
Lemma run_word w : forall acc, Forall (fun c => word_char c = true) w -> run (LWord acc) w = Some (LWord (rev w ++ acc), []).
Proof.
  induction w as [|c w IH]; intros acc H; [reflexivity|]. inversion H; subst. cbn [SpecRust.run lex_step]. rewrite H2.
  rewrite IH by auto. cbn [rev app]. rewrite <- app_assoc. reflexivity.
Qed.
Definition word_text (w : str) : Prop := Forall (fun c => word_char c = true) w.
Lemma opened_word w : word_text w -> opened w (word w).
Proof.
  intros H. destruct w as [|c w]; [apply closed_opened; reflexivity|]. inversion H as [|? ? H1 H3]; subst.
  exists (LWord (rev w ++ [c])), []. split.
  - cbn [SpecRust.run lex_step]. unfold start. rewrite H1. rewrite run_word; [reflexivity|auto].
  - right. exists (rev w ++ [c]). split; auto. rewrite rev_app_distr, rev_involutive. reflexivity.
Qed.
Definition plain_char (c : N) : Prop := c <> 34 /\ c <> 92 /\ c <> 10.
Lemma run_str s : forall acc, literal s -> run (LStr acc) s = Some (LStr (rev s ++ acc), []).
Proof.
  induction s as [|c s IH]; intros acc H; [reflexivity|]. destruct (H c (or_introl eq_refl)) as (H1 & H2 & H3). cbn [SpecRust.run lex_step].
  destruct (N.eqb_spec c 34); [congruence|]. destruct (N.eqb_spec c 92); [congruence|]. destruct (N.eqb_spec c 10); [congruence|].
  rewrite IH; [|intros x Hx; apply H; right; auto]. cbn [rev app]. rewrite <- app_assoc. reflexivity.
Qed.
Lemma run_comment s : ~ In 10 s -> forall acc, exists acc' t, run (LComment acc) s = Some (LComment acc', t) /\
  t ++ note acc' = notes (split_whitespace_aux s acc).
Proof.
  induction s as [|c s IH]; intros H acc; [exists acc, []; split; [reflexivity|destruct acc; reflexivity]|].
  cbn [SpecRust.run lex_step split_whitespace_aux]. destruct (N.eqb_spec c 10); [subst; destruct H; left; auto|].
  assert (H' : ~ In 10 s) by (intros X; apply H; right; auto). destruct (is_whitespace c).
  - destruct (IH H' []) as (acc' & t & R & E). rewrite R. exists acc', (note acc ++ t). split; [reflexivity|].
    rewrite <- app_assoc, E. destruct acc; reflexivity.
  - destruct (IH H' (c :: acc)) as (acc' & t & R & E). rewrite R. exists acc', t. auto.
Qed.
Lemma split_ws_app a c b : is_whitespace c = true -> split_whitespace (a ++ c :: b) = split_whitespace a ++ split_whitespace b.
Proof.
  intros W. unfold split_whitespace. enough (G : forall cur, split_whitespace_aux (a ++ c :: b) cur = split_whitespace_aux a cur ++ split_whitespace_aux b []) by apply G.
  induction a as [|x a IH]; intros cur; cbn [app split_whitespace_aux].
  - rewrite W. destruct cur; reflexivity.
  - destruct (is_whitespace x); [destruct cur; cbn [app]; rewrite IH; reflexivity|apply IH].
Qed.
Lemma run_spaces n s : run LNone (spaces n ++ s) = run LNone s.
Proof. induction n; cbn [spaces repeat app]; auto. change (repeat 32 n) with (spaces n). cbn [SpecRust.run lex_step]. change (start u 32) with (LNone, @nil token). cbv iota beta. rewrite IHn. destruct (run LNone s) as [[? ?]|]; auto. Qed.
Lemma closed_spaces n : closed (spaces n) [].
Proof. unfold closed. rewrite <- (app_nil_r (spaces n)), run_spaces. reflexivity. Qed.

(** Texts without quotes and slashes. *)
Lemma run_plain s : forall st, (st = LNone \/ exists w, st = LWord w) -> (forall c, In c s -> c <> 34 /\ c <> 47) ->
  exists st' t, run st s = Some (st', t) /\ (st' = LNone \/ exists w, st' = LWord w).
Proof.
  induction s as [|c s IH]; intros st D H; [exists st, []; auto|].
  assert (S : exists st1 t1, lex_step u st c = Some (st1, t1) /\ (st1 = LNone \/ exists w, st1 = LWord w)).
  { destruct (H c (or_introl eq_refl)) as (H1 & H2).
    assert (X : exists st1 t1, start u c = (st1, t1) /\ (st1 = LNone \/ exists w, st1 = LWord w)).
    { unfold start. destruct (word_char c); [eauto 6|]. destruct (is_whitespace c); [eauto|]. destruct (N.eqb_spec c 47); [congruence|].
      destruct (N.eqb_spec c 34); [congruence|]. eauto. }
    destruct X as (st1 & t1 & X & D1). destruct D as [->|(w & ->)]; cbn [lex_step]; [rewrite X; eauto|].
    destruct (word_char c); [eauto 6|]. rewrite X. unfold after. cbn. eauto. }
  destruct S as (st1 & t1 & S & D1). destruct (IH st1 D1) as (st2 & t2 & R & D2); [intros; apply H; right; auto|].
  exists st2, (t1 ++ t2). cbn [SpecRust.run]. rewrite S, R. auto.
Qed.
Lemma opened_plain s : (forall c, In c s -> c <> 34 /\ c <> 47) -> opened s (lexemes u s).
Proof.
  intros H. destruct (run_plain s LNone (or_introl eq_refl) H) as (st & t & R & [->|(w & ->)]).
  - assert (O : opened s t) by (exists LNone, t; auto). apply (opened_self _ _ O).
  - assert (O : opened s (t ++ [TWord (rev w)])) by (exists (LWord w), t; split; auto; right; exists w; auto). apply (opened_self _ _ O).
Qed.

(** ** Layout *)
Lemma step_newline st r : lex_step u st 10 = Some r -> fst r = LNone.
Proof.
  destruct st; cbn [lex_step]; intros E; try discriminate E; try (injection E as <-; reflexivity).
Qed.
Lemma run_newline_more s : run LNone (10 :: s) = run LNone s.
Proof. change (run LNone (spaces 0 ++ 10 :: s) = run LNone s). cbn [spaces repeat app SpecRust.run lex_step]. change (start u 10) with (LNone, @nil token). cbv iota beta. destruct (run LNone s) as [[? ?]|]; auto. Qed.
Lemma squeeze_run s : forall n st r, (List.length s <= n)%nat -> run st s = Some r -> run st (squeeze s) = Some r.
Proof.
  intros n. revert s. induction n as [|n IH]; intros s st r L H.
  - destruct s; [exact H|cbn in L; lia].
  - destruct s as [|a s1]; [exact H|]. cbn [List.length] in L.
    assert (D : run st (a :: squeeze s1) = Some r).
    { cbn [SpecRust.run] in *. destruct (lex_step u st a) as [[st1 t1]|]; [|discriminate]. destruct (run st1 s1) as [[st2 t2]|] eqn:E; [|discriminate].
      rewrite (IH s1 st1 (st2, t2)); auto. lia. }
    destruct s1 as [|b [|c s3]]; try exact D. change (squeeze (a :: b :: c :: s3)) with
      (if (a =? 10) && (b =? 10) && (c =? 10) then 10 :: squeeze s3 else a :: squeeze (b :: c :: s3)).
    destruct (N.eqb_spec a 10); [|exact D]. destruct (N.eqb_spec b 10); [|exact D]. destruct (N.eqb_spec c 10); [|exact D]. subst a b c. cbn [andb].
    clear D. cbn [SpecRust.run] in *. destruct (lex_step u st 10) as [[st1 t1]|] eqn:E; [|discriminate]. pose proof (step_newline _ _ E) as X. cbn in X. subst st1.
    match type of H with match ?x with _ => _ end = _ => change x with (run LNone (10 :: 10 :: s3)) in H end.
    rewrite !run_newline_more in H.
    destruct (run LNone s3) as [[st2 t2]|] eqn:E2; [|discriminate]. rewrite (IH s3 LNone (st2, t2)); auto. cbn in L. lia.
Qed.

(** [shift] as a function on the text. *)
Fixpoint line (b : bool) (ind s : str) : str :=
  match s with
  | [] => []
  | c :: s' => if c =? 10 then 10 :: line true ind s' else (if b then ind else []) ++ c :: line false ind s'
  end.
Lemma line_false_split ind s : exists l ls, split_on 10 s = l :: ls /\
  line false ind s = l ++ concat (map (fun x => if negb (is_empty x) then nl ++ ind ++ x else nl) ls) /\
  line true ind s = (if is_empty l then [] else ind) ++ l ++ concat (map (fun x => if negb (is_empty x) then nl ++ ind ++ x else nl) ls).
Proof.
  induction s as [|c s (l & ls & E & E1 & E2)]; [exists [], []; auto|]. cbn [split_on line].
  destruct (N.eqb_spec c 10) as [->|Hc].
  - exists [], (l :: ls). rewrite N.eqb_refl. rewrite E. split; auto. cbn [app map concat is_empty]. split; rewrite E2; destruct l; cbn [is_empty negb]; unfold nl; cbn [app]; rewrite <- ?app_assoc; auto.
  - destruct (N.eqb_spec 10 c); [congruence|]. rewrite E. exists (c :: l), ls. split; auto. cbn [is_empty app]. rewrite E1. auto.
Qed.
Lemma fold_concat l : forall a : str, fold_left (fun acc x => acc ++ x) l a = a ++ concat l.
Proof. induction l as [|x l IH]; intros a; cbn; [rewrite app_nil_r; auto|]. rewrite IH, app_assoc. reflexivity. Qed.
Lemma shift_line text ind : shift text ind = ind ++ 10 :: line true ind (squeeze text).
Proof.
  unfold shift. rewrite fold_concat. destruct (line_false_split ind (squeeze text)) as (l & ls & E & _ & E2). rewrite E. cbn [map concat]. rewrite E2.
  destruct l; cbn [is_empty negb app]; unfold nl; cbn [app]; rewrite <- ?app_assoc; auto.
Qed.
Lemma line_run n s : forall st r, (run st s = Some r -> run st (line false (spaces n) s) = Some r) /\
  (run LNone s = Some r -> run LNone (line true (spaces n) s) = Some r).
Proof.
  induction s as [|c s IH]; intros st r; [auto|]. cbn [line]. destruct (N.eqb_spec c 10) as [->|Hc].
  - split; intros H.
    + cbn [SpecRust.run] in *. destruct (lex_step u st 10) as [[st1 t1]|] eqn:E; [|discriminate]. pose proof (step_newline _ _ E) as X. cbn in X. subst st1.
      destruct (run LNone s) as [[st2 t2]|] eqn:E2; [|discriminate]. destruct (IH LNone (st2, t2)) as [_ ->]; auto.
    + rewrite run_newline_more in *. apply IH; auto.
  - assert (G : forall st r, run st (c :: s) = Some r -> run st (c :: line false (spaces n) s) = Some r).
    { intros st0 r0 H. cbn [SpecRust.run] in *. destruct (lex_step u st0 c) as [[st1 t1]|]; [|discriminate].
      destruct (run st1 s) as [[st2 t2]|] eqn:E2; [|discriminate]. destruct (IH st1 (st2, t2)) as [-> _]; auto. }
    cbn [app]. split; intros H; [auto|]. rewrite run_spaces. auto.
Qed.
Lemma shift_closed text t n : closed text t -> closed (shift text (spaces n)) t.
Proof.
  unfold closed. intros H. rewrite shift_line, run_spaces, run_newline_more. destruct (line_run n (squeeze text) LNone (LNone, t)) as [_ L]. apply L.
  eapply squeeze_run; [apply Nat.le_refl|exact H].
Qed.

(** String literals. *)
Definition quoted (v : str) : Prop := forall acc, run (LStr acc) v = Some (LStr (rev v ++ acc), []).
Lemma quoted_literal v : literal v -> quoted v.
Proof. intros H acc. apply run_str; auto. Qed.
Lemma quoted_app a b : quoted a -> quoted b -> quoted (a ++ b).
Proof. intros Ha Hb acc. rewrite run_app, Ha, Hb, rev_app_distr, app_assoc. reflexivity. Qed.
Lemma run_quote v x r : quoted v -> run LNone x = r ->
  run LNone (34 :: v ++ 34 :: x) = match r with Some (st, t) => Some (st, TStr v :: t) | None => None end.
Proof.
  intros Q <-. cbn [SpecRust.run lex_step]. change (start u 34) with (LStr [], @nil token). cbv iota beta. rewrite run_app, Q. cbn [SpecRust.run lex_step].
  change (34 =? 34) with true. cbv iota. rewrite app_nil_r, rev_involutive. destruct (run LNone x) as [[st t]|]; auto.
Qed.
Lemma closed_quote v x t : quoted v -> closed x t -> closed (34 :: v ++ 34 :: x) (TStr v :: t).
Proof. intros Q C. unfold closed in *. rewrite (run_quote _ _ _ Q C). reflexivity. Qed.
Lemma closed_word_app w x t : word_text w -> stops x -> closed x t -> closed (w ++ x) (word w ++ t).
Proof. intros W S C. apply opened_closed; auto. apply opened_word; auto. Qed.
Lemma closed_concat l ts : Forall2 closed l ts -> closed (concat l) (concat ts).
Proof. induction 1; [reflexivity|]. cbn. apply closed_app; auto. Qed.
Lemma closed_eq a t t' : closed a t -> t = t' -> closed a t'.
Proof. intros H ->; auto. Qed.
(** Layout between closed pieces. *)
Lemma closed_sep sep l ts : closed sep [] -> Forall2 closed l ts -> closed (join sep l) (concat ts).
Proof.
  intros S. induction 1 as [|x y l ts H F IH]; [reflexivity|]. destruct l as [|x' l].
  - inversion F; subst. cbn. rewrite app_nil_r. auto.
  - change (join sep (x :: x' :: l)) with (x ++ sep ++ join sep (x' :: l)). cbn [concat]. apply closed_app; auto. apply (closed_app _ _ [] _ S); auto.
Qed.
End L.
