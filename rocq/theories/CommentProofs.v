(** Proofs about the documentation formatter. *)
From Coq Require Import Arith NArith ZArith Bool Ascii String List Lia.
From Coq Require Import ZifyBool ZifyNat ZifyN.
From Verif Require Import Str StrFacts Comment SpecSerde SerdeProofs SpecNames.
Import ListNotations.

Lemma concat_snoc {A} (l : list (list A)) x : concat (l ++ [x]) = concat l ++ x.
Proof. rewrite concat_app. cbn. rewrite app_nil_r. auto. Qed.

Lemma comment_line_snoc k ws w : comment_line k (ws ++ [w]) = comment_line k ws ++ lit " " ++ w.
Proof.
  unfold comment_line. rewrite map_app. cbn [map]. rewrite concat_snoc, <- !app_assoc. reflexivity.
Qed.

Lemma byte_len_line k ws w :
  byte_len (comment_line k (ws ++ [w])) = (byte_len (comment_line k ws) + 1 + byte_len w)%nat.
Proof. rewrite comment_line_snoc, !byte_len_app. change (byte_len (lit " ")) with 1%nat. lia. Qed.

Lemma byte_len_spaces k : byte_len (repeat 32%N k) = k.
Proof. induction k; cbn [repeat byte_len]; [reflexivity|]. rewrite IHk. reflexivity. Qed.

Lemma byte_len_line_nil k : byte_len (comment_line k []) = (k + 2)%nat.
Proof.
  unfold comment_line. rewrite byte_len_app, byte_len_spaces. reflexivity.
Qed.

Lemma byte_len_line_one k w : byte_len (comment_line k [w]) = (k + 3 + byte_len w)%nat.
Proof. pose proof (byte_len_line k [] w) as H. cbn [app] in H. rewrite H, byte_len_line_nil. lia. Qed.

Lemma comment_loop_spec max_len k ws : forall cur acc,
  (fits max_len k cur) ->
  exists ls, comment_loop max_len k ws (acc ++ comment_line k cur) (byte_len (comment_line k cur)) ++ [10%N] =
             acc ++ comment_text k ls /\
    concat ls = cur ++ ws /\ filled max_len k ls /\ (exists ws' r, ls = (cur ++ ws') :: r).
Proof.
  induction ws as [|w ws IH]; intros cur acc F; cbn [comment_loop].
  - exists [cur]. split; [|split; [|split]].
    + unfold comment_text. cbn [map concat]. rewrite app_nil_r, <- app_assoc. reflexivity.
    + cbn. rewrite !app_nil_r. auto.
    + apply filled_one. auto.
    + exists [], []. rewrite app_nil_r. auto.
  - cbv zeta. destruct (Nat.ltb_spec (byte_len (comment_line k cur) + byte_len w) max_len) as [L|L].
    + replace ((acc ++ comment_line k cur) ++ lit " " ++ w) with (acc ++ comment_line k (cur ++ [w]))
        by (rewrite comment_line_snoc, app_assoc; reflexivity).
      replace (byte_len (comment_line k cur) + (1 + byte_len w)) with (byte_len (comment_line k (cur ++ [w])))
        by (rewrite byte_len_line; lia).
      destruct (IH (cur ++ [w]) acc) as (ls & E & C & Fl & ws' & r & El).
      * left. rewrite byte_len_line. lia.
      * exists ls. split; [exact E|]. split; [rewrite C, <- app_assoc; reflexivity|]. split; auto.
        exists (w :: ws'), r. rewrite El, <- app_assoc. reflexivity.
    + destruct (IH [w] (acc ++ comment_line k cur ++ [10%N])) as (ls & E & C & Fl & ws' & r & El).
      * right. cbn. lia.
      * exists (cur :: ls). split; [|split; [|split]].
        -- rewrite byte_len_line_one in E.
           replace ((acc ++ comment_line k cur) ++ [10%N] ++ spaces k ++ lit "// " ++ w) with
             ((acc ++ comment_line k cur ++ [10%N]) ++ comment_line k [w]).
           2:{ unfold comment_line, spaces. cbn [map concat]. rewrite app_nil_r, <- !app_assoc. reflexivity. }
           rewrite E. unfold comment_text. cbn [map concat]. rewrite <- !app_assoc. reflexivity.
        -- cbn [concat]. rewrite C. reflexivity.
        -- rewrite El. cbn [app]. apply filled_more; auto. rewrite El in Fl. exact Fl.
        -- exists [], ls. rewrite app_nil_r. auto.
Qed.

Lemma split_comment_line_spec s ws max_len k : tokens s ws ->
  exists ls, split_comment_line s max_len k = comment_text k ls /\ concat ls = ws /\ filled max_len k ls.
Proof.
  intros T. apply tokens_split in T. unfold split_comment_line. rewrite T.
  destruct (comment_loop_spec max_len k ws [] []) as (ls & E & C & F & _).
  - right. cbn. lia.
  - exists ls. rewrite byte_len_line_nil in E. cbn [app] in E.
    replace (comment_line k []) with (spaces k ++ lit "//") in E.
    + auto.
    + unfold comment_line, spaces. cbn [map concat]. rewrite app_nil_r. reflexivity.
Qed.

(** ** Lines and trimming against tokens *)
Lemma tokens_blank_l w s ts : blanks w -> tokens s ts -> tokens (w ++ s) ts.
Proof.
  intros B H. destruct H as [w' B'|w' t w2 B' T B2|w' t b rest ts B' T Hb N1 Ht]; rewrite ?app_assoc.
  - apply tok_none. intros c Hc. apply in_app_or in Hc. destruct Hc; auto.
  - rewrite <- app_assoc. apply tok_last; auto. intros c Hc. apply in_app_or in Hc. destruct Hc; auto.
  - rewrite <- !app_assoc. rewrite (app_assoc w). apply tok_more; auto.
    intros c Hc. apply in_app_or in Hc. destruct Hc; auto.
Qed.

Lemma tokens_blank_r w s ts : blanks w -> tokens s ts -> tokens (s ++ w) ts.
Proof.
  intros B H. induction H as [w' B'|w' t w2 B' T B2|w' t b rest ts B' T Hb N1 Ht IH].
  - apply tok_none. intros c Hc. apply in_app_or in Hc. destruct Hc; auto.
  - rewrite <- !app_assoc. apply tok_last; auto. intros c Hc. apply in_app_or in Hc. destruct Hc; auto.
  - rewrite <- !app_assoc. apply tok_more; auto.
Qed.

Lemma trim_start_split s : exists w, blanks w /\ s = w ++ trim_start s /\
  (forall c t, trim_start s = c :: t -> is_whitespace c = false).
Proof.
  induction s as [|c s (w & B & E & H)]; cbn [trim_start].
  - exists []. split; [intros ? []|]. split; auto. discriminate.
  - destruct (is_whitespace c) eqn:Ec.
    + exists (c :: w). split; [intros x [<-|Hx]; auto|]. split; [cbn; f_equal; exact E|]. exact H.
    + exists []. split; [intros ? []|]. split; auto. intros c' t [= <- <-]. auto.
Qed.

Lemma trim_split s : exists w w', blanks w /\ blanks w' /\ s = w ++ trim s ++ w' /\
  (forall c t, trim s = c :: t -> is_whitespace c = false) /\
  (forall c t, trim s = t ++ [c] -> is_whitespace c = false).
Proof.
  unfold trim, trim_end.
  destruct (trim_start_split s) as (w & B & E & H).
  destruct (trim_start_split (rev (trim_start s))) as (w' & B' & E' & H').
  exists w, (rev w'). split; auto. split; [intros c Hc; apply B'; apply in_rev; auto|].
  assert (E2 : trim_start s = rev (trim_start (rev (trim_start s))) ++ rev w').
  { rewrite <- (rev_involutive (trim_start s)) at 1. rewrite E' at 1. rewrite rev_app_distr. reflexivity. }
  split; [rewrite <- E2; exact E|]. split.
  - intros c t Et. destruct (trim_start s) as [|x y] eqn:Ets.
    + apply (f_equal (@rev N)) in Et. rewrite rev_involutive in Et. cbn in Et. destruct (rev t); discriminate.
    + rewrite Et in E2. cbn in E2. injection E2 as -> _. eapply H; eauto.
  - intros c t Et. apply (f_equal (@rev N)) in Et. rewrite rev_involutive, rev_app_distr in Et. cbn in Et.
    eapply H'; eauto.
Qed.

Lemma trim_tokens s ts : tokens s ts <-> tokens (trim s) ts.
Proof.
  destruct (trim_split s) as (w & w' & B & B' & E & _).
  split.
  - intros H. pose proof (tokens_total (trim s)) as K.
    assert (K2 : tokens s (split_whitespace (trim s))).
    { pose proof (tokens_blank_l w _ _ B (tokens_blank_r w' _ _ B' K)) as Q. rewrite <- E in Q. exact Q. }
    apply tokens_split in K2. apply tokens_split in H. rewrite <- H, K2. exact K.
  - intros H. pose proof (tokens_blank_l w _ _ B (tokens_blank_r w' _ _ B' H)) as Q. rewrite <- E in Q. exact Q.
Qed.

Lemma tokens_in s ts : tokens s ts -> forall t, In t ts -> solid t.
Proof.
  intros H. induction H as [w B|w t w' B T B'|w t b rest ts B T Hb N1 Ht IH]; intros x Hx.
  - destruct Hx.
  - destruct Hx as [<-|[]]; auto.
  - destruct Hx as [<-|Hx]; auto.
Qed.

Lemma utf8_len_pos c : (1 <= utf8_len c)%nat.
Proof. unfold utf8_len. repeat destruct (N.ltb _ _); lia. Qed.

Lemma byte_len_ge (s : str) : (List.length s <= byte_len s)%nat.
Proof. induction s as [|c s IH]; cbn [byte_len List.length]; [lia|]. pose proof (utf8_len_pos c). lia. Qed.

Lemma trim_len s ts : tokens s ts -> ((1 <? byte_len (trim s))%nat = false <-> dropped ts).
Proof.
  intros H. apply trim_tokens in H. destruct (trim_split s) as (_ & _ & _ & _ & _ & Hs & He).
  revert H Hs He. generalize (trim s). clear s. intros s H Hs He.
  destruct H as [w B|w t w' B T B'|w t b rest ts B T Hb N1 Ht].
  - assert (w = []) as ->. { destruct w as [|c w]; auto. specialize (Hs c w eq_refl). rewrite B in Hs by (left; auto). discriminate. }
    split; auto. left; auto.
  - assert (w = []) as ->. { destruct w as [|c w]; auto. specialize (Hs c (w ++ t ++ w') eq_refl). rewrite B in Hs by (left; auto). discriminate. }
    assert (w' = []) as ->.
    { destruct w' as [|c w'] using rev_ind; auto. specialize (He c ([] ++ t ++ w')).
      rewrite B' in He by (apply in_or_app; right; left; auto). discriminate He. rewrite <- !app_assoc. reflexivity. }
    cbn [app]. rewrite app_nil_r. destruct T as [T0 T]. destruct t as [|c t]; [congruence|].
    cbn [byte_len]. split.
    + intros L. apply Nat.ltb_ge in L. right. exists c. pose proof (utf8_len_pos c) as P.
      assert (byte_len t = 0)%nat as Bt by lia. pose proof (byte_len_ge t) as G.
      rewrite Bt in G. destruct t as [|y t]; [|cbn in G; lia].
      split; auto. clear P. unfold utf8_len in L. destruct (N.ltb_spec c 128); auto.
      destruct (N.ltb c 2048); [cbn in L; lia|]. destruct (N.ltb c 65536); cbn in L; lia.
    + intros [D|(x & Hx & D)]; [discriminate|]. injection D as -> ->. apply Nat.ltb_ge. cbn [byte_len].
      unfold utf8_len. destruct (N.ltb_spec x 128); lia.
  - split.
    + intros L. exfalso. apply Nat.ltb_ge in L. rewrite !byte_len_app in L. destruct T as [T0 T].
      destruct t as [|c t]; [congruence|]. cbn [byte_len] in L. pose proof (utf8_len_pos c). pose proof (utf8_len_pos b). lia.
    + intros [D|(x & Hx & D)]; [discriminate|]. injection D as -> E0. exfalso. exact (N1 E0).
Qed.

Lemma pieces_total s : exists ps, pieces s ps.
Proof.
  induction s as [|c s (ps & H)].
  - exists [[]]. apply pieces_last. intros [].
  - destruct (N.eq_dec c 10) as [->|Hc].
    + exists ([] :: ps). apply (pieces_more []); auto.
    + inversion H as [s' N0 E1 E2|s' rest ps' N0 Hr E1 E2]; subst.
      * exists [c :: s]. apply pieces_last. intros [E|E]; auto.
      * exists ((c :: s') :: ps'). apply (pieces_more (c :: s')); auto. intros [E|E]; auto.
Qed.

Lemma lines_aux_app p : ~ In 10%N p -> forall cur s, lines_aux (p ++ s) cur = lines_aux s (rev p ++ cur).
Proof.
  intros H. induction p as [|c p IH]; intros cur s; auto. cbn [app lines_aux].
  destruct (N.eqb_spec c 10) as [->|Hc]; [exfalso; apply H; left; auto|].
  rewrite IH by (intros Hp; apply H; right; auto). cbn [rev]. rewrite <- app_assoc. reflexivity.
Qed.

Lemma strip_cr_tokens p ts : tokens p ts <-> tokens (strip_cr p) ts.
Proof.
  unfold strip_cr. destruct (strip_suffix 13 p) as [q|] eqn:E; [|tauto].
  apply strip_suffix_spec in E. subst p.
  assert (B : blanks [13%N]) by (intros c [<-|[]]; reflexivity).
  split; intros H.
  - pose proof (tokens_total q) as K. pose proof (tokens_blank_r _ _ _ B K) as K2.
    apply tokens_split in K2. apply tokens_split in H. rewrite <- H, K2. exact K.
  - apply tokens_blank_r; auto.
Qed.

(** the list of comment texts produced for the kept lines *)
Lemma lines_kept s ps r : pieces s ps -> kept_words ps r ->
  Forall2 (fun l ws => tokens l ws) (filter (fun s => 1 <? byte_len s)%nat (map trim (lines s))) r.
Proof.
  intros P. revert r. unfold lines.
  assert (D1 : forall p ws, tokens p ws -> dropped ws -> (1 <? byte_len (trim p))%nat = false).
  { intros p ws T D. apply (trim_len p ws); auto. }
  assert (D2 : forall p ws, tokens p ws -> ~ dropped ws -> (1 <? byte_len (trim p))%nat = true).
  { intros p ws T D. destruct (1 <? byte_len (trim p))%nat eqn:E; auto. exfalso. apply D. apply (trim_len p ws); auto. }
  induction P as [s N0|s rest ps N0 P IH]; intros r K.
  - rewrite <- (app_nil_r s), lines_aux_app by auto. cbn [lines_aux]. rewrite app_nil_r.
    inversion K as [|p ps' ws r' T D K' E1 E2|p ps' ws r' T D K' E1 E2]; subst; inversion K'; subst.
    + destruct (rev s) as [|x y] eqn:E; [constructor|]. rewrite <- E, rev_involutive. cbn [map filter].
      rewrite (D1 s ws) by auto. constructor.
    + destruct (rev s) as [|x y] eqn:E.
      * exfalso. apply D. left. assert (s = []) as -> by (rewrite <- (rev_involutive s), E; reflexivity).
        apply tokens_split in T. rewrite <- T. reflexivity.
      * rewrite <- E, rev_involutive. cbn [map filter]. rewrite (D2 s ws) by auto.
        constructor; [|constructor]. apply trim_tokens in T. exact T.
  - rewrite lines_aux_app by auto. cbn [app lines_aux]. rewrite N.eqb_refl, app_nil_r, rev_involutive. cbn [map filter].
    inversion K as [|p ps' ws r' T D K' E1 E2|p ps' ws r' T D K' E1 E2]; subst; apply strip_cr_tokens in T.
    + rewrite (D1 _ ws) by auto. apply IH; auto.
    + rewrite (D2 _ ws) by auto. constructor; [apply trim_tokens in T; exact T|]. apply IH; auto.
Qed.

Lemma fold_app_concat (l : list str) : forall a, fold_left (fun x y => x ++ y) l a = a ++ concat l.
Proof.
  induction l as [|x l IH]; intros a; cbn [fold_left concat]; [rewrite app_nil_r; auto|].
  rewrite IH, app_assoc. reflexivity.
Qed.

Lemma comment_text_app k a b : comment_text k (a ++ b) = comment_text k a ++ comment_text k b.
Proof. unfold comment_text. rewrite map_app, concat_app. reflexivity. Qed.

Lemma comment_spec doc max_len k ps r :
  pieces (match doc with Some d => d | None => [] end) ps -> kept_words ps r ->
  exists groups, format_comment doc max_len k = comment_text k (concat groups) /\
    map (@concat str) groups = r /\ Forall (filled max_len k) groups.
Proof.
  intros P K. unfold format_comment. rewrite fold_app_concat. cbn [app].
  pose proof (lines_kept _ _ _ P K) as F. revert F.
  generalize (filter (fun s => 1 <? byte_len s)%nat (map trim (lines (match doc with Some d => d | None => [] end)))).
  intros ls F. clear P K. induction F as [|l ws ls r T F (gs & E & C & Fl)].
  - exists []. repeat split; auto.
  - destruct (split_comment_line_spec l ws max_len k T) as (g & Eg & Cg & Fg).
    exists (g :: gs). cbn [map concat]. rewrite Eg, E, comment_text_app, Cg, C. repeat split; auto.
Qed.

Lemma kept_total ps : exists r, kept_words ps r.
Proof.
  induction ps as [|p ps (r & H)]; [exists []; constructor|].
  pose proof (tokens_total p) as T. revert T. generalize (split_whitespace p). intros ws T.
  assert (Dec : dropped ws \/ ~ dropped ws).
  { destruct (1 <? byte_len (trim p))%nat eqn:E.
    - right. intros D. apply (trim_len p ws) in D; auto. congruence.
    - left. apply (trim_len p ws); auto. }
  destruct Dec as [D|D]; [exists r; eapply kept_skip; eauto|exists (ws :: r); apply kept_cons; auto].
Qed.

Lemma kept_solid ps r : kept_words ps r -> forall ws w, In ws r -> In w ws -> solid w.
Proof.
  intros H. induction H as [|p ps ws r T D H IH|p ps ws r T D H IH]; intros ws' w Hws Hw.
  - destruct Hws.
  - eauto.
  - destruct Hws as [<-|Hws]; [eapply tokens_in; eauto|eauto].
Qed.

(** Every piece between line feeds is a comment line or the empty rest after the last one. *)
Lemma comment_lines_safe doc max_len k ps : pieces (format_comment doc max_len k) ps ->
  (forall c, In c (format_comment doc max_len k) -> is_whitespace c = true -> c = 32%N \/ c = 10%N) /\
  exists ls, ps = ls ++ [[]] /\ forall l, In l ls -> exists rest, l = repeat 32%N k ++ lit "//" ++ rest.
Proof.
  destruct (pieces_total (match doc with Some d => d | None => [] end)) as (qs & Q).
  destruct (kept_total qs) as (r & K).
  destruct (comment_spec doc max_len k qs r Q K) as (gs & E & C & _). rewrite E.
  assert (S : forall ws w, In ws (concat gs) -> In w ws -> solid w).
  { intros ws w Hws Hw. apply in_concat in Hws as (g & Hg & Hws).
    apply (kept_solid qs r K (concat g) w).
    - rewrite <- C. apply in_map. auto.
    - apply in_concat. eauto. }
  revert S. generalize (concat gs). clear. intros ls S P.
  split.
  - intros c Hc Hw. unfold comment_text in Hc. apply in_concat in Hc as (l & Hl & Hc).
    apply in_map_iff in Hl as (ws & <- & Hws). apply in_app_or in Hc. destruct Hc as [Hc|[<-|[]]]; auto.
    unfold comment_line in Hc. apply in_app_or in Hc. destruct Hc as [Hc|Hc]; [apply repeat_spec in Hc; auto|].
    apply in_app_or in Hc. destruct Hc as [Hc|Hc]; [cbn in Hc; destruct Hc as [<-|[<-|[]]]; discriminate Hw|].
    apply in_concat in Hc as (x & Hx & Hc). apply in_map_iff in Hx as (w & <- & Hx).
    destruct Hc as [<-|Hc]; auto. destruct (S ws w Hws Hx) as [_ Sw]. rewrite Sw in Hw by auto. discriminate.
  - revert ps P. induction ls as [|ws ls IH]; intros ps P.
    + cbn in P. inversion P as [s N0 E1 E2|s rest ps' N0 Hr E1 E2]; subst.
      * exists []. split; auto. intros l [].
      * destruct s; discriminate.
    + assert (N0 : ~ In 10%N (comment_line k ws)).
      { intros Hc. unfold comment_line in Hc. apply in_app_or in Hc. destruct Hc as [Hc|Hc]; [apply repeat_spec in Hc; discriminate|].
        apply in_app_or in Hc. destruct Hc as [Hc|Hc]; [cbn in Hc; destruct Hc as [Hc|[Hc|[]]]; discriminate|].
        apply in_concat in Hc as (x & Hx & Hc). apply in_map_iff in Hx as (w & <- & Hx).
        destruct Hc as [Hc|Hc]; [discriminate|]. destruct (S ws w (or_introl eq_refl) Hx) as [_ Sw].
        specialize (Sw _ Hc). discriminate. }
      assert (Hd : exists ps', ps = comment_line k ws :: ps' /\ pieces (comment_text k ls) ps').
      { change (comment_text k (ws :: ls)) with ((comment_line k ws ++ [10%N]) ++ comment_text k ls) in P.
        rewrite <- app_assoc in P. cbn [app] in P.
        remember (comment_line k ws ++ 10%N :: comment_text k ls) as x eqn:Ex.
        destruct P as [s Ns|s rest ps' Ns Hr].
        - exfalso. apply Ns. rewrite Ex. apply in_or_app. right. left. auto.
        - assert (Q : s = comment_line k ws /\ rest = comment_text k ls).
          { revert s rest Ns Hr Ex. generalize (comment_line k ws) N0. intros a Na s rest Ns Hr Ex.
            revert s Ns Ex. induction a as [|y a IHa]; intros s Ns Ex.
            - destruct s as [|z s]; cbn in Ex; [injection Ex as ->; auto|].
              injection Ex as -> _. exfalso. apply Ns. left. auto.
            - destruct s as [|z s]; cbn in Ex.
              + injection Ex as <- _. exfalso. apply Na. left. auto.
              + injection Ex as -> Ex. destruct (IHa (fun H => Na (or_intror H)) s) as [-> ->]; auto.
                intros H. apply Ns. right. auto. }
          destruct Q as [-> ->]. eauto. }
      destruct Hd as (ps' & -> & P').
      destruct (IH (fun w1 w2 H => S w1 w2 (or_intror H)) ps' P') as (l & -> & Hl).
      exists (comment_line k ws :: l). split; auto. intros x [<-|Hx]; auto.
      unfold comment_line. eexists. reflexivity.
Qed.
