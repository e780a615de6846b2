(** Proofs about the generator model. *)
From Coq Require Import Arith NArith ZArith Bool Ascii String List Lia.
From Verif Require Import Str StrFacts SpecLex SpecNames SpecSerde SerdeProofs Xml Comment CommentProofs Names NamesProofs Entity SpecSchema ParserProofs Link LinkProofs Gen SpecRust SpecGen RustFacts.
Import ListNotations.
Local Open Scope string_scope.
Local Open Scope list_scope.
Local Open Scope N_scope.
Notation concat := List.concat.

(** ** Induction over nested types *)
Section EI.
Context (P : entity -> Prop)
  (HS : forall s, (forall f e, In f (st_fields s) -> In e (fl_subtypes f) -> P e) -> (forall e, In e (st_subtypes s) -> P e) -> P (EStruct s))
  (HT : forall t, (forall e, In e (tu_subtypes t) -> P e) -> P (ETuple t))
  (HE : forall n, (forall e, In e (en_subtypes n) -> P e) -> P (EEnum n))
  (HF : forall f, P (EField f)) (HC : forall c, P (ECase c)) (HA : forall a, P (EAlias a)) (HI : forall i, P (EImport i)).
Fixpoint entity_sub_ind (e : entity) : P e.
Proof.
  destruct e as [s|f|t|n|c|a|i]; [|apply HF| | |apply HC|apply HA|apply HI].
  - apply HS; destruct s as [nm c fs gs su]; cbn.
    + induction fs as [|f fs IH]; [intros f e []|].
      intros f' e [<-|I]; [|eapply IH; eauto]. destruct f as [n t cm ss so ms]. cbn.
      clear IH. induction ss as [|x ss IH]; [intros []|]. intros [<-|I]; [apply entity_sub_ind|exact (IH I)].
    + induction su as [|x su IH]; [intros e []|]. intros e [<-|I]; [apply entity_sub_ind|exact (IH e I)].
  - apply HT; destruct t as [nm c ty su ms fa]; cbn. induction su as [|x su IH]; [intros e []|]. intros e [<-|I]; [apply entity_sub_ind|exact (IH e I)].
  - apply HE; destruct n as [nm cs c ty su so]; cbn. induction su as [|x su IH]; [intros e []|]. intros e [<-|I]; [apply entity_sub_ind|exact (IH e I)].
Defined.
End EI.

Section G.
Context (u : uni).
Notation closed := (closed u).
Notation opened := (opened u).
Notation word_text := (word_text u).
Notation stops := (stops u).

(** ** Identifiers *)
Lemma lower_word c : is_alphanumeric u c = true -> word_char u (to_ascii_lowercase c) = true.
Proof.
  intros H. unfold word_char, to_ascii_lowercase. destruct (is_ascii_upper c) eqn:E; [|rewrite H; auto].
  unfold is_ascii_upper in E. rewrite alnum_ascii by lia. unfold alnumb. lia.
Qed.
Lemma snake_word whole s : forall i first, word_text (snake_loop u whole i first s).
Proof.
  induction s as [|c s IH]; intros i first; cbn [snake_loop]; [constructor|].
  destruct (is_alphanumeric u c) eqn:A; cbn [negb].
  - destruct (negb first && (c =? to_ascii_uppercase c) && near_lower u whole i); repeat constructor; auto using lower_word; apply IH.
  - destruct (negb first); [constructor; [reflexivity|]|]; apply IH.
Qed.
Lemma sanitize_word s : word_text s -> word_text (sanitize u s).
Proof. intros H. destruct (sanitize_shape u s) as [->| ->]; auto. constructor; [reflexivity|auto]. Qed.
Lemma format_name_word n : word_text (format_name u n).
Proof. apply sanitize_word, snake_word. Qed.
Lemma alnum_word c : alnum c -> word_char u c = true.
Proof. intros H. unfold word_char. apply alnumb_iff in H. rewrite alnum_ascii by (apply alnumb_ascii; auto). rewrite H. reflexivity. Qed.
Lemma pascal_word l : word_text (pascal_name u l).
Proof. apply Forall_forall. intros c Hc. apply alnum_word. apply (proj1 (pascal_name_alnum u l)). auto. Qed.

Definition smooth (s : str) : Prop := forall c, In c s -> c <> 34 /\ c <> 47 /\ c <> 10.
Lemma smooth_app a b : smooth a -> smooth b -> smooth (a ++ b).
Proof. intros Ha Hb c H. apply in_app_or in H as [H|H]; auto. Qed.
Lemma smooth_word w : word_text w -> smooth w.
Proof. intros H c Hc. unfold RustFacts.word_text in H. rewrite Forall_forall in H. specialize (H c Hc). repeat split; intros ->; discriminate H. Qed.
Lemma smooth_sanitize s : smooth s -> smooth (sanitize u s).
Proof. intros H. destruct (sanitize_shape u s) as [->| ->]; auto. intros c [<-|Hc]; auto. repeat split; discriminate. Qed.
Definition smoothb (s : str) : bool := forallb (fun c => negb ((c =? 34) || (c =? 47) || (c =? 10))) s.
Lemma smoothb_ok s : smoothb s = true -> smooth s.
Proof. unfold smoothb. rewrite forallb_forall. intros H c Hc. specialize (H c Hc). lia. Qed.
Lemma builtin_smooth q x t : match_built_in_type q x = Some t -> smooth t.
Proof.
  unfold match_built_in_type. destruct (split_name q) as [p n]. destruct (negb _); [discriminate|]. intros H. apply assoc_in in H.
  assert (K : forallb (fun e => smoothb (snd e)) built_in_table = true) by reflexivity.
  rewrite forallb_forall in K. apply smoothb_ok. exact (K _ H).
Qed.
Lemma default_type_smooth q t : sane_type q -> smooth (default_format_type u q t).
Proof.
  intros S. unfold default_format_type. pose proof (split_name_qualified q) as Q. destruct (split_name q) as [p l]. fold (pascal_name u l). cbv zeta.
  apply smooth_sanitize. pose proof (smooth_word _ (pascal_word l)) as W.
  assert (X : forall p', p = Some p' -> smooth (p' ++ lit "::" ++ pascal_name u l)).
  { intros p' ->. apply smooth_app; [exact (S _ _ Q)|]. apply smooth_app; auto. apply smoothb_ok. reflexivity. }
  destruct p as [p|]; auto. destruct (ns_prefix t); auto. destruct (str_eqb p s); auto.
Qed.
Lemma type_smooth q x t : sane_type q -> smooth (format_type_name u q x t).
Proof. intros S. unfold format_type_name. destruct (match_built_in_type q x) eqn:E; [eapply builtin_smooth; eauto|apply default_type_smooth; auto]. Qed.
Lemma smooth_opened s : smooth s -> opened s (lexemes u s).
Proof. intros H. apply opened_plain. intros c Hc. destruct (H c Hc) as (A & B & _). auto. Qed.
Lemma no_colon_qualified q p l : ~ In 58 q -> ~ qualified q (Some p) l.
Proof. intros N [-> _]. apply N. apply in_or_app. right. left. auto. Qed.
Lemma format_name_no_colon n : ~ In 58 (format_name u n).
Proof. intros H. pose proof (format_name_word n) as W. unfold RustFacts.word_text in W. rewrite Forall_forall in W. specialize (W _ H). discriminate W. Qed.
Lemma sane_prefixed m t : ~ In 58 m -> smooth m -> sane_type (m ++ lit "::" ++ t).
Proof.
  intros N S p l Q.
  assert (Q' : qualified (m ++ lit "::" ++ t) (Some m) (58 :: t)) by (split; auto).
  destruct (qualified_unique _ _ _ _ _ Q Q') as [E _]. injection E as ->. exact S.
Qed.

(** ** Modifiers *)
Lemma stops_lit (c : N) s : word_char u c = false -> stops (c :: s).
Proof. auto. Qed.
Lemma opened_wrap t tt m : opened t tt -> opened (modify_step t m) (wrap u tt m).
Proof.
  intros H. assert (C : closed (lit ">") (rust u ">")) by reflexivity.
  destruct m; cbn [modify_step wrap]; auto; apply closed_opened.
  - apply closed_app; [reflexivity|]. apply opened_closed; auto. reflexivity.
  - apply closed_app; [reflexivity|]. apply opened_closed; auto. reflexivity.
Qed.
Lemma opened_modified t tt ms : opened t tt -> opened (modify_type t ms) (modified u tt ms).
Proof.
  intros H. unfold modify_type, modified. destruct (existsb (modifier_eqb MEmpty) ms); [apply closed_opened; reflexivity|].
  destruct (existsb (modifier_eqb MRecursive) ms); [exact (opened_wrap _ _ MArray H)|].
  revert t tt H. induction ms as [|m ms IH]; intros t tt H; cbn [fold_left]; auto. apply IH. apply opened_wrap. auto.
Qed.

(** ** Comments *)
Lemma comment_line_closed k rest : ~ In 10 rest -> closed (repeat 32 k ++ lit "//" ++ rest ++ [10]) (notes (split_whitespace rest)).
Proof.
  intros N. change (repeat 32 k) with (spaces k). unfold RustFacts.closed. rewrite run_spaces. change (lit "//" ++ rest ++ [10]) with (47 :: 47 :: rest ++ [10]).
  cbn [run lex_step]. change (start u 47) with (LSlash, @nil token). cbv iota beta. cbn [lex_step]. change (47 =? 47) with true. cbv iota beta.
  rewrite run_app. destruct (run_comment u rest N []) as (acc & t & -> & E). cbn [run lex_step]. change (10 =? 10) with true. cbv iota.
  rewrite app_nil_r. unfold split_whitespace. rewrite E. reflexivity.
Qed.
Lemma two_spaces a b : split_whitespace (a ++ lit "  " ++ b) = split_whitespace (a ++ lit " " ++ b).
Proof.
  change (lit "  " ++ b) with (32 :: ([] ++ 32 :: b)). change (lit " " ++ b) with (32 :: b).
  rewrite !split_ws_app by reflexivity. reflexivity.
Qed.
Lemma solid_split w : solid w -> split_whitespace w = [w].
Proof.
  intros S. apply tokens_split. rewrite <- (app_nil_r w) at 1. apply (tok_last [] w []); auto; intros c [].
Qed.
Lemma line_words ws : (forall w, In w ws -> solid w) -> split_whitespace (concat (map (fun w => lit " " ++ w) ws)) = ws.
Proof.
  induction ws as [|w ws IH]; intros H; [reflexivity|]. specialize (IH (fun w I => H w (or_intror I))). cbn [map concat].
  pose proof (solid_split w (H w (or_introl eq_refl))) as Sw.
  change ((lit " " ++ w) ++ concat (map (fun w => lit " " ++ w) ws)) with ([] ++ 32 :: (w ++ concat (map (fun w => lit " " ++ w) ws))).
  rewrite split_ws_app by reflexivity. cbn [app]. destruct ws as [|w' ws]; [cbn [map concat]; rewrite app_nil_r; exact Sw|].
  change (concat (map (fun w => lit " " ++ w) (w' :: ws))) with ([] ++ 32 :: (w' ++ concat (map (fun w => lit " " ++ w) ws))) in *.
  rewrite split_ws_app in IH by reflexivity. cbn [app]. rewrite split_ws_app, Sw by reflexivity. change (split_whitespace []) with (@nil str) in *. cbn [app] in IH |- *. f_equal. exact IH.
Qed.
Lemma comment_line_ok k ws : (forall w, In w ws -> solid w) -> closed (comment_line k ws ++ [10]) (notes ws).
Proof.
  intros H. unfold comment_line. rewrite <- !app_assoc. rewrite <- (line_words ws H) at 2. apply comment_line_closed.
  intros I. apply in_concat in I as (x & X & I). apply in_map_iff in X as (w & <- & X). destruct I as [I|I]; [discriminate|].
  destruct (H w X) as [_ S]. specialize (S _ I). discriminate.
Qed.
Lemma comment_text_ok k ls : (forall ws w, In ws ls -> In w ws -> solid w) -> closed (comment_text k ls) (notes (concat ls)).
Proof.
  intros H. unfold comment_text. induction ls as [|ws ls IH]; [reflexivity|]. cbn [map concat]. unfold notes. rewrite map_app.
  apply closed_app; [apply comment_line_ok; intros w I; apply (H ws w); [left; auto|auto]|]. apply IH. intros ws' w I J. apply (H ws' w); [right; auto|auto].
Qed.
Lemma doc_pieces c m k : exists ls, (forall l, In l ls -> ~ In 10 l /\ exists rest, l = repeat 32 k ++ lit "//" ++ rest) /\
  format_comment c m k = concat (map (fun l => l ++ [10]) ls).
Proof.
  destruct (pieces_total (format_comment c m k)) as (ps & P).
  destruct (comment_lines_safe c m k ps P) as (_ & ls & -> & H). exists ls.
  assert (G : forall s ps, pieces s ps -> ps = ls ++ [[]] -> (forall l, In l ls -> ~ In 10 l) /\ s = concat (map (fun l => l ++ [10]) ls)).
  { clear P H. intros s ps P. revert ls. induction P as [s N|s r ps N P IH]; intros ls E.
    - destruct ls as [|l ls]; [cbn in *; injection E as ->; split; [intros l []|auto]|]. destruct ls; discriminate.
    - destruct ls as [|l ls]; [inversion P; subst; discriminate|]. cbn [app] in E. injection E as <- E. destruct (IH _ E) as [A ->].
      split; [intros l [<-|I]; auto|]. cbn [map concat]. rewrite <- app_assoc. reflexivity. }
  destruct (G _ _ P eq_refl) as [A B]. split; auto.
Qed.
Lemma kept_line_iff ws : (dropped ws -> kept_line ws = []) /\ (~ dropped ws -> kept_line ws = ws).
Proof.
  unfold kept_line, dropped. destruct ws as [|[|c [|]] [|]]; try (split; [intros [D|(x & L & D)]; discriminate|auto]).
  - split; auto.
  - destruct (N.ltb_spec c 128).
    + split; auto. intros D. destruct D. right. eauto.
    + split; [|auto]. intros [D|(x & L & D)]; [discriminate|]. injection D as ->. lia.
Qed.
Lemma doc_words_kept d ps r : pieces d ps -> kept_words ps r -> doc_words (Some d) = concat r.
Proof.
  intros P. cbn [doc_words]. assert (E : split_on 10 d = ps).
  { induction P as [s N|s rest ps N P IH]; [apply split_on_none; auto|]. cbn [app]. rewrite split_on_app by auto. f_equal. auto. }
  rewrite E. clear E P d. induction 1 as [|p ps ws r T D K IH|p ps ws r T D K IH]; [reflexivity| |]; cbn [map concat]; rewrite IH, (tokens_split _ _ T).
  - rewrite (proj1 (kept_line_iff ws) D). reflexivity.
  - rewrite (proj2 (kept_line_iff ws) D). reflexivity.
Qed.
Lemma doc_words_eq c ps r : pieces (match c with Some d => d | None => [] end) ps -> kept_words ps r -> doc_words c = concat r.
Proof.
  intros P K. rewrite <- (doc_words_kept _ _ _ P K). destruct c; reflexivity.
Qed.
Lemma doc_lines c m k : exists ls, format_comment c m k = comment_text k ls /\ doc_words c = concat ls /\ (forall ws w, In ws ls -> In w ws -> solid w) /\
  (ls = [] <-> ~ documented c).
Proof.
  destruct (pieces_total (match c with Some d => d | None => [] end)) as (ps & P). destruct (kept_total ps) as (r & K).
  destruct (comment_spec c m k ps r P K) as (gs & E & C & F). exists (concat gs). split; [exact E|].
  assert (W : concat (concat gs) = concat r) by (rewrite <- C; clear; induction gs as [|g gs IH]; [reflexivity|]; cbn [map concat]; rewrite concat_app, IH; reflexivity).
  split; [rewrite (doc_words_eq c ps r P K); auto|]. split.
  - intros ws w Hws Hw. apply in_concat in Hws as (g & Hg & Hws). apply (kept_solid ps r K (concat g) w).
    + rewrite <- C. apply in_map. auto.
    + apply in_concat. eauto.
  - split.
    + intros Z (d & ps' & r' & w & -> & P' & K' & I).
      destruct (comment_spec (Some d) m k ps' r' P' K') as (gs' & E' & C' & F').
      rewrite E in E'. rewrite Z in E'. destruct F' as [|g' gs'' Fg' F']; [cbn in C'; subst r'; destruct I|].
      destruct g' as [|l g']; [inversion Fg'|]. cbn [concat app] in E'. unfold comment_text in E'. cbn [map concat] in E'. destruct (comment_line k l); discriminate.
    + intros D. destruct F as [|g gs Fg F]; [reflexivity|]. destruct D. destruct c as [d|].
      * exists d, ps, r, (concat g). do 3 (split; [auto|]). rewrite <- C. left. reflexivity.
      * cbn in P. inversion P as [s N0 E1 E2|s rest ps' N0 Hr E1 E2]; subst; [|destruct s; discriminate].
        inversion K as [|p ps' ws r' T D K' E1 E2|p ps' ws r' T D K' E1 E2]; subst; inversion K'; subst.
        apply tokens_split in T. cbn in T. destruct D. left. auto.
Qed.
Lemma doc_closed c m k : closed (format_comment c m k) (notes (doc_words c)).
Proof. destruct (doc_lines c m k) as (ls & -> & -> & S & _). apply comment_text_ok. auto. Qed.
Lemma doc_documented c m k : format_comment c m k <> [] <-> documented c.
Proof.
  destruct (pieces_total (match c with Some d => d | None => [] end)) as (ps & P). destruct (kept_total ps) as (r & K).
  assert (X : forall ps r, pieces (match c with Some d => d | None => [] end) ps -> kept_words ps r -> (format_comment c m k <> [] <-> r <> [])).
  { clear. intros ps r P K. destruct (comment_spec c m k ps r P K) as (gs & -> & <- & F). destruct F as [|g gs Fg F]; [cbn; tauto|].
    split; [discriminate|]. intros _. destruct g as [|l g]; [inversion Fg|]. cbn [concat app]. unfold comment_text. cbn [map concat]. destruct (comment_line k l); discriminate. }
  split.
  - intros N. assert (R : r <> []) by (apply (X ps r P K); auto). destruct r as [|w r]; [congruence|].
    destruct c as [d|]; [exists d, ps, (w :: r), w; do 3 (split; [auto|]); left; auto|]. exfalso. apply N. reflexivity.
  - intros (d & ps' & r' & w & -> & P' & K' & I). apply (X ps' r' P' K'). intros ->. destruct I.
Qed.
Lemma doc_after c m s t : documented c -> closed s t -> closed (lit "//" ++ format_comment c m 0 ++ s) (notes (lit "//" :: doc_words c) ++ t).
Proof.
  intros D C. destruct (doc_lines c m 0) as (ls & -> & -> & S & [Z _]). destruct ls as [|ws ls]; [destruct (Z eq_refl D)|].
  change (comment_text 0 (ws :: ls)) with ((comment_line 0 ws ++ [10]) ++ comment_text 0 ls). rewrite <- !app_assoc.
  assert (A : closed (lit "//" ++ comment_line 0 ws ++ [10]) (notes (lit "//" :: ws))).
  { assert (Sw : forall w, In w ws -> solid w) by (intros w I; apply (S ws w); [left; auto|auto]).
    replace (lit "//" :: ws) with (split_whitespace (comment_line 0 ws)).
    - apply (comment_line_closed 0). intros I. change (comment_line 0 ws) with (lit "//" ++ concat (map (fun w => lit " " ++ w) ws)) in I.
      apply in_app_or in I as [I|I]; [destruct I as [I|[I|[]]]; discriminate|].
      apply in_concat in I as (x & X & I). apply in_map_iff in X as (w & <- & X). destruct I as [I|I]; [discriminate|].
      destruct (Sw w X) as [_ Q]. specialize (Q _ I). discriminate.
    - change (comment_line 0 ws) with (lit "//" ++ concat (map (fun w => lit " " ++ w) ws)). pose proof (line_words ws Sw) as L. destruct ws as [|w ws]; [reflexivity|].
      change (concat (map (fun w => lit " " ++ w) (w :: ws))) with ([] ++ 32 :: (w ++ concat (map (fun w => lit " " ++ w) ws))) in L |- *.
      rewrite split_ws_app in L by reflexivity. cbn [app] in L. rewrite app_nil_l, split_ws_app by reflexivity. unfold split_whitespace in L at 1. cbn [split_whitespace_aux app] in L. rewrite L. reflexivity. }
  assert (B : closed (comment_text 0 ls) (notes (concat ls))) by (apply comment_text_ok; intros ws' w I J; apply (S ws' w); [right; auto|auto]).
  pose proof (closed_app u _ _ _ _ A (closed_app u _ _ _ _ B C)) as R. rewrite <- !app_assoc in R.
  eapply closed_eq; [exact R|]. unfold notes. cbn [map concat app]. rewrite map_app, <- app_assoc. reflexivity.
Qed.
Lemma commented s : ~ In 10 s -> closed (lit "//" ++ s ++ [10]) (notes (split_whitespace s)).
Proof. apply (comment_line_closed 0). Qed.

(** ** Names at the first colon *)
Lemma colon_split_eq n : colon_split n = split_name n.
Proof.
  pose proof (split_name_qualified n) as Q. destruct (split_name n) as [p l]. unfold colon_split.
  assert (A : forall p l, ~ In 58 p -> before_colon (p ++ 58 :: l) = Some (p, l)).
  { clear. induction p as [|c p IH]; intros l N; cbn; auto. destruct (N.eqb_spec c 58) as [->|H]; [destruct N; left; auto|].
    rewrite IH; auto. intros I. apply N. right; auto. }
  assert (B : forall s, ~ In 58 s -> before_colon s = None).
  { clear. induction s as [|c s IH]; intros N; cbn; auto. destruct (N.eqb_spec c 58) as [->|H]; [destruct N; left; auto|].
    rewrite IH; auto. intros I. apply N. right; auto. }
  destruct p as [p|]; cbn in Q; [destruct Q as [-> N]; cbn [app]; rewrite A by auto; auto|]. destruct Q as [<- N]. rewrite B; auto.
Qed.
Lemma literal_split n p l : literal n -> split_name n = (p, l) -> literal l /\ forall q, p = Some q -> literal q.
Proof.
  intros L E. pose proof (split_name_qualified n) as Q. rewrite E in Q. destruct p as [p|]; cbn in Q.
  - destruct Q as [-> N]. split; [intros c H; apply L; apply in_or_app; right; right; auto|]. intros q [= <-] c H. apply L. apply in_or_app; auto.
  - destruct Q as [-> N]. split; auto. discriminate.
Qed.
End G.

(** ** Pieces of generated text *)
Section G2.
Context (u : uni) (tns xsd : option namespace).
Notation closed := (closed u).
Notation opened := (opened u).
Notation word_text := (word_text u).
Notation stops := (stops u).
Notation quoted := (quoted u).
Notation tid := (type_ident u tns xsd).
Notation ty := (ty u tid).
Definition variant_name (n : str) : str := last (split_path [] (default_format_type u n tns)) [].

Ltac pc s := eapply (closed_app u (lit s) _ (rust u s)); [reflexivity|].
Ltac nlc := apply (closed_skip u nl); [reflexivity|].
Ltac qt := apply closed_quote; [auto using quoted_literal|].

Lemma tid_opened q : sane_type q -> opened (tid q) (ty q).
Proof. intros S. apply smooth_opened. apply type_smooth. auto. Qed.

Lemma attr_attribute n : literal n -> closed (yaserde_for_attribute n indent)
  (attrs_tokens u [AYaserde (("attribute", None) :: prefix_arg (fst (colon_split n)) ++ [("rename", Some (snd (colon_split n)))])]).
Proof.
  intros H. rewrite colon_split_eq. unfold yaserde_for_attribute. destruct (split_name n) as [[p|] l] eqn:E; destruct (literal_split _ _ _ H E) as [Hl Hp]; cbn [fst snd].
  - specialize (Hp p eq_refl). apply (closed_skip u _ _ _ (closed_spaces u 4)).
    change (closed (lit "#[yaserde(attribute, prefix = " ++ 34 :: p ++ 34 :: lit ", rename = " ++ 34 :: l ++ 34 :: lit ")]" ++ nl)
      (attrs_tokens u [AYaserde [("attribute", None); ("prefix", Some p); ("rename", Some l)]])).
    eapply closed_eq; [pc "#[yaserde(attribute, prefix = "; qt; pc ", rename = "; qt; pc ")]"; exact eq_refl|reflexivity].
  - apply (closed_skip u _ _ _ (closed_spaces u 4)).
    change (closed (lit "#[yaserde(attribute, rename = " ++ 34 :: l ++ 34 :: lit ")]" ++ nl)
      (attrs_tokens u [AYaserde [("attribute", None); ("rename", Some l)]])).
    eapply closed_eq; [pc "#[yaserde(attribute, rename = "; qt; pc ")]"; exact eq_refl|reflexivity].
Qed.
Lemma attr_prefix_rename p l : literal p -> literal l ->
  closed (lit "#[yaserde(prefix = " ++ 34 :: p ++ 34 :: lit ", rename = " ++ 34 :: l ++ 34 :: lit ")]" ++ nl)
    (attrs_tokens u [AYaserde [("prefix", Some p); ("rename", Some l)]]).
Proof. intros Hp Hl. eapply closed_eq; [pc "#[yaserde(prefix = "; qt; pc ", rename = "; qt; pc ")]"; exact eq_refl|reflexivity]. Qed.
Lemma attr_rename l : literal l ->
  closed (lit "#[yaserde(rename = " ++ 34 :: l ++ 34 :: lit ")]" ++ nl) (attrs_tokens u [AYaserde [("rename", Some l)]]).
Proof. intros Hl. eapply closed_eq; [pc "#[yaserde(rename = "; qt; pc ")]"; exact eq_refl|reflexivity]. Qed.

Lemma field_macros_ok (f : field entity) : sane_ns tns -> literal (fl_name f) -> closed (field_macros tns f) (attrs_tokens u (field_attrs tns f)).
Proof.
  intros SN H. unfold field_macros, field_attrs.
  pose proof (attr_attribute _ H) as A. destruct (colon_split (fl_name f)) as [p l] eqn:E. cbn [fst snd] in A.
  rewrite colon_split_eq in E. destruct (literal_split _ _ _ H E) as [Hl Hp].
  destruct (fl_source f); auto; try reflexivity.
  unfold yaserde_for_element. rewrite E. destruct p as [p|].
  - apply (closed_skip u _ _ _ (closed_spaces u 4)). apply attr_prefix_rename; auto.
  - apply (closed_skip u _ _ _ (closed_spaces u 4)) || idtac.
    unfold ns_prefix. destruct tns as [t|]; [destruct (ns_name t) as [q|] eqn:N|]; apply (closed_skip u _ _ _ (closed_spaces u 4)).
    + apply attr_prefix_rename; auto. destruct (SN t eq_refl) as [_ X]. auto.
    + apply attr_rename; auto.
    + apply attr_rename; auto.
Qed.
Definition sane_field (f : field entity) : Prop := sane_type (fl_type f) /\ literal (fl_name f).
Lemma gen_field_ok f : sane_ns tns -> sane_field f -> existsb (modifier_eqb MEmpty) (fl_mods f) = false ->
  closed (gen_field u tns xsd f)
    (field_tokens u {| rf_doc := doc_words (fl_comment f); rf_attrs := field_attrs tns f; rf_name := format_name u (fl_name f); rf_type := modified u (ty (fl_type f)) (fl_mods f) |}).
Proof.
  intros SN [ST L] E. unfold gen_field. rewrite E. unfold field_tokens. cbn [rf_doc rf_attrs rf_name rf_type].
  apply closed_app; [apply doc_closed|]. apply closed_app; [apply field_macros_ok; auto|].
  apply (closed_skip u _ _ _ (closed_spaces u 4)). pc "pub ".
  apply closed_word_app; [apply format_name_word|reflexivity|]. pc ": ".
  apply opened_closed; [apply opened_modified, tid_opened; auto|reflexivity|reflexivity].
Qed.
Lemma gen_field_nonempty f : existsb (modifier_eqb MEmpty) (fl_mods f) = is_empty (gen_field u tns xsd f).
Proof.
  unfold gen_field. destruct (existsb _ _); auto. destruct (doc (fl_comment f) 4); [|auto]. destruct (field_macros tns f); auto.
Qed.
Lemma gen_fields_ok s : sane_ns tns -> Forall sane_field (st_fields s) ->
  closed (gen_fields u tns xsd s) (concat (map (field_tokens u) (members u tns tid (format_name u) (format_name u (st_name s)) (st_fields s)))).
Proof.
  intros SN H. unfold gen_fields, mod_name, members. set (m := format_name u (st_name s)).
  assert (A : closed (join (nl ++ nl) (filter (fun t => negb (is_empty t)) (map (gen_field u tns xsd) (map (prefix_field m) (st_fields s)))))
    (concat (map (field_tokens u) (map (member u tns tid (format_name u) m) (filter (fun f => negb (existsb (modifier_eqb MEmpty) (fl_mods f))) (st_fields s)))))).
  { apply closed_sep; [reflexivity|]. induction H as [|f fs [ST L] H IH]; [constructor|]. cbn [map filter].
    rewrite <- gen_field_nonempty. change (fl_mods (prefix_field m f)) with (fl_mods f). destruct (existsb (modifier_eqb MEmpty) (fl_mods f)) eqn:E; cbn [negb]; [exact IH|].
    cbn [map]. constructor; auto. eapply closed_eq; [apply gen_field_ok; auto; split; auto|].
    - cbn [prefix_field fl_type]. destruct (is_empty (fl_subtypes f)); cbn [negb]; auto.
      apply sane_prefixed; [apply format_name_no_colon|apply (smooth_word u), format_name_word].
    - unfold member. cbn [prefix_field fl_type fl_mods fl_name]. destruct (fl_subtypes f); reflexivity. }
  destruct (is_empty _); auto. nlc. eapply closed_eq; [apply closed_app; [exact A|exact (eq_refl : closed nl [])]|apply app_nil_r].
Qed.

Lemma yaserde_ns_ok : sane_ns tns -> closed (yaserde_ns tns) (attrs_tokens u [AYaserde (ns_args tns)]).
Proof.
  intros SN. unfold yaserde_ns, ns_args. destruct tns as [t|]; [|reflexivity]. destruct (SN t eq_refl) as [Hu Hp]. destruct (ns_name t) as [p|].
  - specialize (Hp p eq_refl).
    assert (Q : quoted (p ++ lit ": " ++ ns_uri t)) by (apply quoted_app; [apply quoted_literal; auto|]; apply quoted_app; [intros acc; reflexivity|apply quoted_literal; auto]).
    assert (C : closed (lit "#[yaserde(prefix = " ++ 34 :: p ++ 34 :: lit ", namespace = " ++ 34 :: (p ++ lit ": " ++ ns_uri t) ++ 34 :: lit ")]" ++ nl)
      (attrs_tokens u [AYaserde [("prefix", Some p); ("namespace", Some (p ++ lit ": " ++ ns_uri t))]])).
    { eapply closed_eq; [pc "#[yaserde(prefix = "; qt; pc ", namespace = "; apply closed_quote; [exact Q|]; pc ")]"; exact eq_refl|reflexivity]. }
    rewrite <- !app_assoc in C. exact C.
  - change (closed (lit "#[yaserde(namespace = " ++ 34 :: ns_uri t ++ 34 :: lit ")]" ++ nl) (attrs_tokens u [AYaserde [("namespace", Some (ns_uri t))]])).
    eapply closed_eq; [pc "#[yaserde(namespace = "; qt; pc ")]"; exact eq_refl|reflexivity].
Qed.
Lemma struct_macros_ok : sane_ns tns -> closed (struct_macros tns) (attrs_tokens u [struct_derive; AYaserde (ns_args tns)]).
Proof.
  intros SN. eapply closed_eq; [unfold struct_macros; pc "#[derive(Default, Clone, PartialEq, Debug, YaSerialize, YaDeserialize)]"; nlc; apply yaserde_ns_ok; auto|reflexivity].
Qed.
Lemma validate_empty n : sane_type n -> closed (gen_validate_impl (tid n) []) (item_tokens u (IValidate (ty n) [])).
Proof.
  intros S. unfold gen_validate_impl. cbn [is_empty item_tokens]. pc "impl Validate for ". apply opened_closed; [apply tid_opened; auto|reflexivity|reflexivity].
Qed.
Lemma enum_macros_ok e : sane_ns tns -> closed (enum_macros tns e)
  (attrs_tokens u (match en_source e with OfUnion => [union_derive] | _ => [choice_derive; AYaserde (ns_args tns)] end)).
Proof.
  intros SN. unfold enum_macros.
  assert (X : closed (lit "#[derive(PartialEq, Debug, Clone, YaSerialize, YaDeserialize)]" ++ yaserde_ns tns) (attrs_tokens u [choice_derive; AYaserde (ns_args tns)])).
  { eapply closed_eq; [pc "#[derive(PartialEq, Debug, Clone, YaSerialize, YaDeserialize)]"; apply yaserde_ns_ok; auto|reflexivity]. }
  destruct (en_source e); auto. reflexivity.
Qed.
Lemma enum_default_ok n : sane_type n -> closed (enum_default (tid n)) (item_tokens u (IDefault (ty n))).
Proof.
  intros S. pose proof (tid_opened n S) as O. unfold enum_default. cbn [item_tokens].
  eapply closed_eq; [pc "impl Default for "; apply opened_closed; [exact O|reflexivity|]; pc " {"; nlc; apply (closed_skip u _ _ _ (closed_spaces u 4)); pc "fn default() -> ";
    apply opened_closed; [exact O|reflexivity|]; match goal with |- closed ?x _ => exact (eq_refl : closed x (lexemes u x)) end|reflexivity].
Qed.

(** *** Variants *)
Lemma split_path_none s : ~ In 58 s -> forall cur, split_path cur s = [rev cur ++ s].
Proof.
  induction s as [|c s IH]; intros N cur; [cbn; rewrite app_nil_r; auto|]. cbn [split_path].
  assert (Hc : (c =? 58) = false) by (apply N.eqb_neq; intros ->; apply N; left; auto).
  assert (R : split_path (c :: cur) s = [rev cur ++ c :: s]) by (rewrite IH by (intros I; apply N; right; auto); cbn [rev]; rewrite <- app_assoc; reflexivity).
  destruct s; [exact R|]. rewrite Hc. cbn [andb]. exact R.
Qed.
Lemma split_path_one p l : ~ In 58 p -> ~ In 58 l -> forall cur, split_path cur (p ++ lit "::" ++ l) = [rev cur ++ p; l].
Proof.
  intros Np Nl. induction p as [|c p IH]; intros cur.
  - cbn [app]. change (split_path cur (58 :: 58 :: l) = [rev cur ++ []; l]). cbn [split_path]. change ((58 =? 58) && (58 =? 58)) with true. cbv iota.
    rewrite split_path_none by auto. rewrite app_nil_r. reflexivity.
  - assert (Hc : (c =? 58) = false) by (apply N.eqb_neq; intros ->; apply Np; left; auto).
    assert (R : split_path (c :: cur) (p ++ lit "::" ++ l) = [rev cur ++ c :: p; l]) by (rewrite IH by (intros I; apply Np; right; auto); cbn [rev]; rewrite <- app_assoc; reflexivity).
    cbn [app split_path]. destruct (p ++ lit "::" ++ l); [exact R|]. rewrite Hc. cbn [andb]. exact R.
Qed.
Lemma word_no_colon w : word_text w -> ~ In 58 w.
Proof. intros W H. unfold RustFacts.word_text in W. rewrite Forall_forall in W. specialize (W _ H). discriminate W. Qed.
Lemma variant_name_eq n p l : qualified n p l ->
  variant_name n = match p with
                   | Some q => if opt_str_eqb (ns_prefix tns) (Some q) then sanitize u (pascal_name u l) else pascal_name u l
                   | None => sanitize u (pascal_name u l)
                   end.
Proof.
  intros Q. unfold variant_name, default_format_type. rewrite (proj2 (split_name_iff n p l) Q). fold (pascal_name u l). cbv zeta.
  assert (A : last (split_path [] (sanitize u (pascal_name u l))) [] = sanitize u (pascal_name u l)).
  { rewrite split_path_none by (apply word_no_colon, sanitize_word, pascal_word). reflexivity. }
  destruct p as [q|]; [|exact A].
  assert (B : last (split_path [] (sanitize u (q ++ lit "::" ++ pascal_name u l))) [] = pascal_name u l).
  { destruct Q as [_ Nq]. destruct (sanitize_shape u (q ++ lit "::" ++ pascal_name u l)) as [->| ->].
    - rewrite split_path_one; auto. apply word_no_colon, pascal_word.
    - change (95 :: q ++ lit "::" ++ pascal_name u l) with ((95 :: q) ++ lit "::" ++ pascal_name u l). rewrite split_path_one; auto.
      + intros [X|X]; [discriminate|auto].
      + apply word_no_colon, pascal_word. }
  unfold opt_str_eqb. destruct (ns_prefix tns) as [t|]; [|exact B].
  assert (Sy : str_eqb t q = str_eqb q t).
  { destruct (str_eqb t q) eqn:E1, (str_eqb q t) eqn:E2; auto; [apply str_eqb_eq in E1; subst; rewrite str_eqb_refl in E2; discriminate|apply str_eqb_eq in E2; subst; rewrite str_eqb_refl in E1; discriminate]. }
  rewrite Sy. destruct (str_eqb q t); auto.
Qed.
Lemma variant_word n : word_text (variant_name n).
Proof.
  pose proof (split_name_qualified n) as Q. destruct (split_name n) as [p l]. rewrite (variant_name_eq _ _ _ Q).
  pose proof (pascal_word u l). pose proof (sanitize_word u _ H). destruct p as [q|]; auto. destruct (opt_str_eqb _ _); auto.
Qed.
Definition sane_case (c : enum_case) : Prop := literal (ec_name c) /\ forall t, ec_type c = Some t -> sane_type t.
Lemma case_macros_ok c : sane_case c -> closed (case_macros u tns c) (attrs_tokens u (va_attrs (case_variant u tid variant_name c))).
Proof.
  intros [L _]. unfold case_macros, case_variant. rewrite colon_split_eq. destruct (split_name (ec_name c)) as [p l] eqn:E.
  destruct (literal_split _ _ _ L E) as [Hl Hp]. cbn [va_attrs].
  change (case_name u tns c) with (variant_name (ec_name c)).
  assert (X : closed (match p with
      | Some p => indent ++ lit "#[yaserde(prefix = """ ++ p ++ lit """, rename = """ ++ l ++ lit """)]" ++ nl
      | None => if str_eqb l (variant_name (ec_name c)) then [] else indent ++ lit "#[yaserde(rename = """ ++ l ++ lit """)]" ++ nl end)
    (attrs_tokens u (match p with Some _ => [AYaserde (prefix_arg p ++ [("rename", Some l)])] | None => if str_eqb l (variant_name (ec_name c)) then [] else [AYaserde [("rename", Some l)]] end))).
  { destruct p as [p|]; [apply (closed_skip u _ _ _ (closed_spaces u 4)), attr_prefix_rename; auto|].
    destruct (str_eqb _ _); [reflexivity|]. apply (closed_skip u _ _ _ (closed_spaces u 4)), attr_rename; auto. }
  destruct (ec_source c); try (destruct p; exact X). reflexivity.
Qed.
Lemma gen_case_ok c : sane_case c -> closed (gen_case u tns xsd c) (variant_tokens u (case_variant u tid variant_name c)).
Proof.
  intros S. unfold gen_case, variant_tokens. apply closed_app; [unfold case_variant; destruct (colon_split (ec_name c)); apply doc_closed|]. apply closed_app; [apply case_macros_ok; auto|].
  destruct S as [L T]. unfold case_variant. destruct (colon_split (ec_name c)) as [p l]. cbn [va_name va_type].
  apply (closed_skip u _ _ _ (closed_spaces u 4)). apply closed_word_app; [apply variant_word|destruct (ec_type c); reflexivity|].
  destruct (ec_type c) as [t|] eqn:E; [|reflexivity].
  rewrite <- !app_assoc. pc "(". apply opened_closed; [apply opened_modified, tid_opened; auto|reflexivity|reflexivity].
Qed.
Lemma gen_case_nonempty c : gen_case u tns xsd c <> [].
Proof. unfold gen_case. destruct (doc (ec_comment c) 4); [|discriminate]. destruct (case_macros u tns c); [|discriminate]. discriminate. Qed.

(** *** Facets *)
Lemma dec_literal n : literal (dec n).
Proof. intros c H. pose proof (dec_digits n) as D. rewrite forallb_forall in D. specialize (D c H). unfold is_ascii_digit in D. lia. Qed.
Lemma dec_word n : word_text (dec n).
Proof.
  apply Forall_forall. intros c H. pose proof (dec_digits n) as D. rewrite forallb_forall in D. specialize (D c H). unfold is_ascii_digit in D.
  unfold word_char. rewrite alnum_ascii by lia. unfold alnumb. lia.
Qed.
Lemma word_dec n : word (dec n) = [TWord (dec n)].
Proof. pose proof (dec_nonempty n). destruct (dec n); [congruence|reflexivity]. Qed.
Ltac bound k o r :=
  match goal with |- closed ?x (checked_tokens u (bound_check _ _ _ ?tt ?v)) =>
    match x with _ _ _ ?t =>
    let Q := fresh in let E := fresh in
    assert (Q : quoted (ck_message (bound_check k o r [] v))) by
      (unfold bound_check; cbn [ck_message]; repeat (apply quoted_app; [first [intros acc; reflexivity|apply quoted_literal; assumption]|]); first [intros acc; reflexivity|apply quoted_literal; assumption]);
    assert (E : x = nl ++ lit ("        if self.0 " ++ o ++ " ") ++ 34 :: v ++ 34 :: lit ".parse::<" ++ t ++ (lit ">().unwrap() {" ++ nl ++ lit "            return Err(format!(") ++
      34 :: ck_message (bound_check k o r [] v) ++ 34 :: lit ", self.0));" ++ nl ++ lit "        }") by
      (unfold bound_check; cbn [ck_message]; rewrite <- !app_assoc; vm_compute; reflexivity);
    rewrite E;
    eapply closed_eq; [nlc; eapply (closed_app u _ _ (rust u ("        if self.0 " ++ o ++ " "))); [reflexivity|]; qt; pc ".parse::<"; apply opened_closed; [eassumption|reflexivity|];
       eapply (closed_app u _ _ (rust u ">().unwrap() { return Err(format!(")); [reflexivity|]; apply closed_quote; [exact Q|]; (match goal with |- closed ?x _ => exact (eq_refl : closed x (rust u ", self.0)); }")) end)|]
    end end.
Lemma bound_ok t tt v : opened t tt -> literal v ->
  closed (gen_max_exclusive_validation v (lit "0") t) (checked_tokens u (bound_check "MaxExclusive" ">=" "<" tt v)) /\
  closed (gen_max_inclusive_validation v (lit "0") t) (checked_tokens u (bound_check "MaxInclusive" ">" "<=" tt v)) /\
  closed (gen_min_exclusive_validation v (lit "0") t) (checked_tokens u (bound_check "MinExclusive" "<=" ">" tt v)) /\
  closed (gen_min_inclusive_validation v (lit "0") t) (checked_tokens u (bound_check "MinInclusive" "<" ">=" tt v)).
Proof.
  intros O L. repeat split.
  - bound "MaxExclusive" ">=" "<". reflexivity.
  - bound "MaxInclusive" ">" "<=". reflexivity.
  - bound "MinExclusive" "<=" ">". reflexivity.
  - bound "MinInclusive" "<" ">=". reflexivity.
Qed.
Ltac len k o r n :=
  match goal with |- closed ?x _ =>
    let Q := fresh in let E := fresh in
    assert (Q : quoted (ck_message (length_check k o r n))) by
      (unfold length_check; cbn [ck_message]; repeat (apply quoted_app; [first [intros acc; reflexivity|apply quoted_literal, dec_literal]|]); first [intros acc; reflexivity|apply quoted_literal, dec_literal]);
    assert (E : x = lit ("        if self.0.len() " ++ o ++ " ") ++ dec n ++ (lit " {" ++ nl ++ lit "            return Err(format!(") ++
      34 :: ck_message (length_check k o r n) ++ 34 :: lit ", self.0.len()));" ++ nl ++ lit "        }") by
      (unfold length_check; cbn [ck_message]; unfold gen_len; generalize (dec n); intros; rewrite <- !app_assoc; vm_compute; reflexivity);
    rewrite E;
    eapply closed_eq; [eapply (closed_app u _ _ (rust u ("        if self.0.len() " ++ o ++ " "))); [reflexivity|]; apply closed_word_app; [apply dec_word|reflexivity|];
       eapply (closed_app u _ _ (rust u "{ return Err(format!(")); [reflexivity|]; apply closed_quote; [exact Q|]; (match goal with |- closed ?x _ => exact (eq_refl : closed x (rust u ", self.0.len())); }")) end)|rewrite word_dec]
  end.
Lemma length_ok n :
  closed (nl ++ gen_len "Length" " != " " == " n (lit "0")) (checked_tokens u (length_check "Length" "!=" "==" n)) /\
  closed (nl ++ gen_len "MaxLength" " > " " <= " n (lit "0")) (checked_tokens u (length_check "MaxLength" ">" "<=" n)) /\
  closed (nl ++ lit "        #[allow(clippy::len_zero)]" ++ nl ++ gen_len "MinLength" " < " " >= " n (lit "0")) (checked_tokens u (length_check "MinLength" "<" ">=" n)).
Proof.
  repeat split.
  - nlc. len "Length" "!=" "==" n. reflexivity.
  - nlc. len "MaxLength" ">" "<=" n. reflexivity.
  - change (checked_tokens u (length_check "MinLength" "<" ">=" n)) with (rust u "#[allow(clippy::len_zero)]" ++ check_tokens u (length_check "MinLength" "<" ">=" n)).
    nlc. pc "        #[allow(clippy::len_zero)]". nlc. len "MinLength" "<" ">=" n. reflexivity.
Qed.
Lemma u32_value_ok v : match u32_value v with Ok n => u32_text v n | Err => False | Panic => forall n, ~ u32_text v n end.
Proof.
  unfold u32_value. destruct (parse_unsigned u32_max v) as [n|] eqn:E.
  - apply parse_unsigned_iff in E as [E L]. change u32_max with 4294967295 in L. split; [split; auto|]; lia.
  - intros n [[H _] L]. assert (X : parse_unsigned u32_max v = Some n) by (apply parse_unsigned_iff; split; auto; change u32_max with 4294967295; lia). congruence.
Qed.
Lemma facet_ok t tt f : opened t tt -> sane_facet f ->
  match gen_facet_validation (fa_type f) (lit "0") t with
  | Ok s => exists ks, facet_checks tt (fa_type f) ks /\ closed s (concat (map (checked_tokens u) ks)) /\ (s = [] <-> ks = [])
  | Err => False
  | Panic => exists v, length_value (fa_type f) = Some v /\ forall n, ~ u32_text v n
  end.
Proof.
  intros O S. unfold sane_facet in S. destruct (fa_type f) as [v|v|v|v|v|v|v|v|v|v|v|w]; cbn [gen_facet_validation];
    try (exists []; split; [constructor|split; [reflexivity|tauto]]).
  - unfold gen_length_validation. pose proof (u32_value_ok v) as U. destruct (u32_value v) as [n| |]; cbn [rmap]; [|contradiction|exists v; split; [reflexivity|exact U]].
    exists [length_check "Length" "!=" "==" n]. split; [constructor; auto|]. split; [|split; discriminate]. cbn [map concat]. rewrite app_nil_r. exact (proj1 (length_ok n)).
  - exists [bound_check "MaxExclusive" ">=" "<" tt v]. split; [constructor|]. split; [|split; discriminate]. cbn [map concat]. rewrite app_nil_r. exact (proj1 (bound_ok t tt v O S)).
  - exists [bound_check "MaxInclusive" ">" "<=" tt v]. split; [constructor|]. split; [|split; discriminate]. cbn [map concat]. rewrite app_nil_r. exact (proj1 (proj2 (bound_ok t tt v O S))).
  - unfold gen_max_length_validation. pose proof (u32_value_ok v) as U. destruct (u32_value v) as [n| |]; cbn [rmap]; [|contradiction|exists v; split; [reflexivity|exact U]].
    exists [length_check "MaxLength" ">" "<=" n]. split; [constructor; auto|]. split; [|split; discriminate]. cbn [map concat]. rewrite app_nil_r. exact (proj1 (proj2 (length_ok n))).
  - exists [bound_check "MinExclusive" "<=" ">" tt v]. split; [constructor|]. split; [|split; discriminate]. cbn [map concat]. rewrite app_nil_r. exact (proj1 (proj2 (proj2 (bound_ok t tt v O S)))).
  - exists [bound_check "MinInclusive" "<" ">=" tt v]. split; [constructor|]. split; [|split; discriminate]. cbn [map concat]. rewrite app_nil_r. exact (proj2 (proj2 (proj2 (bound_ok t tt v O S)))).
  - unfold gen_min_length_validation. pose proof (u32_value_ok v) as U. destruct (u32_value v) as [n| |]; cbn [rmap]; [|contradiction|exists v; split; [reflexivity|exact U]].
    destruct (N.eqb_spec n 0) as [->|N0].
    + exists []. split; [constructor; auto|]. split; [reflexivity|tauto].
    + exists [length_check "MinLength" "<" ">=" n]. split; [constructor; auto|]. split; [|split; discriminate]. cbn [map concat]. rewrite app_nil_r. exact (proj2 (proj2 (length_ok n))).
Qed.
End G2.

(** ** The items of an entity *)
Section G3.
Context (u : uni) (tns xsd : option namespace) (SN : sane_ns tns).
Notation closed := (closed u).
Notation opened := (opened u).
Notation tid := (type_ident u tns xsd).
Notation ty := (ty u tid).
Notation vname := (variant_name u tns).
Notation items := (items u tns tid (format_name u) vname).
Notation all_items := (all_items u tns tid (format_name u) vname).
Notation gen := (gen u tns xsd).
Definition toks (its : list item) : list token := concat (map (item_tokens u) its).
Ltac pc s := eapply (closed_app u (lit s) _ (rust u s)); [reflexivity|].
Ltac nlc := apply (closed_skip u nl); [reflexivity|].

Lemma toks_app a b : toks (a ++ b) = toks a ++ toks b.
Proof. unfold toks. rewrite map_app, concat_app. reflexivity. Qed.
Lemma all_items_app l l' a b : all_items l a -> all_items l' b -> all_items (l ++ l') (a ++ b).
Proof. intros H. induction H as [|e l x y He Hl IH]; intros K; [exact K|]. cbn [app]. rewrite <- app_assoc. constructor; auto. Qed.
Lemma all_items_inv l l' a : all_items (l ++ l') a -> exists b c, a = b ++ c /\ all_items l b /\ all_items l' c.
Proof.
  revert a. induction l as [|e l IH]; intros a H; [exists [], a; repeat split; auto; constructor|]. cbn in H. inversion H as [|e0 l0 x y He Hl]; subst.
  destruct (IH _ Hl) as (b & c & -> & Hb & Hc). exists (x ++ b), c. rewrite app_assoc. repeat split; auto. constructor; auto.
Qed.
Definition G (e : entity) : Prop :=
  match gen e with
  | Ok s => s <> [] /\ exists its, items e its /\ closed s (toks its)
  | Err => False
  | Panic => bad_length e
  end.
Lemma gen_list l : (forall e, In e l -> G e) ->
  match rtraverse gen l with
  | Ok ss => (join nl ss = [] <-> l = []) /\ exists its, all_items l its /\ closed (join nl ss) (toks its)
  | Err => False
  | Panic => exists e, In e l /\ bad_length e
  end.
Proof.
  intros H.
  assert (X : match rtraverse gen l with
    | Ok ss => (ss = [] <-> l = []) /\ Forall (fun s => s <> []) ss /\ exists its tss, all_items l its /\ Forall2 closed ss tss /\ concat tss = toks its
    | Err => False | Panic => exists e, In e l /\ bad_length e end).
  { induction l as [|e l IH]; cbn [rtraverse].
    - split; [tauto|]. split; [constructor|]. exists [], []. split; [constructor|]. split; [constructor|reflexivity].
    - pose proof (H e (or_introl eq_refl)) as He. unfold G in He. destruct (gen e) as [s| |]; cbn [bind]; [|contradiction|exists e; split; [left; auto|auto]].
      specialize (IH (fun e' I => H e' (or_intror I))). destruct (rtraverse gen l) as [ss| |]; cbn [bind]; [|contradiction|destruct IH as (e' & I & B); exists e'; split; [right; auto|auto]].
      destruct He as (Ns & its & Hi & Cs). destruct IH as (_ & F & its' & tss & Ha & F2 & E).
      split; [split; discriminate|]. split; [constructor; auto|]. exists (its ++ its'), (toks its :: tss). split; [constructor; auto|]. split; [constructor; auto|].
      cbn [concat]. rewrite E, toks_app. reflexivity. }
  destruct (rtraverse gen l) as [ss| |]; auto. destruct X as (E & F & its & tss & Ha & F2 & Et). split.
  - rewrite <- E. destruct F as [|s ss Ns F]; [tauto|]. split; [|discriminate]. destruct ss; cbn [join]; intros J; [congruence|]. destruct s; [congruence|discriminate].
  - exists its. split; auto. rewrite <- Et. apply closed_sep; [reflexivity|auto].
Qed.
Lemma gen_field_list fs : (forall f e, In f fs -> In e (fl_subtypes f) -> G e) ->
  match rtraverse (fun f => rmap (join nl) (rtraverse gen (fl_subtypes f))) fs with
  | Ok ss => (concat ss = [] <-> concat (map fl_subtypes fs) = []) /\ exists its, all_items (concat (map fl_subtypes fs)) its /\ closed (concat ss) (toks its)
  | Err => False
  | Panic => exists f e, In f fs /\ In e (fl_subtypes f) /\ bad_length e
  end.
Proof.
  induction fs as [|f fs IH]; intros H; cbn [rtraverse].
  - split; [tauto|]. exists []. split; [constructor|reflexivity].
  - pose proof (gen_list (fl_subtypes f) (fun e I => H f e (or_introl eq_refl) I)) as X.
    destruct (rtraverse gen (fl_subtypes f)) as [ss| |]; cbn [rmap bind]; [|contradiction|destruct X as (e & I & B); exists f, e; split; [left; auto|auto]].
    specialize (IH (fun f' e I => H f' e (or_intror I))).
    destruct (rtraverse _ fs) as [sss| |]; cbn [bind]; [|contradiction|destruct IH as (f' & e & I & J & B); exists f', e; split; [right; auto|auto]].
    destruct X as (E1 & its & Ha & C). destruct IH as (E2 & its' & Ha' & C'). cbn [map concat]. split.
    + split; intros A; apply app_eq_nil in A as [A1 A2]; apply E1 in A1; apply E2 in A2; rewrite A1, A2; reflexivity.
    + exists (its ++ its'). split; [apply all_items_app; auto|]. rewrite toks_app. apply closed_app; auto.
Qed.
Lemma gen_mod_ok m fst st nst nf its its' : RustFacts.word_text u m -> (st = [] <-> nst = @nil entity) -> (fst = [] <-> nf = @nil entity) ->
  closed st (toks its) -> closed fst (toks its') ->
  closed (gen_mod m fst st) (toks (match nst ++ nf with [] => [] | _ => [IMod m (its ++ its')] end)).
Proof.
  intros W E1 E2 C1 C2. unfold gen_mod.
  assert (K : nst ++ nf <> [] -> closed (nl ++ lit "pub mod " ++ m ++ lit " {" ++ nl ++ indent ++ lit "use super::*;" ++ st ++ nl ++ shift fst indent ++ nl ++ lit "}" ++ nl)
    (toks [IMod m (its ++ its')])).
  { intros _. unfold toks. cbn [map concat item_tokens]. fold (toks (its ++ its')). rewrite app_nil_r, toks_app. nlc.
    eapply closed_eq; [pc "pub mod "; apply closed_word_app; [auto|reflexivity|]; pc " {"; nlc; apply (closed_skip u _ _ _ (closed_spaces u 4));
      pc "use super::*;"; apply closed_app; [exact C1|]; nlc; apply closed_app; [apply shift_closed; exact C2|]; nlc; exact (eq_refl : closed (lit "}" ++ nl) (rust u "}"))|].
    rewrite <- !app_assoc. reflexivity. }
  destruct fst as [|c fst]; destruct st as [|d st]; cbn [is_empty negb orb].
  - rewrite (proj1 E1 eq_refl), (proj1 E2 eq_refl). reflexivity.
  - destruct (nst ++ nf) eqn:E; [|apply K; discriminate]. apply app_eq_nil in E as [E _]. apply E1 in E. discriminate.
  - destruct (nst ++ nf) eqn:E; [|apply K; discriminate]. apply app_eq_nil in E as [_ E]. apply E2 in E. discriminate.
  - destruct (nst ++ nf) eqn:E; [|apply K; discriminate]. apply app_eq_nil in E as [_ E]. apply E2 in E. discriminate.
Qed.
Lemma facets_ok t tt fs : opened t tt -> Forall sane_facet fs ->
  match rtraverse (fun f => gen_facet_validation (fa_type f) (lit "0") t) fs with
  | Ok bs => exists ks, Forall2 (facet_checks tt) (map fa_type fs) ks /\ closed (concat bs) (concat (map (checked_tokens u) (concat ks))) /\ (concat bs = [] <-> concat ks = [])
  | Err => False
  | Panic => exists f v, In f fs /\ length_value (fa_type f) = Some v /\ forall n, ~ u32_text v n
  end.
Proof.
  intros O F. induction F as [|f fs S F IH]; cbn [rtraverse].
  - exists []. split; [constructor|]. split; [reflexivity|tauto].
  - pose proof (facet_ok u t tt f O S) as X. destruct (gen_facet_validation _ _ _) as [b| |]; cbn [bind]; [|contradiction|destruct X as (v & E & N); exists f, v; split; [left; auto|auto]].
    destruct (rtraverse _ fs) as [bs| |]; cbn [bind]; [|contradiction|destruct IH as (f' & v & I & E & N); exists f', v; split; [right; auto|auto]].
    destruct X as (k & Fk & C & E). destruct IH as (ks & Fks & Cs & Es). exists (k :: ks). split; [constructor; auto|]. cbn [concat]. rewrite map_app, concat_app. split; [apply closed_app; auto|].
    split; intros A; apply app_eq_nil in A as [A1 A2]; apply E in A1; apply Es in A2; rewrite A1, A2; reflexivity.
Qed.
Lemma validate_ok n body ks : sane_type n -> closed body (concat (map (checked_tokens u) ks)) -> (body = [] <-> ks = []) ->
  closed (gen_validate_impl (tid n) body) (item_tokens u (IValidate (ty n) ks)).
Proof.
  intros S C E. unfold gen_validate_impl. destruct body as [|b body]; cbn [is_empty].
  - rewrite (proj1 E eq_refl). apply (validate_empty u tns xsd n S).
  - destruct ks as [|k ks]; [discriminate (proj2 E eq_refl)|]. cbn [item_tokens].
    eapply closed_eq; [pc "impl Validate for "; apply opened_closed; [apply tid_opened; auto|reflexivity|];
      eapply (closed_app u (lit " {" ++ nl ++ lit "    fn validate(&self) -> Result<(), String> { ") _ (rust u "{ fn validate(&self) -> Result<(), String> {")); [reflexivity|];
      eapply closed_app; [exact C|]; match goal with |- closed ?x _ => exact (eq_refl : closed x (rust u "Ok(()) } }")) end|reflexivity].
Qed.
Lemma lit_app_nonempty c s (x : str) : (lit (String c s) ++ x) <> [].
Proof. discriminate. Qed.
Lemma app_nonempty (a b : str) : b <> [] -> a ++ b <> [].
Proof. intros H E. apply app_eq_nil in E as [_ E]. auto. Qed.

Lemma gen_ok e : sane e -> G e.
Proof.
  induction e as [s IHf IHs|t IH|n IH|f|c|a|i] using entity_sub_ind; intros S; unfold G; cbn [Gen.gen].
  - inversion S as [s0 S1 S2 S3| | | |]; subst. rewrite Forall_forall in S2, S3.
    assert (Gf : forall f e, In f (st_fields s) -> In e (fl_subtypes f) -> G e).
    { intros f e I J. apply (IHf f e I J). destruct (S2 f I) as (_ & _ & X). rewrite Forall_forall in X. auto. }
    pose proof (gen_field_list (st_fields s) Gf) as X.
    destruct (rtraverse _ (st_fields s)) as [fsubs| |]; cbn [bind]; [|contradiction|destruct X as (f & e & I & J & B); eapply bad_in_field; eauto].
    assert (Gs : forall e, In e (st_subtypes s) -> G e) by (intros e I; apply IHs; auto).
    pose proof (gen_list (st_subtypes s) Gs) as Y.
    destruct (rtraverse gen (st_subtypes s)) as [subs| |]; cbn [bind]; [|contradiction|destruct Y as (e & I & B); eapply bad_in_struct; eauto].
    destruct X as (E1 & its1 & A1 & C1). destruct Y as (E2 & its2 & A2 & C2).
    split; [apply app_nonempty; discriminate|].
    exists ([IStruct (doc_words (st_comment s)) [struct_derive; AYaserde (ns_args tns)] (ty (st_name s)) (members u tns tid (format_name u) (format_name u (st_name s)) (st_fields s));
        IValidate (ty (st_name s)) []] ++ match nested s with [] => [] | _ => [IMod (format_name u (st_name s)) (its2 ++ its1)] end).
    split; [constructor; apply all_items_app; auto|].
    assert (M : closed (gen_mod (format_name u (st_name s)) (concat fsubs) (join nl subs)) (toks (match nested s with [] => [] | _ => [IMod (format_name u (st_name s)) (its2 ++ its1)] end))).
    { unfold nested. apply gen_mod_ok; auto. apply format_name_word. }
    assert (SF : Forall sane_field (st_fields s)) by (apply Forall_forall; intros f I; destruct (S2 f I) as (P1 & P2 & _); split; auto).
    rewrite toks_app. unfold toks at 1. cbn [map concat]. rewrite app_nil_r.
    eapply closed_eq.
    + apply closed_app; [apply doc_closed|]. apply closed_app; [apply struct_macros_ok; auto|]. pc "pub struct ". apply opened_closed; [apply tid_opened; auto|reflexivity|]. pc " {".
      apply closed_app; [apply gen_fields_ok; auto|]. pc "}". nlc. nlc. apply closed_app; [apply (validate_empty u tns xsd); auto|]. nlc. apply closed_app; [exact M|]. exact (eq_refl : closed nl []).
    + cbn [item_tokens]. rewrite !app_nil_r, <- !app_assoc. reflexivity.
  - inversion S as [|t0 S1 S2 S3 S4| | |]; subst. rewrite Forall_forall in S4.
    assert (Gs : forall e, In e (tu_subtypes t) -> G e) by (intros e I; apply IH; auto).
    pose proof (gen_list (tu_subtypes t) Gs) as Y.
    destruct (rtraverse gen (tu_subtypes t)) as [subs| |]; cbn [bind]; [|contradiction|destruct Y as (e & I & B); eapply bad_in_tuple; eauto].
    assert (OT : opened (tuple_type u tns xsd t) (modified u (ty (tu_type t)) (tu_mods t))) by (apply opened_modified, tid_opened; auto).
    unfold tuple_validation. pose proof (facets_ok _ _ (tu_facets t) OT S3) as X.
    destruct (rtraverse _ (tu_facets t)) as [bs| |]; cbn [bind]; [|contradiction|destruct X as (f & v & I & E & N); eapply bad_here; eauto].
    destruct Y as (_ & its & A & C). destruct X as (ks & Fk & Ck & Ek).
    split; [apply app_nonempty; discriminate|].
    exists ([ITuple (doc_words (tu_comment t)) [tuple_derive] (ty (tu_name t)) (modified u (ty (tu_type t)) (tu_mods t))] ++ its ++ [IValidate (ty (tu_name t)) (concat ks)]).
    split; [constructor; auto|]. rewrite !toks_app. unfold toks at 1 3. cbn [map concat]. rewrite !app_nil_r.
    eapply closed_eq.
    + apply closed_app; [apply doc_closed|]. eapply (closed_app u (lit "#[derive(Default, Clone, PartialEq, Debug, UtilsTupleIo, UtilsDefaultSerde)]") _ (attrs_tokens u [tuple_derive])); [reflexivity|]. nlc. pc "pub struct ".
      apply opened_closed; [apply tid_opened; auto|reflexivity|]. pc " (pub ". apply opened_closed; [exact OT|reflexivity|]. pc ");". nlc.
      apply closed_app; [exact C|]. nlc. apply closed_app; [apply (validate_ok _ _ (concat ks)); auto|]. exact (eq_refl : closed nl []).
    + cbn [item_tokens]. rewrite !app_nil_r, <- !app_assoc. reflexivity.
  - inversion S as [| |n0 S1 S2 S3 S4| |]; subst. rewrite Forall_forall in S4.
    assert (Gs : forall e, In e (en_subtypes n) -> G e) by (intros e I; apply IH; auto).
    pose proof (gen_list (en_subtypes n) Gs) as Y.
    destruct (rtraverse gen (en_subtypes n)) as [subs| |]; cbn [bind]; [|contradiction|destruct Y as (e & I & B); eapply bad_in_enum; eauto].
    destruct Y as (_ & its & A & C). cbv zeta.
    split; [apply app_nonempty; intros E; apply app_eq_nil in E as [_ E]; discriminate|].
    eexists. split; [constructor; exact A|]. rewrite toks_app. unfold toks at 1. cbn [map concat]. rewrite app_nil_r.
    assert (Cs : closed (join nl (map (gen_case u tns xsd) (en_cases n))) (concat (map (variant_tokens u) (map (case_variant u tid vname) (en_cases n))))).
    { apply closed_sep; [reflexivity|]. clear - S3. induction S3 as [|c cs H S3 IH]; [constructor|]. cbn [map]. constructor; auto. apply gen_case_ok. exact H. }
    eapply closed_eq.
    + apply closed_app; [apply doc_closed|]. apply closed_app; [apply (enum_macros_ok u); auto|]. nlc. pc "pub enum ". apply opened_closed; [apply tid_opened; auto|reflexivity|]. pc " {". nlc.
      apply closed_app; [exact Cs|]. nlc. apply (closed_skip u _ _ _ (closed_spaces u 4)). pc "__Unknown__(". apply opened_closed; [apply tid_opened; auto|reflexivity|]. pc "),". nlc. pc "}". nlc. nlc.
      apply closed_app; [apply (enum_default_ok u tns xsd); auto|]. nlc. nlc. apply closed_app; [apply (validate_empty u tns xsd); auto|]. nlc. nlc. apply closed_app; [exact C|]. exact (eq_refl : closed (nl ++ nl) []).
    + assert (U : concat (map (variant_tokens u) [{| va_doc := []; va_attrs := []; va_name := lit "__Unknown__"; va_type := Some (ty (en_type n)) |}]) = rust u "__Unknown__(" ++ ty (en_type n) ++ rust u "),").
      { cbn [map concat]. rewrite app_nil_r. unfold variant_tokens. cbn [va_doc va_attrs va_name va_type]. rewrite <- !app_assoc. reflexivity. }
      cbn [item_tokens]. rewrite map_app, concat_app, U, !app_nil_r, <- !app_assoc. reflexivity.
  - inversion S.
  - inversion S.
  - inversion S as [| | |a0 S1 S2|]; subst. split; [discriminate|].
    destruct (list_eq_dec N.eq_dec (doc (al_comment a) 0) []) as [E|E].
    + eexists [INote _]. split; [constructor; intros D; apply (proj2 (doc_documented (al_comment a) 80 0)) in D; auto|]. rewrite E. cbn [app].
      assert (X : ~ In 10 (lit " pub type " ++ tid (al_name a) ++ lit " = " ++ tid (al_original a) ++ lit ";")).
      { pose proof (type_smooth u (al_name a) xsd tns S1) as T1. pose proof (type_smooth u (al_original a) xsd tns S2) as T2.
        intros I. apply in_app_or in I as [I|I]; [cbn in I; repeat destruct I as [I|I]; try discriminate; destruct I|].
        apply in_app_or in I as [I|I]; [apply T1 in I; lia|].
        apply in_app_or in I as [I|I]; [cbn in I; repeat destruct I as [I|I]; try discriminate; destruct I|].
        apply in_app_or in I as [I|I]; [apply T2 in I; lia|]. cbn in I. repeat destruct I as [I|I]; try discriminate; destruct I. }
      pose proof (commented u _ X) as R. rewrite <- !app_assoc in R. unfold toks. cbn [map concat item_tokens]. rewrite app_nil_r. exact R.
    + exists [IType (lit "//" :: doc_words (al_comment a)) (ty (al_name a)) (ty (al_original a))]. split; [constructor 5; apply (doc_documented (al_comment a) 80 0); auto|].
      unfold toks. cbn [map concat item_tokens]. rewrite app_nil_r.
      apply (doc_after u); [apply (doc_documented (al_comment a) 80 0); auto|].
      pc " pub type ". apply opened_closed; [apply tid_opened; auto|reflexivity|]. pc " = ". apply opened_closed; [apply tid_opened; auto|reflexivity|]. reflexivity.
  - inversion S as [| | | |i0 S1 S2]; subst. split; [discriminate|]. eexists [INote _]. split; [constructor|].
    assert (X : ~ In 10 (lit "use " ++ im_location i ++ lit "  " ++ im_name i ++ lit ";")).
    { intros I. apply in_app_or in I as [I|I]; [cbn in I; repeat destruct I as [I|I]; try discriminate; destruct I|].
      apply in_app_or in I as [I|I]; [auto|]. apply in_app_or in I as [I|I]; [cbn in I; repeat destruct I as [I|I]; try discriminate; destruct I|].
      apply in_app_or in I as [I|I]; [auto|]. cbn in I. repeat destruct I as [I|I]; try discriminate; destruct I. }
    pose proof (commented u _ X) as R. rewrite <- !app_assoc in R. unfold toks. cbn [map concat item_tokens]. rewrite app_nil_r.
    eapply closed_eq; [exact R|]. f_equal.
    rewrite !(app_assoc (lit "use ")). apply two_spaces.
Qed.

(** *** Items are unique and exist unless a length facet is refused *)
Lemma u32_unique v n m : u32_text v n -> u32_text v m -> n = m.
Proof.
  intros [[A _] L] [[B _] K].
  assert (X : parse_unsigned u32_max v = Some n) by (apply parse_unsigned_iff; split; auto; change u32_max with 4294967295; lia).
  assert (Y : parse_unsigned u32_max v = Some m) by (apply parse_unsigned_iff; split; auto; change u32_max with 4294967295; lia). congruence.
Qed.
Lemma facet_checks_unique tt f a b : facet_checks tt f a -> facet_checks tt f b -> a = b.
Proof.
  intros A B. inversion A; subst; inversion B; subst; auto; try (match goal with X : u32_text ?v ?n, Y : u32_text ?v ?m |- _ => pose proof (u32_unique v n m X Y); subst end); auto; congruence.
Qed.
Lemma facet_lists_unique tt fs a : Forall2 (facet_checks tt) fs a -> forall b, Forall2 (facet_checks tt) fs b -> a = b.
Proof. induction 1 as [|f k fs ks H F IH]; intros b B; inversion B; subst; auto. f_equal; [eapply facet_checks_unique; eauto|auto]. Qed.
Lemma all_unique l : (forall e, In e l -> forall a b, items e a -> items e b -> a = b) -> forall a b, all_items l a -> all_items l b -> a = b.
Proof.
  induction l as [|e l IH]; intros H a b A B; inversion A; subst; inversion B; subst; auto. f_equal; [eapply H; eauto; left; auto|].
  eapply IH; eauto. intros; eapply H; eauto; right; auto.
Qed.
Lemma items_unique e : forall a b, items e a -> items e b -> a = b.
Proof.
  induction e as [s IHf IHs|t IH|n IH|f|c|al|i] using entity_sub_ind; intros a b A B; inversion A; subst; inversion B; subst; auto; try contradiction.
  - enough (inner = inner0) by (subst; auto). eapply (all_unique (nested s)); eauto. intros e I. unfold nested in I. apply in_app_or in I as [I|I]; [apply IHs; auto|].
    apply in_concat in I as (x & X & I). apply in_map_iff in X as (f & <- & J). eapply IHf; eauto.
  - f_equal. f_equal; [eapply (all_unique (tu_subtypes t)); eauto|]. f_equal. f_equal. f_equal. eapply facet_lists_unique; eauto.
  - f_equal. f_equal. f_equal. f_equal. eapply (all_unique (en_subtypes n)); eauto.
Qed.
Lemma all_in l a e : all_items l a -> In e l -> exists b, items e b.
Proof. induction 1 as [|x l b c Hx Hl IH]; intros []; [subst; eauto|auto]. Qed.
Lemma bad_facet tt fs ks f v : Forall2 (facet_checks tt) fs ks -> In f fs -> length_value f = Some v -> (forall n, ~ u32_text v n) -> False.
Proof.
  intros F. induction F as [|x k fs ks H F IH]; intros I E N; [destruct I|]. destruct I as [I|I]; [|auto]. subst x.
  inversion H; subst; cbn in E; try discriminate E; injection E as ->; eapply N; eauto.
Qed.
Lemma bad_no_items e : bad_length e -> forall a, ~ items e a.
Proof.
  induction 1 as [t f v I E N|t e I B IH|s f e I J B IH|s e I B IH|n e I B IH]; intros a A; inversion A; subst.
  - eapply bad_facet; [eassumption|apply (in_map fa_type); exact I|exact E|exact N].
  - eapply all_in in I; eauto. destruct I as (b & Hb). eapply IH; eauto.
  - assert (K : In e (nested s)) by (apply in_or_app; right; apply in_concat; exists (fl_subtypes f); split; auto; apply in_map; auto).
    eapply all_in in K; eauto. destruct K as (b & Hb). eapply IH; eauto.
  - assert (K : In e (nested s)) by (apply in_or_app; left; auto). eapply all_in in K; eauto. destruct K as (b & Hb). eapply IH; eauto.
  - eapply all_in in I; eauto. destruct I as (b & Hb). eapply IH; eauto.
Qed.
End G3.
