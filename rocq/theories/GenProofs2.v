(** Proofs about the generator model: files, repeated generation, nested types, checks. *)
From Coq Require Import Arith NArith ZArith Bool Ascii String List Lia Permutation.
From Verif Require Import Str StrFacts SpecLex SpecNames Xml Comment CommentProofs Names NamesProofs Entity SpecSchema ParserProofs Link LinkProofs Gen SpecRust SpecGen SpecCheck RustFacts GenProofs.
Import ListNotations.
Local Open Scope string_scope.
Local Open Scope list_scope.
Local Open Scope N_scope.
Notation concat := List.concat.

Section F.
Context (u : uni) (tns xsd : option namespace).
Notation tid := (fun q => format_type_name u q xsd tns).
Notation ident := (format_name u).
Notation vname := (variant_name u tns).
Notation items := (items u tns tid ident vname).
Notation all_items := (all_items u tns tid ident vname).
Notation ty := (ty u tid).
Notation gen := (Gen.gen u tns xsd).
Notation touched := (Gen.touched u).

(** ** Files *)
Lemma generate_list l : rtraverse (generate u tns xsd) l =
  match rtraverse gen l with Ok ts => Ok (combine (map touched l) ts) | Err => Err | Panic => Panic end.
Proof.
  induction l as [|e l IH]; [reflexivity|]. cbn [rtraverse map]. rewrite IH. unfold generate.
  destruct (gen e) as [t| |]; cbn [rmap bind]; auto. destruct (rtraverse gen l); reflexivity.
Qed.
Lemma rtraverse_length {A B} (f : A -> res B) l ts : rtraverse f l = Ok ts -> List.length ts = List.length l.
Proof.
  revert ts. induction l as [|a l IH]; intros ts; cbn [rtraverse]; [intros [= <-]; auto|].
  destruct (f a); cbn [bind]; try discriminate. destruct (rtraverse f l); cbn [bind]; try discriminate. intros [= <-]. cbn. f_equal. auto.
Qed.
Lemma map_fst_combine {A B} (a : list A) (b : list B) : List.length b = List.length a -> map fst (combine a b) = a.
Proof. revert b. induction a as [|x a IH]; intros [|y b]; cbn; intros [=]; f_equal; auto. Qed.
Lemma map_snd_combine {A B} (a : list A) (b : list B) : List.length b = List.length a -> map snd (combine a b) = b.
Proof. revert b. induction a as [|x a IH]; intros [|y b]; cbn; intros [=]; f_equal; auto. Qed.
End F.

(** The text of a file and what it leaves behind. *)
Definition touched_file (u : uni) (f : rs_file) : rs_file :=
  {| rf_types := map (touched u) (rf_types f); rf_groups := rf_groups f; rf_target_ns := rf_target_ns f; rf_xsd_ns := rf_xsd_ns f |}.
Lemma generate_file_eq u f : generate_rs_file u f =
  match rtraverse (Gen.gen u (rf_target_ns f) (rf_xsd_ns f)) (rf_types f) with
  | Ok ts => Ok (touched_file u f, concat ts) | Err => Err | Panic => Panic
  end.
Proof.
  unfold generate_rs_file. rewrite generate_list. destruct (rtraverse _ _) as [ts| |] eqn:E; cbn [bind]; auto.
  apply rtraverse_length in E. rewrite map_fst_combine, map_snd_combine; auto; rewrite map_length; auto.
Qed.

Section F2.
Context (u : uni) (tns xsd : option namespace) (SN : sane_ns tns).
Notation tid := (fun q => format_type_name u q xsd tns).
Notation ident := (format_name u).
Notation vname := (variant_name u tns).
Notation items := (items u tns tid ident vname).
Notation all_items := (all_items u tns tid ident vname).
Notation ty := (ty u tid).
Notation gen := (Gen.gen u tns xsd).
Notation toks := (fun its => concat (map (item_tokens u) its)).

Lemma file_list l : Forall sane l ->
  match rtraverse gen l with
  | Ok ts => exists its, all_items l its /\ closed u (concat ts) (toks its)
  | Err => False
  | Panic => exists e, In e l /\ bad_length e
  end.
Proof.
  induction 1 as [|e l S F IH]; cbn [rtraverse].
  - exists []. split; [constructor|reflexivity].
  - pose proof (gen_ok u tns xsd SN e S) as X. unfold G in X. destruct (gen e) as [t| |]; cbn [bind]; [|contradiction|exists e; split; [left; auto|auto]].
    destruct (rtraverse gen l) as [ts| |]; cbn [bind]; [|contradiction|destruct IH as (e' & I & B); exists e'; split; [right; auto|auto]].
    destruct X as (_ & a & A & C). destruct IH as (b & B & D). exists (a ++ b). split; [constructor; auto|].
    cbn [concat]. rewrite map_app, concat_app. apply closed_app; auto.
Qed.
End F2.

Lemma closed_lex u s t : closed u s t -> lex u s = Some t.
Proof. unfold closed, lex. intros ->. cbn [flush]. rewrite app_nil_r. reflexivity. Qed.

Lemma file_text u f its : sane_ns (rf_target_ns f) -> Forall sane (rf_types f) ->
  all_items u (rf_target_ns f) (fun q => format_type_name u q (rf_xsd_ns f) (rf_target_ns f)) (format_name u) (variant_name u (rf_target_ns f)) (rf_types f) its ->
  exists f' s, generate_rs_file u f = Ok (f', s) /\ lex u s = Some (concat (map (item_tokens u) its)).
Proof.
  intros SN F A. rewrite generate_file_eq. pose proof (file_list u _ (rf_xsd_ns f) SN _ F) as X.
  destruct (rtraverse _ _) as [ts| |]; [|contradiction|].
  - destruct X as (its' & A' & C). eexists _, _. split; [reflexivity|]. rewrite (closed_lex _ _ _ C). f_equal. f_equal. f_equal.
    eapply all_unique; eauto. intros; eapply items_unique; eauto.
  - destruct X as (e & I & B). eapply all_in in I; eauto. destruct I as (b & Hb). edestruct bad_no_items; eauto.
Qed.
Lemma file_panic u f : sane_ns (rf_target_ns f) -> Forall sane (rf_types f) ->
  generate_rs_file u f <> Err /\
  (generate_rs_file u f = Panic <-> exists e, In e (rf_types f) /\ bad_length e) /\
  ((exists e, In e (rf_types f) /\ bad_length e) \/
   exists its, all_items u (rf_target_ns f) (fun q => format_type_name u q (rf_xsd_ns f) (rf_target_ns f)) (format_name u) (variant_name u (rf_target_ns f)) (rf_types f) its).
Proof.
  intros SN F. rewrite generate_file_eq. pose proof (file_list u _ (rf_xsd_ns f) SN _ F) as X.
  destruct (rtraverse _ _) as [ts| |]; [|contradiction|].
  - destruct X as (its & A & C). split; [discriminate|]. split; [|right; eauto]. split; [discriminate|].
    intros (e & I & B). eapply all_in in I; eauto. destruct I as (b & Hb). edestruct bad_no_items; eauto.
  - split; [discriminate|]. split; [tauto|]. left; auto.
Qed.

(** ** Every declared type is defined exactly once *)
Section D.
Context (u : uni) (tns : option namespace) (tt ident variant_ident : str -> str).
Notation items := (items u tns tt ident variant_ident).
Notation all_items := (all_items u tns tt ident variant_ident).
Notation ty := (ty u tt).
Notation at_path := (fun '(p, n, k) => (p, ty n, k)).
Definition place {A B K} (x : A * B * K) : A * B := fst x.
Definition is_enum {A} (x : A * kind) : bool := match snd x with KEnum => true | _ => false end.

Definition D (e : entity) : Prop := forall its path, items e its ->
  concat (map (defined path) its) = map at_path (declared ident path e) /\
  Permutation (concat (map (validated path) its)) (map place (map at_path (declared ident path e))) /\
  concat (map (defaulted path) its) = map place (map at_path (filter is_enum (declared ident path e))).
Lemma filter_concat {A} (f : A -> bool) l : filter f (concat l) = concat (map (filter f) l).
Proof. induction l as [|x l IH]; [reflexivity|]. cbn [concat map]. rewrite filter_app, IH. reflexivity. Qed.
Lemma concat_single {A} (x : list A) : concat [x] = x.
Proof. cbn. apply app_nil_r. Qed.
Lemma D_list l : (forall e, In e l -> D e) -> forall its path, all_items l its ->
  concat (map (defined path) its) = map at_path (concat (map (declared ident path) l)) /\
  Permutation (concat (map (validated path) its)) (map place (map at_path (concat (map (declared ident path) l)))) /\
  concat (map (defaulted path) its) = map place (map at_path (filter is_enum (concat (map (declared ident path) l)))).
Proof.
  induction l as [|e l IH]; intros H its path A; inversion A; subst; [repeat split; constructor|].
  destruct (H e (or_introl eq_refl) a path) as (D1 & D2 & D3); auto.
  destruct (IH (fun e I => H e (or_intror I)) b path) as (E1 & E2 & E3); auto.
  cbn [map concat]. rewrite filter_app, !map_app, !concat_app, D1, D3, E1, E3. split; [reflexivity|]. split; [|reflexivity].
  apply Permutation_app; auto.
Qed.
Lemma declared_nested path s : concat (map (declared ident path) (nested s)) =
  concat (map (declared ident path) (st_subtypes s)) ++ concat (map (fun f : field entity => concat (map (declared ident path) (fl_subtypes f))) (st_fields s)).
Proof.
  unfold nested. rewrite map_app, concat_app. f_equal. induction (st_fields s) as [|f fs IH]; [reflexivity|].
  cbn [map concat]. rewrite map_app, concat_app, IH. reflexivity.
Qed.
Lemma D_all e : D e.
Proof.
  induction e as [s IHf IHs|t IH|n IH|f|c|a|i] using entity_sub_ind; intros its path A; inversion A; subst; try (repeat split; constructor).
  - cbn [declared]. rewrite <- declared_nested.
    assert (HN : forall e, In e (nested s) -> D e).
    { intros e I. unfold nested in I. apply in_app_or in I as [I|I]; [auto|]. apply in_concat in I as (x & X & I). apply in_map_iff in X as (f & <- & J). eapply IHf; eauto. }
    destruct (D_list (nested s) HN inner (path ++ [ident (st_name s)])) as (E1 & E2 & E3); auto.
    assert (M : (match nested s with [] => [] | _ => [IMod (ident (st_name s)) inner] end = [IMod (ident (st_name s)) inner]) \/ (nested s = [] /\ inner = [])).
    { destruct (nested s) eqn:N; [right; match goal with X : all_items _ inner |- _ => inversion X end; auto|left; auto]. }
    cbn [filter]. change (is_enum (path, st_name s, KStruct)) with false. cbv iota.
    cbn [map app concat defined validated defaulted]. 
    destruct M as [->|[M1 M2]].
    + cbn [map concat defined validated defaulted]. rewrite !app_nil_r, E1, E3. split; [reflexivity|]. split; [|reflexivity]. apply perm_skip. exact E2.
    + rewrite M1. subst inner. cbn. repeat split; auto.
  - cbn [declared filter]. change (is_enum (path, tu_name t, KTuple)) with false. cbv iota.
    destruct (D_list (tu_subtypes t) IH inner path) as (E1 & E2 & E3); auto.
    rewrite !map_app, !concat_app. cbn [map app concat defined validated defaulted]. rewrite !app_nil_r, E1, E3. split; [reflexivity|]. split; [|reflexivity].
    etransitivity; [apply Permutation_app_comm|]. cbn [app]. apply perm_skip. exact E2.
  - cbn [declared filter]. change (is_enum (path, en_name n, KEnum)) with true. cbv iota.
    destruct (D_list (en_subtypes n) IH inner path) as (E1 & E2 & E3); auto.
    cbn [map app concat defined validated defaulted]. rewrite E1, E3. split; [reflexivity|]. split; [|reflexivity].
    apply perm_skip. exact E2.
Qed.
End D.

(** ** Documentation *)
Lemma noted_app a b : noted (a ++ b) = noted a ++ noted b.
Proof. unfold noted. rewrite map_app, concat_app. reflexivity. Qed.
Lemma noted_notes ws : noted (notes ws) = ws.
Proof. unfold noted, notes. rewrite map_map. induction ws as [|w ws IH]; [reflexivity|]. cbn [map concat app]. rewrite IH. reflexivity. Qed.
Lemma noted_word w : noted (word w) = [].
Proof. destruct w; reflexivity. Qed.
Lemma noted_concat l : noted (concat l) = concat (map noted l).
Proof. induction l as [|x l IH]; [reflexivity|]. cbn [concat map]. rewrite noted_app, IH. reflexivity. Qed.
Lemma noted_separated sep l : noted sep = [] -> Forall (fun t => noted t = []) l -> noted (separated sep l) = [].
Proof.
  intros S F. induction F as [|x l H F IH]; [reflexivity|]. destruct l as [|y l]; [exact H|].
  change (separated sep (x :: y :: l)) with (x ++ sep ++ separated sep (y :: l)). rewrite !noted_app, H, S, IH. reflexivity.
Qed.
Section W.
Context (u : uni) (tns : option namespace) (tt ident variant_ident : str -> str).
Notation items := (items u tns tt ident variant_ident).
Notation all_items := (all_items u tns tt ident variant_ident).
Notation ty := (ty u tt).
(** Tokens of a text without slashes. *)
Lemma run_unslashed s : forall st, (forall c, In c s -> c <> 47) -> match st with LSlash | LComment _ => False | _ => True end ->
  match run u st s with Some (st', t) => noted t = [] /\ match st' with LSlash | LComment _ => False | _ => True end | None => True end.
Proof.
  induction s as [|c s IH]; intros st H K; cbn [run]; [auto|].
  assert (S : match start u c with (st', t) => noted t = [] /\ match st' with LSlash | LComment _ => False | _ => True end end).
  { unfold start. destruct (word_char u c); [auto|]. destruct (is_whitespace c); [auto|]. destruct (N.eqb_spec c 47) as [E|E]; [destruct (H c (or_introl eq_refl) E)|].
    destruct (N.eqb_spec c 34); [auto|]. split; [reflexivity|exact I]. }
  assert (X : match lex_step u st c with Some (st', t) => noted t = [] /\ match st' with LSlash | LComment _ => False | _ => True end | None => True end).
  { destruct st; cbn [lex_step]; try contradiction.
    - destruct (start u c); exact S.
    - destruct (word_char u c); [split; [reflexivity|exact I]|]. unfold after. destruct (start u c) as [st' t]. cbn [fst snd]. destruct S as [S1 S2]. split; [|exact S2].
      change (noted ([TWord (rev acc)] ++ t) = []). rewrite noted_app, S1. reflexivity.
    - destruct (c =? 34); [split; [reflexivity|exact I]|]. destruct (c =? 92); [split; [reflexivity|exact I]|]. destruct (c =? 10); [exact I|split; [reflexivity|exact I]].
    - destruct (c =? 10); [exact I|split; [reflexivity|exact I]]. }
  destruct (lex_step u st c) as [[st1 t1]|]; [|exact I]. destruct X as [X1 X2].
  specialize (IH st1 (fun c I => H c (or_intror I)) X2). destruct (run u st1 s) as [[st2 t2]|]; [|exact I]. destruct IH as [I1 I2]. split; [|exact I2]. rewrite noted_app, X1, I1. reflexivity.
Qed.
Lemma unslashed s : (forall c, In c s -> c <> 47) -> noted (lexemes u s) = [].
Proof.
  intros H. pose proof (run_unslashed s LNone H I) as X. unfold lexemes, lex. destruct (run u LNone s) as [[st t]|]; [|reflexivity]. destruct X as [X K].
  destruct st; cbn [flush]; try reflexivity; try contradiction; rewrite noted_app, X; reflexivity.
Qed.
Ltac nts := repeat (rewrite noted_app || rewrite noted_notes || rewrite noted_word).
Lemma noted_rust s : forallb (fun c => negb (c =? 47)) (lit s) = true -> noted (rust u s) = [].
Proof. intros H. apply unslashed. intros c I. rewrite forallb_forall in H. specialize (H c I). intros ->. discriminate. Qed.
Lemma noted_attr a : (match a with ADerive ts => Forall (fun t => forallb (fun c => negb (c =? 47)) (lit t) = true) ts
                                 | AYaserde args => Forall (fun kv => forallb (fun c => negb (c =? 47)) (lit (fst kv)) = true) args end) -> noted (attr_tokens u a) = [].
Proof.
  destruct a as [ts|args]; intros F; cbn [attr_tokens]; nts; rewrite !noted_rust by reflexivity; rewrite app_nil_r; cbn [app].
  - apply noted_separated; [apply noted_rust; reflexivity|]. induction F; cbn [map]; constructor; auto. apply noted_rust. auto.
  - apply noted_separated; [apply noted_rust; reflexivity|]. induction F as [|[k v] l H F IH]; cbn [map]; constructor; auto. nts. rewrite noted_rust by auto.
    destruct v; [|reflexivity]. nts. rewrite noted_rust by reflexivity. reflexivity.
Qed.
Definition tame (l : list attr) : Prop := Forall (fun a => match a with ADerive ts => Forall (fun t => forallb (fun c => negb (c =? 47)) (lit t) = true) ts
                                 | AYaserde args => Forall (fun kv => forallb (fun c => negb (c =? 47)) (lit (fst kv)) = true) args end) l.
Lemma noted_attrs l : tame l -> noted (attrs_tokens u l) = [].
Proof. induction 1 as [|a l H F IH]; [reflexivity|]. unfold attrs_tokens in *. cbn [map concat]. rewrite noted_app, IH, noted_attr by auto. reflexivity. Qed.
Ltac tm := repeat constructor.
Lemma tame_ns : tame [AYaserde (ns_args tns)].
Proof. unfold ns_args. destruct tns as [t|]; [destruct (ns_name t)|]; tm. Qed.
Lemma tame_field f : tame (field_attrs tns f).
Proof.
  unfold field_attrs. destruct (colon_split (fl_name f)) as [p l]. destruct (fl_source f); tm.
  - destruct p; cbn [prefix_arg app]; tm.
  - destruct p; [cbn [prefix_arg app]; tm|]. destruct tns as [t|]; [destruct (ns_name t)|]; cbn [prefix_arg app]; tm.
Qed.
Lemma noted_modified t ms : noted t = [] -> noted (modified u t ms) = [].
Proof.
  intros H. unfold modified. destruct (existsb _ ms); [apply noted_rust; reflexivity|].
  assert (Wr : forall t m, noted t = [] -> noted (wrap u t m) = []).
  { intros t' m Ht. destruct m; cbn [wrap]; auto; nts; rewrite !noted_rust by reflexivity; rewrite Ht; reflexivity. }
  destruct (existsb _ ms); [exact (Wr t MArray H)|]. revert t H. induction ms as [|m ms IH]; intros t H; cbn [fold_left]; auto.
Qed.
Context (P : str -> Prop) (HP : forall q, P q -> noted (ty q) = []) (Pm : forall m q, P q -> P (ident m ++ lit "::" ++ q)).

(** The condition on names under which the types have no notes. *)
Inductive calm : entity -> Prop :=
| calm_struct s : P (st_name s) -> Forall (fun f => P (fl_type f) /\ Forall calm (fl_subtypes f)) (st_fields s) ->
    Forall calm (st_subtypes s) -> calm (EStruct s)
| calm_tuple t : P (tu_name t) -> P (tu_type t) -> Forall calm (tu_subtypes t) -> calm (ETuple t)
| calm_enum e : P (en_name e) -> P (en_type e) -> Forall (fun c => forall t, ec_type c = Some t -> P t) (en_cases e) ->
    Forall calm (en_subtypes e) -> calm (EEnum e)
| calm_alias a : P (al_name a) -> P (al_original a) -> calm (EAlias a)
| calm_import i : calm (EImport i).

Lemma noted_members m fs : Forall (fun f => P (fl_type f)) fs ->
  noted (concat (map (field_tokens u) (members u tns tt ident (ident m) fs))) =
  concat (map (fun f : field entity => if existsb (modifier_eqb MEmpty) (fl_mods f) then [] else doc_words (fl_comment f)) fs).
Proof.
  induction 1 as [|f fs H F IH]; [reflexivity|]. unfold members in *. cbn [filter map concat]. destruct (existsb (modifier_eqb MEmpty) (fl_mods f)); cbn [negb]; [exact IH|].
  cbn [map concat]. rewrite noted_app, IH. f_equal. unfold field_tokens, member. cbn [rf_doc rf_attrs rf_name rf_type]. nts.
  rewrite noted_attrs by apply tame_field. rewrite !noted_rust by reflexivity. rewrite noted_modified; [rewrite !app_nil_r; reflexivity|].
  destruct (fl_subtypes f); apply HP; auto.
Qed.
Lemma noted_variants cs : Forall (fun c => forall t, ec_type c = Some t -> P t) cs ->
  noted (concat (map (variant_tokens u) (map (case_variant u tt variant_ident) cs))) = concat (map (fun c => doc_words (ec_comment c)) cs).
Proof.
  induction 1 as [|c cs H F IH]; [reflexivity|]. cbn [map concat]. rewrite noted_app, IH. f_equal. unfold variant_tokens, case_variant.
  destruct (colon_split (ec_name c)) as [p l]. cbn [va_doc va_attrs va_name va_type]. nts. rewrite noted_attrs.
  - destruct (ec_type c) as [t|]; nts; rewrite !noted_rust by reflexivity; [rewrite noted_modified by (apply HP; auto)|]; cbn [app]; rewrite ?app_nil_r; reflexivity.
  - destruct (ec_source c); try (destruct p; [cbn [prefix_arg app]; tm|destruct (str_eqb _ _); tm]). tm.
Qed.
Lemma noted_check t f ks : facet_checks t f ks -> noted t = [] -> noted (concat (map (checked_tokens u) ks)) = [].
Proof.
  intros F H. destruct F; try reflexivity; cbn [map concat]; unfold checked_tokens, bound_check, length_check; cbn [ck_cond];
    unfold check_tokens; cbn [ck_cond ck_message]; nts; rewrite !noted_rust by reflexivity; rewrite ?H; reflexivity.
Qed.
Definition W (e : entity) : Prop := forall its, items e its -> noted (concat (map (item_tokens u) its)) = entity_words tt e.
Lemma W_list l : (forall e, In e l -> W e) -> forall its, all_items l its -> noted (concat (map (item_tokens u) its)) = concat (map (entity_words tt) l).
Proof.
  induction l as [|e l IH]; intros H its A; inversion A; subst; [reflexivity|]. rewrite map_app, concat_app, noted_app. cbn [map concat].
  rewrite (H e (or_introl eq_refl) a) by auto. rewrite IH; auto. intros; apply H; right; auto.
Qed.
Lemma words_nested s : concat (map (entity_words tt) (nested s)) =
  concat (map (entity_words tt) (st_subtypes s)) ++ concat (map (fun f : field entity => concat (map (entity_words tt) (fl_subtypes f))) (st_fields s)).
Proof.
  unfold nested. rewrite map_app, concat_app. f_equal. induction (st_fields s) as [|f fs IH]; [reflexivity|].
  cbn [map concat]. rewrite map_app, concat_app, IH. reflexivity.
Qed.
Lemma noted_validate n : noted n = [] -> noted (item_tokens u (IValidate n [])) = [].
Proof. intros H. cbn [item_tokens]. nts. rewrite H, !noted_rust by reflexivity. reflexivity. Qed.
Lemma noted_checks n t fs kss : noted n = [] -> noted t = [] -> Forall2 (facet_checks t) fs kss -> noted (item_tokens u (IValidate n (concat kss))) = [].
Proof.
  intros H Ht F. assert (K : noted (concat (map (checked_tokens u) (concat kss))) = []).
  { induction F as [|f k fs kss Hk F IH]; [reflexivity|]. cbn [concat]. rewrite map_app, concat_app, noted_app, IH, (noted_check t f k); auto. }
  destruct (concat kss) as [|k ks]; [apply noted_validate; auto|]. cbn [item_tokens]. nts. rewrite H, K, !noted_rust by reflexivity. reflexivity.
Qed.
Lemma documented_words c : documented c <-> doc_words c <> [].
Proof.
  split.
  - intros (d & ps & r & w & -> & P0 & K & I0). rewrite (doc_words_kept d ps r P0 K).
    assert (X : w <> []).
    { clear - K I0. induction K as [|p ps ws r T D K IH|p ps ws r T D K IH]; [destruct I0|auto|]. destruct I0 as [->|I0]; [|auto]. intros ->. destruct D. left. reflexivity. }
    intros Z. assert (Y : incl w (concat r)) by (intros x J; apply in_concat; eauto). rewrite Z in Y. destruct w as [|x w]; [auto|]. destruct (Y x (or_introl eq_refl)).
  - intros H. destruct c as [d|]; [|destruct H; reflexivity]. destruct (pieces_total d) as (ps & P0). destruct (kept_total ps) as (r & K).
    rewrite (doc_words_kept d ps r P0 K) in H. destruct r as [|w r]; [destruct H; reflexivity|]. exists d, ps, (w :: r), w. do 3 (split; [auto|]). left. reflexivity.
Qed.
Lemma W_all e : calm e -> W e.
Proof.
  induction e as [s IHf IHs|t IH|n IH|f|c|a|i] using entity_sub_ind; intros C its A; inversion A; subst.
  - inversion C as [s0 C1 C2 C3| | | |]; subst. rewrite Forall_forall in C3.
    assert (HN : forall e, In e (nested s) -> W e).
    { intros e I. unfold nested in I. apply in_app_or in I as [I|I]; [auto|]. apply in_concat in I as (x & X & I). apply in_map_iff in X as (f & <- & J).
      apply (IHf f e J I). rewrite Forall_forall in C2. destruct (C2 f J) as [_ Q]. rewrite Forall_forall in Q. auto. }
    pose proof (W_list (nested s) HN inner) as L. rewrite words_nested in L.
    rewrite map_app, concat_app, noted_app. cbn [map concat]. rewrite !noted_app, noted_validate by auto.
    assert (S1 : noted (item_tokens u (IStruct (doc_words (st_comment s)) [struct_derive; AYaserde (ns_args tns)] (ty (st_name s)) (members u tns tt ident (ident (st_name s)) (st_fields s)))) =
      doc_words (st_comment s) ++ concat (map (fun f : field entity => if existsb (modifier_eqb MEmpty) (fl_mods f) then [] else doc_words (fl_comment f)) (st_fields s))).
    { cbn [item_tokens]. nts. rewrite noted_members by (eapply Forall_impl; [|exact C2]; cbn; tauto). rewrite HP, !noted_rust by (auto; reflexivity).
      rewrite noted_attrs by (constructor; [tm|apply tame_ns]). cbn [app]. rewrite app_nil_r. reflexivity. }
    rewrite S1. cbn [noted concat map app]. rewrite app_nil_r. change (entity_words tt (EStruct s)) with
      (doc_words (st_comment s) ++ concat (map (fun f : field entity => if existsb (modifier_eqb MEmpty) (fl_mods f) then [] else doc_words (fl_comment f)) (st_fields s)) ++
       concat (map (entity_words tt) (st_subtypes s)) ++ concat (map (fun f : field entity => concat (map (entity_words tt) (fl_subtypes f))) (st_fields s))).
    rewrite <- L by auto. rewrite <- app_assoc. do 2 f_equal. 
    destruct (nested s) eqn:N.
    + match goal with X : all_items [] inner |- _ => inversion X; subst end. reflexivity.
    + cbn [map concat]. rewrite app_nil_r. cbn [item_tokens]. nts. rewrite !noted_rust by reflexivity. cbn [app]. rewrite app_nil_r. reflexivity.
  - inversion C as [|t0 C1 C2 C3| | |]; subst. rewrite Forall_forall in C3.
    pose proof (W_list (tu_subtypes t) (fun e I => IH e I (C3 e I)) inner) as L. cbn [entity_words]. rewrite <- L by auto.
    rewrite !map_app, !concat_app, !noted_app. cbn [map concat]. rewrite !app_nil_r. rewrite (noted_checks _ (modified u (ty (tu_type t)) (tu_mods t)) (map fa_type (tu_facets t)) ks); auto; [|apply noted_modified; auto].
    rewrite app_nil_r. f_equal. cbn [item_tokens]. nts. rewrite noted_modified, HP, !noted_rust by (auto; reflexivity). rewrite noted_attrs by tm. rewrite !app_nil_r. reflexivity.
  - inversion C as [| |n0 C1 C2 C3 C4| |]; subst. rewrite Forall_forall in C4.
    pose proof (W_list (en_subtypes n) (fun e I => IH e I (C4 e I)) inner) as L. cbn [entity_words]. rewrite <- L by auto.
    rewrite !map_app, !concat_app, !noted_app. cbn [map concat]. rewrite !noted_app, noted_validate by auto.
    assert (DF : noted (item_tokens u (IDefault (ty (en_name n)))) = []) by (cbn [item_tokens]; nts; rewrite HP, !noted_rust by (auto; reflexivity); reflexivity).
    rewrite DF. cbn [app]. rewrite ?app_nil_r. rewrite app_assoc. f_equal. cbn [item_tokens]. rewrite map_app, concat_app. nts. rewrite noted_variants by auto.
    rewrite HP, !noted_rust by (auto; reflexivity). rewrite noted_attrs by (destruct (en_source n); try (constructor; [tm|apply tame_ns]); tm).
    cbn [app]. rewrite app_nil_r. rewrite <- (app_nil_r (concat (map (fun c => doc_words (ec_comment c)) (en_cases n)))) at 2. do 2 f_equal.
    cbn [map concat]. rewrite app_nil_r. unfold variant_tokens. cbn [va_doc va_attrs va_name va_type]. nts. rewrite HP, !noted_rust by (auto; reflexivity). reflexivity.
  - cbn [map concat item_tokens entity_words]. rewrite app_nil_r, noted_notes.
    destruct (doc_words (al_comment a)) eqn:E; [reflexivity|]. match goal with X : ~ documented _ |- _ => destruct X end. apply documented_words. rewrite E. discriminate.
  - inversion C; subst. cbn [map concat item_tokens entity_words]. rewrite app_nil_r. nts. rewrite !HP, !noted_rust by (auto; reflexivity). cbn [app]. rewrite app_nil_r.
    destruct (doc_words (al_comment a)) eqn:E; [|reflexivity]. match goal with X : documented _ |- _ => apply documented_words in X; contradiction end.
  - cbn [map concat item_tokens entity_words]. rewrite app_nil_r, noted_notes. reflexivity.
Qed.
End W.

Lemma sane_calm e : sane e -> calm sane_type e.
Proof.
  induction e as [s IHf IHs|t IH|n IH|f|c|a|i] using entity_sub_ind; intros S; inversion S; subst.
  - constructor; auto.
    + match goal with X : Forall _ (st_fields s) |- _ => apply Forall_forall; intros f I; rewrite Forall_forall in X; destruct (X f I) as (A & _ & B) end.
      split; [auto|]. apply Forall_forall. intros e J. rewrite Forall_forall in B. eauto.
    + match goal with X : Forall sane (st_subtypes s) |- _ => apply Forall_forall; intros e I; rewrite Forall_forall in X; auto end.
  - constructor; auto. match goal with X : Forall sane _ |- _ => apply Forall_forall; intros e I; rewrite Forall_forall in X; auto end.
  - constructor; auto.
    + match goal with X : Forall _ (en_cases n) |- _ => eapply Forall_impl; [|exact X] end. cbn. tauto.
    + match goal with X : Forall sane _ |- _ => apply Forall_forall; intros e I; rewrite Forall_forall in X; auto end.
  - constructor; auto.
  - constructor.
Qed.
Lemma file_comments u f f' s : sane_ns (rf_target_ns f) -> Forall sane (rf_types f) -> generate_rs_file u f = Ok (f', s) ->
  exists ts, lex u s = Some ts /\
    noted ts = concat (map (entity_words (fun q => format_type_name u q (rf_xsd_ns f) (rf_target_ns f))) (rf_types f)).
Proof.
  intros SN F E. rewrite generate_file_eq in E. pose proof (file_list u _ (rf_xsd_ns f) SN _ F) as X.
  destruct (rtraverse _ _) as [ts| |]; try discriminate. injection E as <- <-. destruct X as (its & A & C). eexists. split; [apply closed_lex; exact C|].
  eapply (W_list u (rf_target_ns f)); [|exact A]. intros e I. apply (W_all u (rf_target_ns f) _ _ _ sane_type).
  - intros q Q. apply unslashed. intros c J. apply (type_smooth u q (rf_xsd_ns f) (rf_target_ns f) Q) in J. tauto.
  - intros m q Q. apply sane_prefixed; [apply format_name_no_colon|apply (smooth_word u), format_name_word].
  - apply sane_calm. rewrite Forall_forall in F. auto.
Qed.

(** ** Generating again *)
Lemma map_same {A} (f : A -> A) l : Forall (fun x => f x = x) l -> map f l = l.
Proof. induction 1; cbn; congruence. Qed.
Lemma touched_unnested u e : unnested e -> touched u e = e.
Proof.
  induction e as [s IHf IHs|t IH|n IH|f|c|a|i] using entity_sub_ind; intros H; inversion H; subst; cbn [touched]; auto.
  - rewrite (map_same (touched u) (st_subtypes s)).
    + rewrite (map_same _ (st_fields s)); [destruct s; reflexivity|].
      match goal with X : Forall _ (st_fields s) |- _ => apply Forall_forall; intros f I; rewrite Forall_forall in X; specialize (X f I) end.
      unfold prefix_field. cbn [fl_type]. match goal with X : fl_subtypes f = [] |- _ => rewrite X end. cbn [is_empty negb map]. destruct f; cbn in *. congruence.
    + match goal with X : Forall _ (st_subtypes s) |- _ => apply Forall_forall; intros e I; rewrite Forall_forall in X; auto end.
  - rewrite (map_same (touched u) (tu_subtypes t)); [destruct t; reflexivity|].
    match goal with X : Forall _ (tu_subtypes t) |- _ => apply Forall_forall; intros e I; rewrite Forall_forall in X; auto end.
  - rewrite (map_same (touched u) (en_subtypes n)); [destruct n; reflexivity|].
    match goal with X : Forall _ (en_subtypes n) |- _ => apply Forall_forall; intros e I; rewrite Forall_forall in X; auto end.
Qed.
Lemma file_twice u f f' s : Forall unnested (rf_types f) -> generate_rs_file u f = Ok (f', s) -> f' = f /\ generate_rs_file u f' = Ok (f', s).
Proof.
  intros H E. assert (T : touched_file u f = f).
  { unfold touched_file. rewrite (map_same (touched u) (rf_types f)); [destruct f; reflexivity|]. eapply Forall_impl; [|exact H]. intros e. apply touched_unnested. }
  assert (X : f' = f).
  { pose proof E as E'. rewrite generate_file_eq in E'. rewrite T in E'. destruct (rtraverse _ _) as [ts| |]; congruence. }
  subst f'. auto.
Qed.

(** ** Checks *)
Section C.
Context (V : Type) (read : str -> option V) (cmp : V -> V -> option comparison) (len : V -> N).
Context (total : forall x y, cmp x y <> None).
Notation run_checks := (run_checks V read cmp len).
Notation allowed := (allowed V read cmp len).
Notation unreadable := (unreadable V read).

Lemma run_app_checks a b x : run_checks (a ++ b) x = match run_checks a x with Accepted => run_checks b x | r => r end.
Proof. induction a as [|k a IH]; [reflexivity|]. cbn [app SpecCheck.run_checks]. destruct (condition _ _ _ _ _ _) as [[]|]; auto. Qed.
Lemma one_facet tt f ks x : facet_checks tt f ks ->
  (run_checks ks x = Accepted <-> allowed x f) /\ (run_checks ks x = Crashed <-> unreadable f).
Proof.
  intros H. inversion H; subst; cbn [SpecCheck.run_checks ck_cond bound_check length_check condition SpecCheck.allowed SpecCheck.unreadable]; unfold bounded.
  1-4: destruct (read v) as [b|] eqn:E; [|split; [split; [discriminate|intros (b & X & _); discriminate]|tauto]];
    (split; [|split; [destruct (holds _ _); discriminate|discriminate]]); pose proof (total x b) as T; destruct (cmp x b) as [[]|] eqn:C; try (destruct T; reflexivity); cbn;
    (split; [intros; try discriminate; exists b; rewrite C; auto|intros (b' & [= <-] & X); rewrite C in X; try (destruct X as [X|X]); try discriminate; auto]).
  1-3: split; [|split; [destruct (holds _ _); discriminate|tauto]].
  1-3: destruct (N.compare_spec (len x) n) as [C|C|C]; cbn;
    (split; [intros; first [discriminate|exists n; split; [auto|lia]]|intros (m & X & Y); assert (n = m) by (eapply u32_unique; eauto); subst m; try reflexivity; lia]).
  - split; [|split; [discriminate|tauto]]. split; [intros _; exists 0; split; [auto|lia]|auto].
  - split; [tauto|split; [discriminate|tauto]].
  - split; [tauto|split; [discriminate|tauto]].
  - split; [tauto|split; [discriminate|tauto]].
  - split; [tauto|split; [discriminate|tauto]].
  - split; [tauto|split; [discriminate|tauto]].
Qed.
Lemma all_facets tt fs ks x : Forall2 (facet_checks tt) fs ks ->
  (run_checks (concat ks) x = Accepted <-> Forall (allowed x) fs) /\
  (run_checks (concat ks) x = Crashed <-> exists a f b, fs = a ++ f :: b /\ Forall (allowed x) a /\ unreadable f).
Proof.
  induction 1 as [|f k fs ks H F [IH1 IH2]]; cbn [concat].
  - split; [split; constructor|]. split; [discriminate|]. intros (a & f & b & X & _). destruct a; discriminate.
  - rewrite run_app_checks. destruct (one_facet tt f k x H) as [A C]. destruct (run_checks k x) as [|m|] eqn:E.
    + pose proof (proj1 A eq_refl) as Al. split; [rewrite IH1; split; intros X; [constructor; auto|inversion X; auto]|].
      rewrite IH2. split.
      * intros (a & g & b & -> & X & Y). exists (f :: a), g, b. split; [reflexivity|]. split; [constructor; auto|auto].
      * intros ([|f' a] & g & b & X & Y & Z); injection X as -> ->; [apply C in Z; discriminate|]. inversion Y; subst. exists a, g, b. auto.
    + split; [split; [discriminate|intros X; inversion X; subst; apply A; auto]|]. split; [discriminate|].
      intros ([|f' a] & g & b & X & Y & Z); injection X as -> ->; [apply C; auto|]. inversion Y; subst. match goal with Q : allowed x f' |- _ => apply A in Q; discriminate end.
    + split; [split; [discriminate|intros X; inversion X; subst; apply A; auto]|]. split; [|auto].
      intros _. exists [], f, fs. split; [reflexivity|]. split; [constructor|apply C; auto].
Qed.
End C.

(** ** References to nested types *)
Section N.
Context (u : uni) (tns xsd : option namespace).
Notation tid := (fun q => format_type_name u q xsd tns).
Notation ident := (format_name u).
Notation vname := (variant_name u tns).
Notation items := (items u tns tid ident vname).
Notation all_items := (all_items u tns tid ident vname).
Notation ty := (ty u tid).

Lemma trim_right_cons c s : trim_right u s <> [] -> trim_right u (c :: s) = c :: trim_right u s.
Proof.
  intros N. destruct (trim_right_spec u s) as (w & E & Hw & [Hl|(x & t & Hl & Ax)]); [contradiction|].
  rewrite Hl in E |- *. rewrite E at 1. rewrite <- app_assoc. cbn [app].
  change (c :: t ++ x :: w) with ((c :: t) ++ x :: w). rewrite trim_right_app by auto.
  rewrite (proj2 (trim_right_nil u w) Hw). reflexivity.
Qed.
Lemma pascal_colon T : pascal_name u (58 :: T) = pascal_name u T.
Proof.
  unfold pascal_name, to_pascal_case. f_equal. destruct (trim_right u T) as [|x t] eqn:E.
  - assert (H : trim_right u (58 :: T) = []).
    { apply trim_right_nil. intros c [<-|I]; [reflexivity|]. exact (proj1 (trim_right_nil u T) E c I). }
    rewrite H. reflexivity.
  - rewrite trim_right_cons by (rewrite E; discriminate). rewrite E. cbn [pascal_loop]. change (is_alphanumeric u 58) with false. reflexivity.
Qed.
Lemma format_name_head n : match ident n with c :: _ => is_numeric u c = false | [] => True end.
Proof.
  unfold format_name, sanitize. destruct (to_snake_case u _) as [|c s]; [exact I|].
  destruct (is_numeric u c) eqn:E; cbn [orb]; [reflexivity|]. destruct (existsb _ _); [reflexivity|exact E].
Qed.
Lemma nested_text n T : ns_prefix tns <> Some (ident n) -> ~ In 58 T -> ~ (ns_prefix xsd = None /\ In T (map fst built_in_table)) ->
  (forall r, tid T <> 95 :: r) -> tid (ident n ++ lit "::" ++ T) = ident n ++ lit "::" ++ tid T.
Proof.
  intros NT NC NB NU.
  assert (BT : match_built_in_type T xsd = None).
  { destruct (match_built_in_type T xsd) eqn:E; auto. apply built_in_iff in E as (l & Q & A). destruct NB.
    destruct (ns_prefix xsd) as [p|]; cbn in Q; [destruct Q as [-> _]; destruct NC; apply in_or_app; right; left; auto|].
    split; auto. destruct Q as [-> _]. clear - A. induction built_in_table as [|[k v] b IH]; [discriminate|]. cbn [assoc] in A.
    destruct (str_eqb l k) eqn:E; [left; apply str_eqb_eq in E; auto|right; auto]. }
  cbv beta. rewrite (format_type_own u T None T xsd tns) by (auto; split; auto).
  cbv beta in NU. rewrite (format_type_own u T None T xsd tns) in NU by (auto; split; auto).
  assert (SP : sanitize u (pascal_name u T) = pascal_name u T).
  { destruct (sanitize_shape u (pascal_name u T)) as [E|E]; auto. destruct (NU _ E). }
  rewrite SP.
  rewrite (format_type_foreign u _ (ident n) (58 :: T)).
  - rewrite pascal_colon. pose proof (format_name_head n) as H. destruct (ident n) as [|c r]; [reflexivity|]. rewrite H. reflexivity.
  - split; [reflexivity|]. apply format_name_no_colon.
  - destruct (match_built_in_type (ident n ++ lit "::" ++ T) xsd) as [t|] eqn:E; auto. exfalso. apply built_in_iff in E as (l & Q & A).
    assert (L : l = 58 :: T \/ In 58 l).
    { destruct (ns_prefix xsd) as [p|]; cbn [qualified] in Q.
      - destruct Q as [Q Np]. destruct (qualified_unique (ident n ++ lit "::" ++ T) (Some p) l (Some (ident n)) (58 :: T)) as [_ X]; [split; auto|split; [reflexivity|apply format_name_no_colon]|left; exact X].
      - destruct Q as [<- _]. right. apply in_or_app. right. left. auto. }
    assert (I58 : In 58 l) by (destruct L as [->|L]; [left; auto|auto]).
    assert (K : forallb (fun kv => negb (existsb (N.eqb 58) (fst kv))) built_in_table = true) by reflexivity.
    rewrite forallb_forall in K. clear - A I58 K. induction built_in_table as [|[k v] b IH]; [discriminate|]. cbn [assoc] in A.
    destruct (str_eqb l k) eqn:E.
    + apply str_eqb_eq in E. subst k. specialize (K (l, v) (or_introl eq_refl)). cbn [fst] in K. apply negb_true_iff in K.
      assert (X : existsb (N.eqb 58) l = true) by (apply existsb_exists; exists 58; split; auto). congruence.
    + apply IH; auto. intros x I. apply K. right. auto.
  - exact NT.
Qed.
Lemma nested_ty n T : ns_prefix tns <> Some (ident n) -> ~ In 58 T -> ~ (ns_prefix xsd = None /\ In T (map fst built_in_table)) ->
  (forall r, tid T <> 95 :: r) -> ty (ident n ++ lit "::" ++ T) = word (ident n) ++ rust u "::" ++ ty T.
Proof.
  intros A B C E. unfold SpecGen.ty at 1. rewrite (nested_text n T A B C E).
  apply opened_lexemes. apply opened_opened; [apply opened_word, format_name_word|reflexivity|].
  apply closed_open_app; [reflexivity|]. apply tid_opened. intros p l [Q _]. destruct B. rewrite Q. apply in_or_app. right. left. auto.
Qed.

Lemma nested_module s f e its : items (EStruct s) its -> In f (st_fields s) -> In e (fl_subtypes f) ->
  exists inner, In (IMod (ident (st_name s)) inner) its /\
    incl (map (fun '(p, n, k) => (p, ty n, k)) (declared ident [] e)) (concat (map (defined []) inner)).
Proof.
  intros A I J. inversion A as [s' inner AI E1 E2| | | | |]; subst.
  assert (K : In e (nested s)) by (apply in_or_app; right; apply in_concat; exists (fl_subtypes f); split; auto; apply in_map; auto).
  exists inner. split.
  - apply in_or_app. right. destruct (nested s); [destruct K|left; auto].
  - clear A. induction AI as [|x l a b Hx Hl IH]; [destruct K|]. rewrite map_app, concat_app.
    destruct K as [->|K]; [|apply incl_appr; auto]. apply incl_appl.
    rewrite (proj1 (D_all u tns tid ident vname e a [] Hx)). apply incl_refl.
Qed.
End N.

(** ** The statements of PropsGen *)
Lemma all_one u tns tt ident v e its : all_items u tns tt ident v [e] its -> items u tns tt ident v e its.
Proof. intros A. inversion A as [|e' l a b A1 A2]; subst. inversion A2; subst. rewrite app_nil_r. auto. Qed.
Lemma file_defined u f l its :
  all_items u (rf_target_ns f) (fun q => format_type_name u q (rf_xsd_ns f) (rf_target_ns f)) (format_name u) (variant_name u (rf_target_ns f)) l its ->
  let ds := concat (map (declared (format_name u) []) l) in
  let ty := ty u (fun q => format_type_name u q (rf_xsd_ns f) (rf_target_ns f)) in
  concat (map (defined []) its) = map (fun '(p, n, k) => (p, ty n, k)) ds /\
  Permutation (concat (map (validated []) its)) (map (fun '(p, n, k) => (p, ty n)) ds) /\
  concat (map (defaulted []) its) = map (fun '(p, n, k) => (p, ty n)) (filter (fun d => match snd d with KEnum => true | _ => false end) ds).
Proof.
  intros A ds ty. destruct (D_list _ _ _ _ _ l (fun e _ => D_all _ _ _ _ _ e) its [] A) as (H1 & H2 & H3).
  assert (M : forall x : list (list str * str * kind), map (fun '(p, n, k) => (p, ty n)) x = map place (map (fun '(p, n, k) => (p, ty n, k)) x)).
  { intros x. rewrite map_map. apply map_ext. intros [[p n] k]. reflexivity. }
  rewrite !M. auto.
Qed.
Lemma variant_names u tns n p l : qualified n p l -> (exists c, In c l /\ alnum c) ->
  let r := variant_name u tns n in
  letters r = letters l /\ (forall c, In c r -> alnum c \/ c = 95) /\
  (p = None \/ p = ns_prefix tns -> rust_ident r \/ r = lit "try").
Proof.
  intros Q A r. unfold r. pose proof (variant_name_eq u tns n p l Q) as E.
  destruct (pascal_name_alnum u l) as [P1 P2].
  assert (S : variant_name u tns n = sanitize u (pascal_name u l) \/ variant_name u tns n = pascal_name u l /\ ~ (p = None \/ p = ns_prefix tns)).
  { destruct p as [q|]; [|auto]. destruct (opt_str_eqb (ns_prefix tns) (Some q)) eqn:O; [auto|]. right. split; auto.
    intros [X|X]; [discriminate|]. rewrite (proj2 (opt_str_eqb_eq _ _) (eq_sym X)) in O. discriminate. }
  set (x0 := Some {| ns_name := Some [58]; ns_uri := [] |}).
  assert (F : p = None \/ p = ns_prefix tns -> format_type_name u n x0 tns = sanitize u (pascal_name u l)).
  { intros H. apply (format_type_own u n p l x0 tns Q); auto. destruct (match_built_in_type n x0) as [t|] eqn:B; auto.
    apply built_in_iff in B as (l' & [_ Q'] & _). destruct Q'. left. reflexivity. }
  destruct S as [S|[S N]]; rewrite S.
  - destruct (sanitize_shape u (pascal_name u l)) as [Z|Z].
    + rewrite Z. split; [auto|]. split; [auto|]. intros H. specialize (F H). rewrite Z in F. rewrite <- F. apply (format_type_own_ident u n p l x0 tns Q A H).
      intros [X _]. destruct p as [q|]; [|discriminate]. injection X as ->. destruct Q as [_ Q]. apply Q. left; auto.
    + rewrite Z. split; [rewrite <- P2; reflexivity|]. split; [intros c [<-|I]; auto|]. intros H. specialize (F H). rewrite Z in F. rewrite <- F. apply (format_type_own_ident u n p l x0 tns Q A H).
      intros [X _]. destruct p as [q|]; [|discriminate]. injection X as ->. destruct Q as [_ Q]. apply Q. left; auto.
  - split; [auto|]. split; [auto|tauto].
Qed.
Lemma prefixed_again u s f : In f (st_fields s) -> fl_subtypes f <> [] ->
  exists s' f', touched u (EStruct s) = EStruct s' /\ In f' (st_fields s') /\ fl_name f' = fl_name f /\
    fl_subtypes f' <> [] /\ fl_type f' = format_name u (st_name s) ++ lit "::" ++ fl_type f.
Proof.
  intros I N. cbn [touched]. eexists _, _. split; [reflexivity|]. cbn [st_fields]. split; [apply in_map; exact I|].
  cbn [fl_name fl_subtypes fl_type prefix_field]. split; [reflexivity|].
  destruct (fl_subtypes f); [contradiction|]. split; [discriminate|reflexivity].
Qed.
Lemma alias_text u f a : sane_ns (rf_target_ns f) -> sane (EAlias a) -> exists s,
  Gen.gen u (rf_target_ns f) (rf_xsd_ns f) (EAlias a) = Ok s /\
  (~ documented (al_comment a) -> exists ws, lex u s = Some (notes ws)) /\
  (documented (al_comment a) ->
   lex u s = Some (notes (lit "//" :: doc_words (al_comment a)) ++ rust u "pub type" ++ ty u (fun q => format_type_name u q (rf_xsd_ns f) (rf_target_ns f)) (al_name a) ++ rust u "=" ++
                   ty u (fun q => format_type_name u q (rf_xsd_ns f) (rf_target_ns f)) (al_original a) ++ rust u ";")).
Proof.
  intros SN S. pose proof (gen_ok u _ (rf_xsd_ns f) SN _ S) as G. unfold GenProofs.G in G.
  destruct (Gen.gen u (rf_target_ns f) (rf_xsd_ns f) (EAlias a)) as [s| |]; [|contradiction|inversion G].
  destruct G as (_ & its & A & C). apply closed_lex in C. exists s. split; [reflexivity|].
  inversion A; subst; split; intros H; try contradiction; [eexists|]; rewrite C; unfold toks; cbn [map concat item_tokens]; rewrite ?app_nil_r; reflexivity.
Qed.
Lemma module_of u f s fl e its :
  all_items u (rf_target_ns f) (fun q => format_type_name u q (rf_xsd_ns f) (rf_target_ns f)) (format_name u) (variant_name u (rf_target_ns f)) [EStruct s] its ->
  In fl (st_fields s) -> In e (fl_subtypes fl) ->
  exists inner, In (IMod (format_name u (st_name s)) inner) its /\
    incl (map (fun '(p, n, k) => (p, ty u (fun q => format_type_name u q (rf_xsd_ns f) (rf_target_ns f)) n, k)) (declared (format_name u) [] e)) (concat (map (defined []) inner)).
Proof. intros A. apply all_one in A. eapply nested_module. exact A. Qed.
Lemma reference_of u f m (fl : field entity) :
  fl_subtypes fl <> [] -> ~ In 58 (fl_type fl) -> ns_prefix (rf_target_ns f) <> Some (format_name u m) ->
  ~ (ns_prefix (rf_xsd_ns f) = None /\ In (fl_type fl) (map fst SpecBuiltin.xsd_builtins)) ->
  (forall r, format_type_name u (fl_type fl) (rf_xsd_ns f) (rf_target_ns f) <> 95 :: r) ->
  rf_type (member u (rf_target_ns f) (fun q => format_type_name u q (rf_xsd_ns f) (rf_target_ns f)) (format_name u) (format_name u m) fl) =
  modified u (word (format_name u m) ++ rust u "::" ++ ty u (fun q => format_type_name u q (rf_xsd_ns f) (rf_target_ns f)) (fl_type fl)) (fl_mods fl).
Proof.
  intros N C P B U. unfold member. cbn [rf_type]. destruct (fl_subtypes fl) as [|e es] eqn:E; [contradiction|].
  rewrite (nested_ty u _ _ m (fl_type fl)); auto. intros [X Y]. apply B. split; auto. apply builtins_names. auto.
Qed.
Lemma checks_of u f t its :
  all_items u (rf_target_ns f) (fun q => format_type_name u q (rf_xsd_ns f) (rf_target_ns f)) (format_name u) (variant_name u (rf_target_ns f)) [ETuple t] its ->
  exists pre kss,
  its = pre ++ [IValidate (ty u (fun q => format_type_name u q (rf_xsd_ns f) (rf_target_ns f)) (tu_name t)) (concat kss)] /\
  Forall2 (facet_checks (modified u (ty u (fun q => format_type_name u q (rf_xsd_ns f) (rf_target_ns f)) (tu_type t)) (tu_mods t))) (map fa_type (tu_facets t)) kss.
Proof.
  intros A. apply all_one in A. inversion A as [|t' inner ks A1 A2| | | |]; subst. eexists (_ :: inner), ks. split; [cbn [app]; reflexivity|auto].
Qed.
Lemma unchecked u f its :
  (forall s, all_items u (rf_target_ns f) (fun q => format_type_name u q (rf_xsd_ns f) (rf_target_ns f)) (format_name u) (variant_name u (rf_target_ns f)) [EStruct s] its ->
     In (IValidate (ty u (fun q => format_type_name u q (rf_xsd_ns f) (rf_target_ns f)) (st_name s)) []) its) /\
  (forall n, all_items u (rf_target_ns f) (fun q => format_type_name u q (rf_xsd_ns f) (rf_target_ns f)) (format_name u) (variant_name u (rf_target_ns f)) [EEnum n] its ->
     In (IValidate (ty u (fun q => format_type_name u q (rf_xsd_ns f) (rf_target_ns f)) (en_name n)) []) its).
Proof. split; intros x A; apply all_one in A; inversion A; subst; cbn; auto. Qed.
Lemma length_panic u f t fa v : sane_ns (rf_target_ns f) -> Forall sane (rf_types f) ->
  In (ETuple t) (rf_types f) -> In fa (tu_facets t) -> length_value (fa_type fa) = Some v -> (forall n, ~ u32_text v n) ->
  generate_rs_file u f = Panic.
Proof.
  intros SN F I J E N. apply (file_panic u f SN F). exists (ETuple t). split; auto. eapply bad_here; eauto.
Qed.
