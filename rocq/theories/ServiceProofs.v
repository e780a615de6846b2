(** Proofs about services. *)
From Coq Require Import Arith NArith ZArith Bool Ascii String List Lia Permutation.
From Verif Require Import Str SpecLex SpecNames SpecBuiltin Xml StrFacts Names NamesProofs Entity Parser ParserFacts SpecSchema ParserProofs Link SpecLink
  Gen SpecRust SpecGen RustFacts GenProofs GenProofs2 SpecDoc DocProofs SpecScope ScopeProofs SpecTraits SizeProofs SpecDistinct DistinctProofs DistinctProofs2 Wsdl SpecWsdl WsdlProofs SpecService.
Import ListNotations.
Local Open Scope string_scope.
Local Open Scope list_scope.
Notation concat := List.concat.

(** ** What is read inside of a schema does not depend on what is around it *)
Inductive agree : list node -> list node -> Prop :=
| agree_schema s a b : tag "schema" s -> agree (s :: a) (s :: b)
| agree_in n a b : agree a b -> agree (n :: a) (n :: b).
Lemma schema_type s a : tag "schema" s -> xsd_type s a = Ok (TKind KSchema).
Proof. unfold tag, xsd_type. intros ->. reflexivity. Qed.
Lemma agree_type a b n : agree a b -> xsd_type n a = xsd_type n b.
Proof. intros A. unfold xsd_type. assert (E : extension_of a = extension_of b /\ restriction_of a = restriction_of b) by (destruct A; auto). destruct E as [-> ->]. auto. Qed.
Lemma agree_parent a b : agree a b -> parent_type a = parent_type b.
Proof. intros [s a' b' S|n a' b' A]; cbn [parent_type]; [rewrite !schema_type; auto|apply agree_type; auto]. Qed.
Lemma agree_name a b : agree a b -> get_parent_name a = get_parent_name b.
Proof.
  induction 1 as [s a b S|n a b A IH]; cbn [get_parent_name]; [rewrite !schema_type; auto|]. rewrite (agree_type _ _ _ A), IH. auto.
Qed.
Lemma rfilter_ext {A} (p q : A -> res bool) l : (forall x, p x = q x) -> rfilter p l = rfilter q l.
Proof. intros E. induction l as [|x l IH]; auto. cbn [rfilter]. rewrite E, IH. auto. Qed.
Lemma agree_elements p a b ks : agree a b -> elements_where p a ks = elements_where p b ks.
Proof. intros A. apply rfilter_ext. intros k. rewrite (agree_type _ _ _ A). auto. Qed.
Lemma agree_nodes p a b ks : agree a b -> nodes_where p a ks = nodes_where p b ks.
Proof. intros A. apply rfilter_ext. intros k. rewrite (agree_type _ _ _ A). auto. Qed.
Lemma agree_attributes a b ks : agree a b -> attributes_to_fields a ks = attributes_to_fields b ks.
Proof. intros A. unfold attributes_to_fields. rewrite (agree_nodes _ _ _ _ A). auto. Qed.
Lemma agree_groups a b ks : agree a b -> attribute_groups_to_aliases a ks = attribute_groups_to_aliases b ks.
Proof. intros A. unfold attribute_groups_to_aliases. rewrite (agree_nodes _ _ _ _ A). auto. Qed.
Lemma agree_facets a b ks : agree a b -> facets a ks = facets b ks.
Proof. intros A. induction ks as [|k ks IH]; auto. cbn [facets]. rewrite (agree_type _ _ _ A), IH. auto. Qed.
Lemma agree_head a b : agree a b -> hd_error a = hd_error b.
Proof. intros []; auto. Qed.
Lemma agree_step u n a b ks : agree a b -> parse_step u n a ks = parse_step u n b ks.
Proof.
  intros A. assert (A' : agree (n :: a) (n :: b)) by (apply agree_in; auto).
  pose proof (agree_name _ _ A) as EN. pose proof (agree_parent _ _ A) as EP. pose proof (agree_type _ _ n A) as ET.
  pose proof (fun p => agree_elements p _ _ ks A') as EE. pose proof (fun p => agree_nodes p _ _ ks A') as EO.
  pose proof (agree_attributes _ _ ks A') as EA. pose proof (agree_groups _ _ ks A') as EG. pose proof (agree_facets _ _ ks A') as EF.
  assert (ED : match a with p :: _ => get_documentation p | [] => None end = match b with p :: _ => get_documentation p | [] => None end) by (destruct A; auto).
  unfold parse_step, parse_sequence, elements_to_fields, parse_attribute, parse_global_attribute, parse_attribute_group, parse_choice, parse_content, parse_complex_type,
    finish_complex, parse_element, parse_global_element, parse_field_of_sequence, parse_extension, simple_content_extension, parse_restriction, simple_type_restriction,
    complex_derivation, parse_simple_type, parse_union.
  rewrite ?EN, ?EP, ?ET, ?EA, ?EG, ?EF, ?ED. rewrite ?EE, ?EO. reflexivity.
Qed.
Lemma agree_node u n : forall a b, agree a b -> parse_node u n a = parse_node u n b.
Proof.
  remember (size n) as k eqn:K. revert n K. induction k as [k IH] using lt_wf_ind. intros n -> a b A.
  destruct n as [t at_ ns cs|s|]; cbn [parse_node]; [|apply agree_step; auto|apply agree_step; auto].
  rewrite (agree_step _ _ _ _ _ A). f_equal. apply map_ext_in. intros c I. f_equal. eapply IH; [|reflexivity|apply agree_in; auto]. apply size_child. auto.
Qed.
Lemma schema_alone u s anc anc' : tag "schema" s -> parse_schema u s anc = parse_schema u s anc'.
Proof.
  intros T. assert (A : agree (s :: anc) (s :: anc')) by (constructor; auto). unfold parse_schema.
  assert (E : kids u s anc = kids u s anc') by (unfold kids; apply map_ext; intros c; f_equal; apply agree_node; auto).
  rewrite E. rewrite !(agree_elements _ _ _ _ A). reflexivity.
Qed.

(** ** Functions of exchanges *)
Definition exchange_func (x : exchange) : func :=
  {| f_name := ex_name x; f_params := [(lit "request", ex_request x)]; f_result := ex_response x; f_doc := ex_doc x |}.
Lemma exchange_op root op x : exchanges root op x -> op_func root op (exchange_func x).
Proof.
  intros (i & o & fs & qi & qo & R & Hi & Ho & N & (m & p & A1 & A2 & A3) & (m' & p' & ps & B1 & B2 & B3) & D).
  eapply of_request_response; eauto; [eapply rp_single; eauto|eapply rt_element; eauto].
Qed.
Lemma exchange_func_inj x y : exchange_func x = exchange_func y -> x = y.
Proof. destruct x, y. unfold exchange_func. cbn. congruence. Qed.
Lemma exchange_classified root op x : exchanges root op x -> classified op.
Proof. intros (i & o & fs & qi & qo & R & _). left. eauto. Qed.
Lemma sane_exchange u x : quiet (ex_request x) -> quiet (ex_response x) -> sane_func u sane_type (exchange_func x).
Proof.
  intros A B. split; [apply quiet_type; auto|]. constructor; [|constructor]. split; [|apply quiet_type; auto].
  cbn. repeat constructor.
Qed.
Lemma transport_text u tns : ns_prefix tns <> Some (lit "transport") -> default_format_type u (lit "transport::Transport") tns = lit "transport::Transport".
Proof.
  intros N. unfold default_format_type. change (split_name (lit "transport::Transport")) with (Some (lit "transport"), lit ":Transport"). cbv zeta beta iota.
  destruct (ns_prefix tns) as [p|]; [destruct (str_eqb (lit "transport") p) eqn:E; [apply str_eqb_eq in E; subst; congruence|]|]; vm_compute; reflexivity.
Qed.
Lemma exchange_text u tns x : ns_prefix tns <> Some (lit "transport") ->
  func_tokens u (fun q => default_format_type u q tns) (format_name u) (exchange_func x) = exchange_tokens u (fun q => default_format_type u q tns) (format_name u) x.
Proof.
  intros N. unfold func_tokens, exchange_tokens, exchange_func. cbn [f_name f_params f_result f_doc map separated]. rewrite (transport_text u tns N).
  assert (E : default_format_type u (lit "T") tns = lit "T") by (vm_compute; reflexivity). rewrite E.
  change (rust u "<T: transport::Transport>(transport: &T, request: &") with
    (rust u "<T:" ++ lexemes u (lit "transport::Transport") ++ rust u ">(" ++ (word (lit "transport") ++ rust u ": &" ++ lexemes u (lit "T")) ++ rust u "," ++ word (lit "request") ++ rust u ": &").
  rewrite <- !app_assoc. reflexivity.
Qed.
Lemma schema_read u t s root : In (t, s) (embedded root) -> parse_schema u s [t; root] = parse_schema u s [].
Proof.
  intros I. apply schema_alone. unfold embedded in I. apply in_concat in I as (l & Il & I). apply in_map_iff in Il as (t' & <- & _).
  apply in_map_iff in I as (s' & [= _ <-] & I). unfold elems in I. apply filter_In in I as [_ I]. apply tagged_tag. auto.
Qed.
(** The items of an embedded schema. *)
Definition schema_items (u : uni) (ts : node * node) (its : list item) : Prop :=
  exists f, parse_schema u (snd ts) [] = Ok f /\ file_toks u f its.
Lemma concat_map_concat {A B} (f : A -> list B) (l : list (list A)) : concat (map (fun x => concat (map f x)) l) = concat (map f (concat l)).
Proof. induction l as [|x l IH]; auto. cbn [map concat]. rewrite map_app, concat_app, IH. auto. Qed.
Lemma service_outcome u roots root order : root_element roots root -> service root ->
  ns_prefix (target_namespace root) <> Some (lit "transport") ->
  (forall d, definitions_new root = Ok d -> Permutation (order d) (map snd (df_ports d))) ->
  exists s itss ops xs, wsdl_code u roots order = Ok s /\ Forall2 (schema_items u) (embedded root) itss /\
    Permutation ops (operations root) /\ Forall2 (exchanges root) ops xs /\
    lex u s = Some (concat (map (item_tokens u) (concat itss)) ++
                    concat (map (exchange_tokens u (fun q => default_format_type u q (target_namespace root)) (format_name u)) xs)).
Proof.
  intros R (Ac & Sc & Op) NT P. destruct (proj2 (proj1 (definitions_accepted root)) Ac) as (d & D). specialize (P d D).
  assert (X : exists s, wsdl_code u roots order = Ok s).
  { apply (code_succeeds u roots root d order R D P). split.
    - intros t s I. destruct (Sc t s I) as [O T]. destruct (schema_outcome u s O T) as (f & Hf & its & f' & x & _ & G & _). rewrite (schema_read u t s root I). eauto.
    - intros p op Ip Io. destruct (Op op) as (x & Ex & _); [unfold operations; apply in_concat; eexists; split; [apply in_map, Ip|auto]|]. eexists. apply exchange_op. eauto. }
  destruct X as (s & E). destruct (code_tokens u roots root d order R D P s E) as (fs & fss & Fs & Ff & G).
  assert (PP := proj1 (definitions_ports _ _ _ D P)).
  assert (Y : exists xss, fss = map (map exchange_func) xss /\ Forall2 (fun p xs => Forall2 (exchanges root) (elems "operation" p) xs) (map pt_node (order d)) xss /\
             Forall (Forall (sane_func u sane_type)) fss).
  { assert (In' : forall p, In p (map pt_node (order d)) -> In p (elems "portType" root)) by (intros p; apply (Permutation_in _ PP)).
    clear - Ff Op D In'. revert In'. induction Ff as [|p gs ps fss F _ IH]; intros In'; [exists []; repeat constructor|].
    destruct IH as (xss & -> & H1 & H2); [intros; apply In'; right; auto|].
    assert (Z : exists xs, gs = map exchange_func xs /\ Forall2 (exchanges root) (elems "operation" p) xs /\ Forall (sane_func u sane_type) gs).
    { assert (J : forall op, In op (elems "operation" p) -> In op (operations root)) by (intros op I; unfold operations; apply in_concat; eexists; split; [apply in_map, In'; left; reflexivity|auto]).
      clear - F Op J D. unfold port_funcs in F. revert J. induction F as [|op g l gs Fg _ IH]; intros J; [exists []; repeat constructor|].
      destruct IH as (xs & -> & H1 & H2); [intros; apply J; right; auto|]. destruct (Op op (J op (or_introl eq_refl))) as (x & Ex & Q1 & Q2).
      assert (g = exchange_func x) by (eapply (op_func_unique root d D op); eauto using exchange_op, exchange_classified). subst g.
      exists (x :: xs). split; [auto|]. split; constructor; auto. apply sane_exchange; auto. }
    destruct Z as (xs & -> & Z1 & Z2). exists (xs :: xss). split; [auto|]. split; constructor; auto. }
  destruct Y as (xss & -> & Y1 & Y2).
  assert (S : Forall (fun f => sane_ns (rf_target_ns f) /\ Forall sane (rf_types f)) fs).
  { assert (J : forall t s, In (t, s) (embedded root) -> (ok_schema s /\ tidy s) /\ parse_schema u s [t; root] = parse_schema u s []) by (intros; split; [apply (Sc t)|apply schema_read]; auto).
    clear - Fs J. revert J. induction Fs as [|[t s] f es fs E _ IH]; intros J; constructor; [|apply IH; intros; apply J; right; auto].
    destruct (J t s (or_introl eq_refl)) as [[O [T TN]] Eq]. rewrite Eq in E. destruct (schema_inv _ _ _ _ E) as (_ & _ & _ & En & _). split; [rewrite En; apply target_tidy; auto|].
    assert (Df := file_decent u s f O T E). unfold top_level in Df. apply Forall_app in Df as [Df _]. eapply Forall_impl; [apply (decent_sane anything)|exact Df]. }
  destruct (G S Y2) as (itss & Gi & L). exists s, itss, (concat (map (elems "operation") (map pt_node (order d)))), (concat xss).
  split; [auto|]. split.
  { assert (J : forall t s, In (t, s) (embedded root) -> parse_schema u s [t; root] = parse_schema u s []) by (intros; apply schema_read; auto).
    clear - Fs Gi J. revert itss Gi J. induction Fs as [|[t s] f es fs E _ IH]; intros itss Gi J; inversion Gi; subst; constructor; [|apply IH; auto; intros; apply J; right; auto].
    exists f. split; auto. cbn [snd]. rewrite <- (J t s (or_introl eq_refl)). auto. }
  split. { unfold operations. rewrite <- !flat_map_concat_map. apply Permutation_flat_map. auto. }
  split. { clear - Y1. induction Y1; cbn [map concat]; [constructor|apply Forall2_app; auto]. }
  rewrite L, !concat_map_concat. do 2 f_equal. rewrite <- concat_map. rewrite map_map. f_equal. apply map_ext. intros x. apply exchange_text. auto.
Qed.

(** ** Calling them *)
Definition orderly_schema (u : uni) (s : node) : Prop :=
  forall x, part x s -> orderly u s (ns_prefix (target_namespace s)) (ns_prefix (xsd_namespace s)) x.
Lemma own_default u q p l tns : qualified q p l -> p = None \/ p = ns_prefix tns -> default_format_type u q tns = sanitize u (pascal_name u l).
Proof.
  intros Q O. unfold default_format_type. rewrite (proj2 (split_name_iff q p l) Q). fold (pascal_name u l). cbv zeta.
  destruct O as [->| ->]; auto. destruct (ns_prefix tns) as [x|]; auto. rewrite str_eqb_refl. auto.
Qed.
Lemma offered_type u root itss q : Forall2 (schema_items u) (embedded root) itss ->
  (forall t s, In (t, s) (embedded root) -> ok_schema s /\ tidy s /\ orderly_schema u s) ->
  offered root (ns_prefix (target_namespace root)) q ->
  exists w, lexemes u (default_format_type u q (target_namespace root)) = [TWord w] /\ rust_ident w /\ w <> lit "T" /\
    In ([], [TWord w]) (concat (map (introduces []) (concat itss))).
Proof.
  intros F S (p & l & t & s & Q & O & I & Int & NT). destruct (S t s I) as (Ok_ & T & Or). destruct (Forall2_in_l _ _ _ _ F I) as (its & Ii & f & E & A). cbn [snd] in E.
  destruct (schema_inv _ _ _ _ E) as (_ & _ & _ & E1 & E2).
  assert (C : clear_name u (ns_prefix (rf_target_ns f)) (ns_prefix (rf_xsd_ns f)) l) by (rewrite E1, E2; eapply introduced_clear; eauto).
  assert (W := clear_own _ _ _ _ C). assert (LF : letter_first l) by apply C.
  rewrite (own_default u q p l _ Q O), (pascal_token u l LF). eexists. split; [reflexivity|].
  assert (Ql : qualified l None l) by (split; [auto|apply C]).
  destruct (format_type_own_ident u l None l (rf_xsd_ns f) (rf_target_ns f) Ql) as [Id Le]; [|auto| |].
  { destruct LF as (c & r & -> & L). exists c. split; [left; auto|left; auto]. }
  { destruct C as (_ & _ & B & _). intros [Ex J]. symmetry in Ex. destruct (B Ex) as [B1 _]. auto. }
  rewrite (own_text u _ _ l W) in Id, Le.
  split; [|split].
  - destruct Id as [Id|Id]; auto. exfalso. destruct LF as (c & r & -> & L). destruct (pascal_first u c r L) as (x & P). rewrite P in Id.
    assert (U : (65 <= to_ascii_uppercase c <= 90)%N).
    { unfold to_ascii_uppercase, is_ascii_lower. unfold letter, lower, upper in L. destruct ((97 <=? c)%N && (c <=? 122)%N) eqn:X; lia. }
    unfold sanitize in Id. destruct (_ || _) in Id; injection Id as Id _; [discriminate Id|]. rewrite Id in U. lia.
  - intros X. rewrite X in Le. apply NT. rewrite <- Le. reflexivity.
  - assert (J : In ([], SpecGen.ty u (fun q => format_type_name u q (rf_xsd_ns f) (rf_target_ns f)) l) (concat (map (introduces []) its))).
    { eapply present_introduced; [exact A|]. eapply introduced_present; eauto. apply T. }
    unfold SpecGen.ty in J. rewrite (own_text u _ _ l W), (pascal_token u l LF) in J.
    apply in_concat in J as (z & Iz & J). apply in_concat. exists z. split; auto. apply in_map_iff in Iz as (i & <- & Iz). apply in_map. apply in_concat. eauto.
Qed.
Lemma callable_ident u n : callable_name n -> rust_ident (format_name u n) /\ letters (format_name u n) = letters n.
Proof.
  intros (N & A & X & Y). destruct (format_name_ident u n n) as (Id & _ & Le); auto; [split; auto|]. split; auto.
  destruct Id as [Id|Id]; auto. exfalso. rewrite Id in Le. apply Y. rewrite <- Le. reflexivity.
Qed.
Lemma service_callable u root ops xs itss : Forall2 (schema_items u) (embedded root) itss -> Permutation ops (operations root) -> Forall2 (exchanges root) ops xs ->
  (forall t s, In (t, s) (embedded root) -> ok_schema s /\ tidy s /\ orderly_schema u s) ->
  (forall op x, In op (operations root) -> exchanges root op x ->
     callable_name (ex_name x) /\ offered root (ns_prefix (target_namespace root)) (ex_request x) /\ offered root (ns_prefix (target_namespace root)) (ex_response x)) ->
  (forall x, In x xs -> rust_ident (format_name u (ex_name x)) /\
     forall q, q = ex_request x \/ q = ex_response x -> exists w, lexemes u (default_format_type u q (target_namespace root)) = [TWord w] /\ rust_ident w /\ w <> lit "T" /\
       In ([], [TWord w]) (concat (map (introduces []) (concat itss)))) /\
  (NoDup (map (fun op => option_map letters (attribute op (lit "name"))) (operations root)) -> NoDup (map (fun x => format_name u (ex_name x)) xs)).
Proof.
  intros F P X S C. split.
  - intros x I. destruct (Forall2_in_r _ _ _ _ X I) as (op & Io & E). destruct (C op x (Permutation_in _ P Io) E) as (C1 & C2 & C3).
    split; [apply callable_ident; auto|]. intros q [->| ->]; eapply offered_type; eauto.
  - intros N. apply (Permutation_NoDup (Permutation_map _ (Permutation_sym P))) in N. apply (NoDup_map_inv (fun n => Some (letters n))). rewrite map_map.
    assert (Eq : map (fun x => Some (letters (format_name u (ex_name x)))) xs = map (fun op => option_map letters (attribute op (lit "name"))) ops); [|rewrite Eq; auto].
    assert (J : forall op x, In op ops -> exchanges root op x -> callable_name (ex_name x)) by (intros op x I E; apply (C op x (Permutation_in _ P I) E)).
    clear - X J. induction X as [|op x ops xs E X IH]; auto. cbn [map]. rewrite IH by (intros; eapply J; eauto; right; auto). f_equal.
    rewrite (proj2 (callable_ident u _ (J op x (or_introl eq_refl) E))). destruct E as (i & o & fs & qi & qo & _ & _ & _ & Hn & _). unfold has in Hn. rewrite Hn. auto.
Qed.

(** ** Several schemas *)
(** Where the names of a schema end up. *)
Definition lodged (schema : node) (ty : str -> list token) (ident : str -> str) (nss : list (list str)) (its : list item) : Prop :=
  (forall p n, In (p, n) (concat (map (introduces []) its)) -> In n (map ty (outsides schema ++ concat nss)) /\
     (p = [] -> In n (map ty (outsides schema))) /\ (p <> [] -> exists m r, p = m :: r /\ In m (module_names schema ident nss))) /\
  (forall p, In p (concat (map (modules []) its)) -> exists m r, p = m :: r /\ In m (module_names schema ident nss)) /\
  sub (concat (map (validated []) its)) (concat (map (introduces []) its)) /\ sub (concat (map (defaulted []) its)) (concat (map (introduces []) its)).
Lemma settled_lodged u tns xsd schema es its nss : Forall2 (settled schema) (declarations schema) es ->
  Forall2 (inside_names schema) (children schema) nss -> Forall (fun ns => NoDup (map (format_name u) ns)) nss ->
  all_items u tns (fun q => format_type_name u q xsd tns) (format_name u) (variant_name u tns) es its ->
  lodged schema (SpecGen.ty u (fun q => format_type_name u q xsd tns)) (format_name u) nss its.
Proof.
  intros S FI NI A. set (ty := SpecGen.ty u (fun q => format_type_name u q xsd tns)) in *.
  destruct (restrict _ (fun c => is_element c && negb (tagged "annotation" c) && negb (tagged "attributeGroup" c)) _ _ FI) as (ms & FM & SM). fold (declarations schema) in FM, SM.
  assert (Lm : List.length (declarations schema) = List.length ms) by (eapply SizeProofs.Forall2_same_length; eauto).
  assert (HI : forall dn, In dn (combine (declarations schema) ms) -> In (snd dn) nss /\ NoDup (map (format_name u) (snd dn))).
  { intros dn I. eapply sub_incl in I; [|exact SM]. destruct dn as [d n]. apply in_combine_r in I. rewrite Forall_forall in NI. auto. }
  assert (X : exists bs, its = concat bs /\ Forall2 (block u (fun q => format_type_name u q xsd tns) (format_name u) schema) (combine (declarations schema) ms) bs).
  { clear NI SM FI. revert S its A ms FM Lm HI. generalize (declarations schema). intros ds0 S. induction S as [|d e ds es Sd S IH]; intros its A ms FM Lm HI; inversion A as [|? ? a b A1 A2]; subst; inversion FM as [|? n ? ms' F1 F2]; subst; [exists []; split; [auto|constructor]|].
    destruct (IH b A2 ms' F2) as (bs & -> & Fb); [injection Lm; auto|intros; apply HI; right; auto|]. exists (a :: bs). split; auto. cbn. constructor; auto.
    eapply settled_block; eauto. apply (HI (d, n)). left. auto. }
  destruct X as (bs & -> & Fb).
  assert (Hd : forall dn m, In dn (combine (declarations schema) ms) -> In m (heads (format_name u) dn) -> In m (module_names schema (format_name u) nss)).
  { intros dn m I J. unfold module_names. apply in_concat. eexists. split; [apply in_map; eapply sub_incl; [exact SM|exact I]|exact J]. }
  assert (Ho : forall dn x, In dn (combine (declarations schema) ms) -> In x (outside_names schema (fst dn)) -> In x (outsides schema)).
  { intros [d n] x I J. unfold outsides. apply in_concat. exists (outside_names schema d). split; auto. apply in_map. apply in_combine_l in I. unfold declarations in I. apply filter_In in I. tauto. }
  assert (EI : forall (B : Type) (g : item -> list B), concat (map g (concat bs)) = concat (map (fun b => concat (map g b)) bs)) by (clear; intros B g; induction bs as [|b bs IH]; auto; cbn; rewrite map_app, concat_app, IH; auto).
  split; [|split].
  - intros p n I. rewrite EI in I. apply in_concat in I as (l & Il & I). apply in_map_iff in Il as (b & <- & Ib). destruct (Forall2_in_r _ _ _ _ Fb Ib) as (dn & Idn & o & J & P & So & Hj & Sj & _).
    eapply Permutation_in in I; [|exact P]. apply in_app_or in I as [I|I].
    + apply in_map_iff in I as (x & [= <- <-] & I). assert (Y : In x (outsides schema)) by (eapply Ho; eauto; eapply sub_incl; eauto).
      split; [apply in_map, in_or_app; auto|]. split; [intros _; apply in_map; auto|congruence].
    + destruct (Hj _ I) as (m & r & E & Im). cbn in E. split; [|split; [intros ->; discriminate|intros _; exists m, r; eauto]].
      rewrite map_app. apply in_or_app. right. assert (Y : In n (map ty (snd dn))) by (eapply sub_incl; [exact Sj|apply in_map_iff; exists (p, n); auto]).
      apply in_map_iff in Y as (x & <- & Y). apply in_map. apply in_concat. exists (snd dn). split; auto. apply HI; auto.
  - intros p I. rewrite EI in I. apply in_concat in I as (l & Il & I). apply in_map_iff in Il as (b & <- & Ib). destruct (Forall2_in_r _ _ _ _ Fb Ib) as (dn & Idn & o & J & _ & _ & _ & _ & Hm & _).
    destruct (Hm p I) as (m & r & E & Im). exists m, r. eauto.
  - rewrite !EI. clear - Fb. induction Fb as [|dn b dns bs (o & J & _ & _ & _ & _ & _ & _ & _ & H5 & H6) F [I1 I2]]; cbn; [split; apply sub_nil|]. split; apply sub_app; auto.
Qed.
Lemma schema_lodged u schema f its nss : ok_schema schema -> tidy schema -> parse_schema u schema [] = Ok f ->
  (forall x, part x schema -> orderly u schema (ns_prefix (rf_target_ns f)) (ns_prefix (rf_xsd_ns f)) x) ->
  Forall2 (inside_names schema) (children schema) nss -> Forall (fun ns => NoDup (map (format_name u) ns)) nss ->
  all_items u (rf_target_ns f) (fun q => format_type_name u q (rf_xsd_ns f) (rf_target_ns f)) (format_name u) (variant_name u (rf_target_ns f)) (rf_types f) its ->
  lodged schema (SpecGen.ty u (fun q => format_type_name u q (rf_xsd_ns f) (rf_target_ns f))) (format_name u) nss its.
Proof.
  intros O T H Or FI NI A.
  assert (GP : forall x, part x schema -> ScopeProofs.good u schema (rf_target_ns f) (rf_xsd_ns f) x) by (intros; apply ScopeProofs.good_parts; auto).
  destruct (ScopeProofs.file_top u schema (rf_target_ns f) (rf_xsd_ns f) schema f O GP H) as [Tp Lk].
  eapply settled_lodged; [|exact FI|exact NI|exact A]. destruct (schema_inv _ _ _ _ H) as (_ & H1 & _). assert (F := good_fine _ _ _ _ Or).
  assert (X : forall d, In d (declarations schema) -> forall e, In e (rf_types f) -> parse_node u d [schema] = Ok e -> settled schema d e).
  { intros d Id e Ie He. rewrite Forall_forall in Tp. eapply declared_settled; eauto. eapply declaration_like; eauto. }
  clear - H1 X. induction H1; constructor; [apply X; [left; auto|left; auto|auto]|apply IHForall2; intros; apply X; [right; auto|right; auto|auto]].
Qed.

(** Two lists of items whose names are apart. *)
Definition roomy (a b : list item) : Prop :=
  (forall n p, In ([], n) (concat (map (introduces []) a)) -> In (p, n) (concat (map (introduces []) b)) -> False) /\
  (forall n p, In (p, n) (concat (map (introduces []) a)) -> In ([], n) (concat (map (introduces []) b)) -> False) /\
  (forall m r p n q, In (m :: r, n) (concat (map (introduces []) a)) -> In (m :: q, p) (concat (map (introduces []) b)) -> False) /\
  forall p, In p (concat (map (modules []) a)) -> In p (concat (map (modules []) b)) -> False.
Definition supported (its : list item) : Prop :=
  sub (concat (map (validated []) its)) (concat (map (introduces []) its)) /\ sub (concat (map (defaulted []) its)) (concat (map (introduces []) its)).
Lemma distinct_join a b : distinct_types a -> distinct_types b -> supported a -> supported b -> roomy a b -> distinct_types (a ++ b) /\ supported (a ++ b).
Proof.
  unfold distinct_types, supported. rewrite !map_app, !concat_app. intros (A1 & A2 & A3 & _ & _ & A6 & A7) (B1 & B2 & B3 & _ & _ & B6 & B7) [SA TA] [SB TB] (R1 & R2 & R3 & R4).
  assert (N : NoDup (concat (map (introduces []) a) ++ concat (map (introduces []) b))).
  { apply nodup_join; auto. intros [[|m r] n] I J; eauto. }
  assert (S1 : sub (concat (map (validated []) a) ++ concat (map (validated []) b)) (concat (map (introduces []) a) ++ concat (map (introduces []) b))) by (apply sub_app; auto).
  assert (S2 : sub (concat (map (defaulted []) a) ++ concat (map (defaulted []) b)) (concat (map (introduces []) a) ++ concat (map (introduces []) b))) by (apply sub_app; auto).
  split; [|auto]. split; [auto|]. split; [|split; [apply nodup_join; auto|split; [eapply sub_nodup; eauto|split; [eapply sub_nodup; eauto|split]]]].
  - intros p r n I J. apply in_app_or in I as [I|I]; apply in_app_or in J as [J|J]; eauto; exfalso.
    + destruct p as [|m p]; [eapply R1; eauto|]. eapply R3; eauto.
    + destruct p as [|m p]; [eapply R2; eauto|]. eapply R3; eauto.
  - intros p n I. apply in_app_or in I as [I|I]; eauto.
  - intros p I. apply in_app_or in I as [I|I]; eauto.
Qed.
Lemma roomy_app a b c : roomy a b -> roomy a c -> roomy a (b ++ c).
Proof.
  unfold roomy. rewrite !map_app, !concat_app. intros (A1 & A2 & A3 & A4) (B1 & B2 & B3 & B4).
  split; [intros n p I J; apply in_app_or in J as [J|J]; eauto|]. split; [intros n p I J; apply in_app_or in J as [J|J]; eauto|].
  split; [intros m r p n q I J; apply in_app_or in J as [J|J]; eauto|intros p I J; apply in_app_or in J as [J|J]; eauto].
Qed.
Lemma lodged_roomy s ty ident nss a s' ty' nss' b : lodged s ty ident nss a -> lodged s' ty' ident nss' b ->
  Forall2 (inside_names s) (children s) nss -> Forall2 (inside_names s') (children s') nss' -> strangers ident (s, ty) (s', ty') -> roomy a b.
Proof.
  intros (A1 & A2 & _) (B1 & B2 & _) F F' St. destruct (St nss nss' F F') as (S1 & S2 & S3).
  split; [|split; [|split]].
  - intros n p I J. destruct (A1 _ _ I) as (_ & X & _), (B1 _ _ J) as (Y & _). specialize (X eq_refl). apply in_map_iff in X as (x & <- & X), Y as (y & E & Y). apply (S1 x y X Y). auto.
  - intros n p I J. destruct (B1 _ _ J) as (_ & X & _), (A1 _ _ I) as (Y & _). specialize (X eq_refl). apply in_map_iff in Y as (y & <- & Y), X as (x & E & X). apply (S2 y x Y X). auto.
  - intros m r p n q I J. destruct (A1 _ _ I) as (_ & _ & X), (B1 _ _ J) as (_ & _ & Y). destruct X as (m1 & r1 & [= <- <-] & X); [discriminate|]. destruct Y as (m2 & r2 & [= <- <-] & Y); [discriminate|]. eauto.
  - intros p I J. destruct (A2 _ I) as (m & r & -> & X), (B2 _ J) as (m2 & r2 & [= <- <-] & Y). eauto.
Qed.

Definition named_by (u : uni) (s : node) : node * (str -> list token) :=
  (s, SpecGen.ty u (fun q => format_type_name u q (xsd_namespace s) (target_namespace s))).
Lemma schemas_distinct u es itss : Forall2 (schema_items u) es itss ->
  (forall t s, In (t, s) es -> ok_schema s /\ tidy s /\ orderly_schema u s /\ separate_types s (snd (named_by u s)) (format_name u)) ->
  ForallOrdPairs (fun a b => strangers (format_name u) (named_by u (snd a)) (named_by u (snd b))) es ->
  distinct_types (concat itss).
Proof.
  intros F S P.
  enough (X : distinct_types (concat itss) /\ supported (concat itss)) by tauto.
  induction F as [|[t s] its es itss (f & E & A) F IH]; cbn [List.concat].
  - repeat split; cbn; try constructor; try apply sub_nil; try tauto.
  - inversion P as [|? ? P1 P2]; subst. destruct IH as [D1 D2]; [intros; eapply S; right; eauto|auto|]. cbn [snd] in *.
    destruct (S t s (or_introl eq_refl)) as (O & T & Or & Sep).
    destruct (schema_inv _ _ _ _ E) as (_ & _ & _ & E1 & E2). assert (Or' : forall x, part x s -> orderly u s (ns_prefix (rf_target_ns f)) (ns_prefix (rf_xsd_ns f)) x) by (rewrite E1, E2; exact Or).
    assert (Sep' := Sep). cbn [named_by snd] in Sep'. rewrite <- E1, <- E2 in Sep'.
    assert (Da := schema_distinct u s f its O T E Or' Sep' A).
    destruct Sep' as (_ & nss & FI & NI & _). assert (NI' : Forall (fun ns => NoDup (map (format_name u) ns)) nss) by (eapply Forall_impl; [|exact NI]; cbn; tauto).
    assert (La := schema_lodged u s f its nss O T E Or' FI NI' A). assert (Sa : supported its) by (destruct La as (_ & _ & La); exact La).
    apply distinct_join; auto. clear D1 D2 Da Sa P P2 Sep NI NI'. rewrite E1, E2 in La.
    assert (S' : forall t s, In (t, s) es -> ok_schema s /\ tidy s /\ orderly_schema u s /\ separate_types s (snd (named_by u s)) (format_name u)) by (intros; eapply S; right; eauto). clear S.
    induction F as [|[t' s'] its' es itss (f' & E' & A') F IH]; [split; [|split; [|split]]; cbn; tauto|]. cbn [List.concat]. inversion P1; subst. apply roomy_app; [|apply IH; auto; intros; eapply S'; right; eauto].
    destruct (S' t' s' (or_introl eq_refl)) as (O' & T' & Or2 & Sep2). cbn [snd] in *. destruct (schema_inv _ _ _ _ E') as (_ & _ & _ & E3 & E4).
    destruct Sep2 as (_ & nss' & FI' & NI' & _). assert (NI2 : Forall (fun ns => NoDup (map (format_name u) ns)) nss') by (eapply Forall_impl; [|exact NI']; cbn; tauto).
    assert (Lb := schema_lodged u s' f' its' nss' O' T' E'). rewrite E3, E4 in Lb. specialize (Lb Or2 FI' NI2). unfold file_toks in A'. rewrite E3, E4 in A'. specialize (Lb A').
    eapply lodged_roomy; eauto.
Qed.
