(** Values of simple types: properties. *)
From Coq Require Import Arith NArith ZArith Bool Ascii String List Permutation Lia.
From Verif Require Import Str SpecLex SpecNames SpecBuiltin Serde SpecSerde SerdeProofs Ints Prim Xml Names NamesProofs Entity Parser SpecSchema SpecLink Link Gen SpecRust SpecGen SpecCheck SpecDoc SpecScope SpecTraits SpecSize SpecDistinct SpecFit SpecValue DistinctProofs2 ValueProofs ValueLib PropsParser PropsLink PropsGen PropsDoc PropsScope PropsTraits PropsSize PropsDistinct PropsMembers PropsFit PropsWrite.
From Verif Require ParserProofs GenProofs ParserProofs.
Import ListNotations.
Local Open Scope string_scope.
Local Open Scope list_scope.
Local Open Scope N_scope.
Notation concat := List.concat.

(** C70: take a simple type of a document under the conditions of C66, and library types that
    read and write the built-in types it is made of.  If the type is regular, every text of the
    type is read by the generated type, in one way, passes its checks, and what is written for
    it is a text of the same value (of a union: a text of the type), unless a pattern restricts
    how values are written.  For built-in types and their restrictions by bounds and lengths,
    nothing else is read and passes the checks. *)
Theorem C70_values : forall (A : Type) lexical order size pattern digits lib_read lib_show lib_cmp lib_len,
  (forall a b : A, forall c, order a b = Some c -> lib_cmp a b = Some c) ->
  forall u roots schema f its, document roots schema -> ok_schema schema -> tidy schema -> parse u roots = Ok f ->
  (forall x, part x schema -> orderly u schema (ns_prefix (rf_target_ns f)) (ns_prefix (rf_xsd_ns f)) x) ->
  separate_types schema (type_name_of u f) (format_name u) -> file_items u f (rf_types f) its ->
  let own := ns_prefix (rf_target_ns f) in let xsd := ns_prefix (rf_xsd_ns f) in
  let handles := handles A lexical order size pattern digits u lib_read lib_show lib_cmp lib_len (concat (map (placed []) its)) in
  forall T path, regular_simple A lexical order size pattern digits u lib_read lib_show T ->
    (forall q, refers schema own xsd q T -> handles path (type_name_of u f q) T) /\
    (forall l d t, SpecFit.declared schema "element" l d -> absent d "ref" -> absent d "type" -> tagged_children ["simpleType"; "complexType"] d = [t] -> tag "simpleType" t ->
       described schema own xsd t T -> handles path (type_name_of u f l) T).
Proof. exact document_values. Qed.
Print Assumptions C70_values.

(** ** The text and integer types *)
(** The library types read and write these built-in types; the fixed-width integers read
    nothing else. *)
Theorem C70_complete : forall texts l, In l basics -> complete atom (basic_lexical texts) rust_read rust_show (lit l).
Proof. exact basic_complete. Qed.
Print Assumptions C70_complete.
Theorem C70_exact : forall texts l, In l ["long"; "int"; "short"; "byte"] -> exact atom (basic_lexical texts) rust_read (lit l).
Proof. exact exact_integer. Qed.
Print Assumptions C70_exact.
(** With them, C70 has no premise about the library. *)
Theorem C70_basic : forall texts text_cmp pattern digits u roots schema f its, document roots schema -> ok_schema schema -> tidy schema -> parse u roots = Ok f ->
  (forall x, part x schema -> orderly u schema (ns_prefix (rf_target_ns f)) (ns_prefix (rf_xsd_ns f)) x) ->
  separate_types schema (type_name_of u f) (format_name u) -> file_items u f (rf_types f) its ->
  forall T path q, regular_simple atom (basic_lexical texts) basic_order basic_size pattern digits u rust_read rust_show T ->
    refers schema (ns_prefix (rf_target_ns f)) (ns_prefix (rf_xsd_ns f)) q T ->
    handles atom (basic_lexical texts) basic_order basic_size pattern digits u rust_read rust_show (rust_cmp text_cmp) rust_len (concat (map (placed []) its)) path (type_name_of u f q) T.
Proof.
  intros texts text_cmp pattern digits u roots schema f its Do O T H Or Sep It Ty path q Rg Re. exact (proj1 (C70_values _ _ _ _ _ _ _ _ _ _ (basic_cmp text_cmp) u roots schema f its Do O T H Or Sep It Ty path Rg) q Re).
Qed.
Print Assumptions C70_basic.

(** ** The macros *)
(** [reads] and [shown] say what the macros of xsd-macro-utils do, as modelled in Serde.v: if
    functions read the component types, the functions of the macros read the generated type. *)
Section Macros.
Context (A : Type) (u : uni) (P : list (list str * item)) (lib_read : string -> str -> option A) (lib_show : string -> A -> str).
Definition result {B} (r : res B) : option B := match r with Ok x => Some x | _ => None end.
Definition implements (path : list str) (t : list token) (f : str -> res (rval A)) : Prop :=
  forall s, f s <> Panic /\ from_str A u P lib_read path t s (result (f s)).
Theorem C70_tuple : forall path t p d a m c f, SpecFit.names u P path t p (ITuple d a m c) -> derives a "UtilsTupleIo" -> (forall c', c <> vector u c') ->
  implements p c f -> implements path t (fun s => rmap (RNew A) (tuple_simple_from_str f s)).
Proof.
  intros path t p d a m c f N D V F s. destruct (F s) as [Np Fs]. unfold tuple_simple_from_str. split; [destruct (f s); cbn; congruence|].
  replace (result (rmap (RNew A) (bind (f s) (fun a => Ok a)))) with (option_map (RNew A) (result (f s))) by (destruct (f s); reflexivity). eapply from_tuple; eauto.
Qed.
Theorem C70_vector : forall path t p d a m c f, SpecFit.names u P path t p (ITuple d a m (vector u c)) -> derives a "UtilsTupleIo" ->
  implements p c f -> implements path t (fun s => rmap (fun l => RNew A (RVec A l)) (tuple_vec_from_str f s)).
Proof.
  intros path t p d a m c f N D F s. unfold tuple_vec_from_str.
  assert (X : forall ts, filter_map_ok f ts = Ok (found (map (fun x => result (f x)) ts))).
  { induction ts as [|x ts IH]; auto. cbn [filter_map_ok]. destruct (F x) as [Np _]. destruct (f x) as [v| |] eqn:E; try congruence; rewrite IH; cbn [bind map]; unfold found; cbn [map List.concat]; rewrite E; reflexivity. }
  rewrite X. split; [discriminate|]. cbn [rmap bind result]. eapply from_vector; eauto; [apply tokens_total|]. induction (split_whitespace s) as [|x ts IH]; constructor; auto. apply F.
Qed.
Theorem C70_vector_shown : forall l, tuple_vec_display (shown A lib_show) l = shown A lib_show (RVec A l).
Proof.
  assert (G : forall l v, v ++ flat_map (fun x => lit " " ++ x) l = separated [32] (v :: l)).
  { induction l as [|w l IH]; intros v; [apply app_nil_r|]. cbn [flat_map]. change (separated [32] (v :: w :: l)) with (v ++ [32] ++ separated [32] (w :: l)). rewrite <- IH. reflexivity. }
  intros [|v l]; auto. change (shown A lib_show (RVec A (v :: l))) with (separated [32] (shown A lib_show v :: map (shown A lib_show) l)). rewrite <- G. cbn [tuple_vec_display]. f_equal.
  induction l as [|w l IH]; auto. cbn [flat_map map]. rewrite IH. reflexivity.
Qed.
Theorem C70_union : forall path t p d a m ws unknown ms s, unshadowed P -> SpecFit.names u P path t p (IEnum d a m (ws ++ [unknown])) -> derives a "UtilsUnionSerDe" -> va_name unknown = lit "__Unknown__" ->
  Forall2 (fun w k => va_name w <> lit "__Unknown__" /\ exists c, va_type w = Some c /\ implements p c (m_parse k)) ws ms ->
  match union_parse 0 ms s with
  | Ok (Known _ v) => reads A u P lib_read path t s (RCase A v)
  | Ok (Unknown _) => forall v, ~ reads A u P lib_read path t s v
  | _ => False
  end.
Proof.
  intros path t p d a m ws unknown ms s Un N D Eu F.
  assert (G : forall ws2 ms2 i pre, Forall2 (fun w k => va_name w <> lit "__Unknown__" /\ exists c, va_type w = Some c /\ implements p c (m_parse k)) ws2 ms2 -> ws = pre ++ ws2 ->
    (forall w, In w pre -> exists c, va_type w = Some c /\ from_str A u P lib_read p c s None) ->
    match union_parse i ms2 s with
    | Ok (Known _ v) => reads A u P lib_read path t s (RCase A v)
    | Ok (Unknown _) => forall w, In w ws -> exists c, va_type w = Some c /\ from_str A u P lib_read p c s None
    | _ => False
    end).
  { intros ws2 ms2 i pre F2. revert i pre. induction F2 as [|w k ws2 ms2 (Nw & c & Tw & Iw) F2 IH]; intros i pre Ew Hp; cbn [union_parse].
    - rewrite app_nil_r in Ew. subst pre. auto.
    - destruct (Iw s) as [Np Fs]. destruct (m_parse k s) as [v| |] eqn:E; [| |congruence]; cbn [result] in Fs.
      + eapply (reads_union A u P lib_read path t p d a m _ pre w (ws2 ++ [unknown])); eauto. rewrite Ew, <- app_assoc. reflexivity.
      + apply (IH (S i) (pre ++ [w])); [rewrite <- app_assoc; auto|]. intros w' I. apply in_app_or in I as [I|[<-|[]]]; eauto. }
  specialize (G ws ms 0%nat [] F eq_refl ltac:(intros ? [])). destruct (union_parse 0 ms s) as [[i v|]| |]; auto.
  intros v Rv. destruct Rv as [path t1 s a1 I1 R1|path t1 p1 d1 m1 t1' s v1 N1 Rd1|path t1 p1 d1 a1 m1 c1 s v1 N1 D1 F1|path t1 p1 d1 a1 m1 vs1 pre1 w1 post1 s c1 v1 N1 D1 E1 Np1 Nw1 Tw1 F1|path t1 p1 d1 a1 m1 vs1 pre1 w1 post1 s N1 D1 Nd1 E1 Np1 Tw1 Vw1];
    [destruct (library_free u P Un _ _ _ _ I1 N)|..]; destruct (names_same _ _ _ _ _ _ _ _ N N1) as [Ep Y]; try discriminate Y; injection Y as _ <- _ Ev; [|contradiction].
  subst p1. assert (I : In w1 (ws ++ [unknown])) by (rewrite Ev, E1; apply in_or_app; right; left; auto). apply in_app_or in I as [I|[<-|[]]]; [|contradiction].
  destruct (G w1 I) as (c & Tc & Fc). assert (c = c1) by congruence. subst c. assert (X := from_str_unique A lib_read u P Un _ _ _ _ Fc _ F1). discriminate X.
Qed.
End Macros.
Print Assumptions C70_tuple.
Print Assumptions C70_vector.
Print Assumptions C70_vector_shown.
Print Assumptions C70_union.

(** ** A document *)
Notation tt := (Some (lit "tt")).
Notation xs := (Some (lit "xs")).
Definition union_type (nm ms : string) : node := el "simpleType" [("name", nm)] [el "union" [("memberTypes", ms)] []].
Lemma list_type_ok nm it : ok GlobalSimple (list_type nm it).
Proof. eapply ok_global_simple; [t1|t1|exists [], []; repeat split; try discriminate; constructor|]. right. left. apply ok_list_typed; t1. Qed.
Lemma union_type_ok nm ms : ok GlobalSimple (union_type nm ms).
Proof. eapply ok_global_simple; [t1|t1|exists [], []; repeat split; try discriminate; constructor|]. do 2 right. apply ok_union; [t1|constructor]. Qed.
Ltac simple_ok := do 2 right; left; first [apply list_type_ok|apply union_type_ok|apply restricted_ok; facets].
Ltac simples := conditions; split; [reflexivity|]; cbn [sch children]; repeat (constructor; [simple_ok|]); try apply Forall_nil.
Definition measures : node := sch
  [ restricted "Percent" "xs:int" [facet_node "minInclusive" "0"; facet_node "maxInclusive" "100"];
    list_type "Levels" "tt:Percent";
    restricted "Colour" "xs:string" [facet_node "enumeration" "red"; facet_node "enumeration" "blue"];
    restricted "Label" "xs:token" [facet_node "maxLength" "5"];
    union_type "Amount" "xs:int tt:Label";
    el "element" [("name", "Mark")] [anon_simple "xs:short" [facet_node "minInclusive" "1"]] ].
Example C70_ex1 : document [measures] measures /\ ok_schema measures /\ tidy measures /\ not_self_derived measures /\
  (forall x, part x measures -> orderly u2 measures tt xs x).
Proof.
  apply with_conditions; [|apply orderly_check; vm_compute; reflexivity]. unfold measures. simples.
  constructor; [|constructor]. do 3 right. left. apply ok_global_element; [t1|t1|]. constructor; [|constructor]. do 2 right. left. apply anon_enum_ok. facets.
Qed.
Ltac only_here := exists [], []; split; [reflexivity|]; split; [reflexivity|]; split; [discriminate|]; split; apply Forall_nil.
Ltac refers_builtin b := apply (re_builtin _ _ _ _ (lit b)); [apply split_name_iff; reflexivity|apply builtinb_iff; reflexivity].
Ltac facets_read := cbn [tagged_children filter]; repeat (apply Forall2_cons; [constructor; reflexivity|]); apply Forall2_nil.
Ltac refers_declared tac := eapply re_declared; [apply own_local_iff; reflexivity|split; [tac|split; reflexivity]|].
Ltac restricts tac := eapply de_restriction; [only_here|reflexivity|reflexivity|tac|facets_read].
Definition percent : stype := TRestriction (TBuiltin (lit "int")) [FMinInclusive (lit "0"); FMaxInclusive (lit "100")].
Definition label : stype := TRestriction (TBuiltin (lit "token")) [FMaxLength (lit "5")].
Lemma percent_refers : refers measures tt xs (lit "tt:Percent") percent.
Proof. refers_declared ltac:(left; reflexivity). restricts ltac:(refers_builtin "int"). Qed.
Example C70_ex2 : refers measures tt xs (lit "tt:Levels") (TList true percent) /\
  refers measures tt xs (lit "tt:Colour") (TRestriction (TBuiltin (lit "string")) [FEnumeration (lit "red"); FEnumeration (lit "blue")]) /\
  refers measures tt xs (lit "tt:Amount") (TUnion [TBuiltin (lit "int"); label]).
Proof.
  split; [|split].
  - refers_declared ltac:(right; left; reflexivity). eapply de_list; [only_here|reflexivity|reflexivity|apply percent_refers].
  - refers_declared ltac:(do 2 right; left; reflexivity). restricts ltac:(refers_builtin "string").
  - refers_declared ltac:(do 4 right; left; reflexivity). eapply (de_union _ _ _ _ _ [lit "xs:int"; lit "tt:Label"] [_; _] []); [only_here|reflexivity|apply (ParserProofs.blank_tokens_ok (lit "xs:int tt:Label"))| |constructor].
    constructor; [refers_builtin "int"|]. constructor; [|constructor]. refers_declared ltac:(do 3 right; left; reflexivity). restricts ltac:(refers_builtin "token").
Qed.
Section Basic.
Context (texts : str -> str -> Prop) (pattern : str -> str -> Prop) (digits : facet_type -> atom -> Prop) (u : uni).
Notation regular_simple := (regular_simple atom (basic_lexical texts) basic_order basic_size pattern digits u rust_read rust_show).
Ltac is_basic b := apply (C70_complete texts b); cbn; tauto.
Lemma unlisted fs : enumerations fs = [] -> ~ enumerated u fs.
Proof. intros E [X _]. auto. Qed.
Example C70_ex3 : regular_simple (TList true percent) /\
  regular_simple (TRestriction (TBuiltin (lit "string")) [FEnumeration (lit "red"); FEnumeration (lit "blue")]) /\
  regular_simple (TUnion [TBuiltin (lit "int"); label]).
Proof.
  assert (Pc : regular_simple percent) by (right; split; [apply unlisted; reflexivity|split; [is_basic "int"|split; [exact I|intros _; eexists; reflexivity]]]).
  assert (La : regular_simple label) by (right; split; [apply unlisted; reflexivity|split; [is_basic "token"|split; [exact I|intros _; eexists; reflexivity]]]).
  split; [|split].
  - split; [exact Pc|]. split; [apply unlisted; reflexivity|]. split; [exact I|discriminate].
  - left. split; [split; [discriminate|]|apply one_text_text; vm_compute; tauto]. intros v [<-|[<-|[]]]; (split; [discriminate|]); intros c J; repeat (destruct J as [<-|J]; [left; reflexivity|]); destruct J.
  - split; [is_basic "int"|]. split; [exact I|]. split; [intros _; apply (C70_exact texts "int"); cbn; tauto|]. split; [exact La|]. split; [apply unlisted; reflexivity|]. split; [congruence|exact I].
Qed.
End Basic.

(** ** What the code does with the texts of a document *)
Definition all_texts (_ _ : str) : Prop := True.
Section Told.
Context (text_cmp : str -> str -> option comparison) (pattern : str -> str -> Prop) (digits : facet_type -> atom -> Prop) (u : uni).
Definition means : stype -> str -> value atom -> Prop := denotes atom (basic_lexical all_texts) basic_order basic_size pattern digits.
Definition read_as (P : list (list str * item)) : list token -> str -> rval atom -> Prop := reads atom u P rust_read [].
Definition accepted (P : list (list str * item)) : list token -> rval atom -> Prop := accepts atom u P rust_read (rust_cmp text_cmp) rust_len [].
Definition written_as : rval atom -> str := shown atom rust_show.
(** A document under the conditions of C70, a simple type in it, and a claim about its code. *)
Definition told (n : node) (q : string) (T : stype) (Claim : list (list str * item) -> list token -> Prop) : Prop :=
  document [n] n /\ ok_schema n /\ tidy n /\ not_self_derived n /\ (forall x, part x n -> orderly u n tt xs x) /\
  exists f its, parse u [n] = Ok f /\ ns_prefix (rf_target_ns f) = tt /\ ns_prefix (rf_xsd_ns f) = xs /\
    separate_types n (type_name_of u f) (format_name u) /\ file_items u f (rf_types f) its /\
    refers n tt xs (lit q) T /\ Claim (concat (map (placed []) its)) (type_name_of u f (lit q)).
End Told.
Lemma u32_is v n : u32_value v = Ok n -> u32_text v n.
Proof. intros E. assert (X := GenProofs.u32_value_ok v). rewrite E in X. auto. Qed.
Ltac u32_known := apply u32_is; reflexivity.
Ltac facet_items := cbn [map]; repeat (apply Forall2_cons; [first [eapply fc_max_length; u32_known|eapply fc_min_length; [u32_known|discriminate]|constructor]|]); apply Forall2_nil.
Ltac items_here := cbn [rf_types]; repeat (apply all_cons; [first [eapply items_tuple; [apply all_nil|facet_items]|eapply items_enum; apply all_nil]|]); apply all_nil.
Lemma tell_ok u n q T (C : list (list str * item) -> list token -> Prop) f its : document [n] n /\ ok_schema n /\ tidy n /\ not_self_derived n -> (forall x, part x n -> orderly u n tt xs x) ->
  parse u [n] = Ok f -> ns_prefix (rf_target_ns f) = tt -> ns_prefix (rf_xsd_ns f) = xs -> separate_types n (type_name_of u f) (format_name u) -> file_items u f (rf_types f) its ->
  refers n tt xs (lit q) T -> (forall P t, P = concat (map (placed []) its) -> t = type_name_of u f (lit q) -> C P t) -> told u n q T C.
Proof. intros (A & B & D & E) O H T1 T2 S I R K. repeat (split; auto). exists f, its. repeat (split; auto). Qed.
Ltac tell n := eapply tell_ok; [once (unfold n; simples)|apply orderly_check; vm_compute; reflexivity|vm_compute; reflexivity|reflexivity|reflexivity|
  apply (separate_types_check _ _ _ 3); vm_compute; reflexivity|once items_here| |
  let P := fresh "P" in let t := fresh "t" in let E1 := fresh in let E2 := fresh in intros P t E1 E2; vm_compute in E1, E2; subst P t].
(** Texts of integers. *)
Lemma int_text s a : basic_lexical all_texts (lit "int") s a -> exists z, a = ANumber z /\ parse_signed (-2147483648) 2147483647 s = Ok z.
Proof.
  intros L. destruct a as [z|t].
  - destruct L as (lo & hi & I & X & R). assert (J : In (lit "int", SInt (Some (-2147483648)%Z) (Some 2147483647%Z)) xsd_builtins) by (vm_compute; tauto).
    assert (E := one_space _ _ _ I J). injection E as -> ->. exists z. split; auto. apply parse_signed_iff. split; auto.
  - destruct L as (I & _). assert (J : In (lit "int", SInt (Some (-2147483648)%Z) (Some 2147483647%Z)) xsd_builtins) by (vm_compute; tauto). assert (E := one_space _ _ _ I J). discriminate.
Qed.
Lemma text_int s z : parse_signed (-2147483648) 2147483647 s = Ok z -> basic_lexical all_texts (lit "int") s (ANumber z).
Proof. intros E. apply parse_signed_iff in E as [X R]. exists (Some (-2147483648)%Z), (Some 2147483647%Z). split; [vm_compute; tauto|]. split; auto. Qed.

(** What the code does is read off its items. *)
Ltac lone := let p := fresh in let m := fresh in let a := fresh in let b := fresh in let I := fresh in let J := fresh in
  intros p m a b I J; cbn [In] in I, J; repeat (destruct I as [I|I]; [try discriminate I|]); try (destruct I; fail); injection I as <- <- <-;
  repeat (destruct J as [J|J]; [first [discriminate J|injection J as <-; reflexivity]|]); destruct J.
Ltac derived_tuple := eexists; split; [left; reflexivity|cbn; tauto].
Ltac not_vector := let c := fresh in let X := fresh in intros c X; vm_compute in X; discriminate X.
Section Steps.
Context (A : Type) (rd : string -> str -> option A) (u : uni) (P : list (list str * item)).
Notation from_str := (from_str A u P rd).
Lemma library_some path b s a : In b library_types -> rd b s = Some a -> from_str path (rust u b) s (Some (RLib A b a)).
Proof. intros I E. change (Some (RLib A b a)) with (option_map (RLib A b) (Some a)). rewrite <- E. apply from_library. auto. Qed.
Lemma library_none path b s : In b library_types -> rd b s = None -> from_str path (rust u b) s None.
Proof. intros I E. change (@None (rval A)) with (option_map (RLib A b) None). rewrite <- E. apply from_library. auto. Qed.
Lemma tuple_some path t p d a m c s v : SpecFit.names u P path t p (ITuple d a m c) -> derives a "UtilsTupleIo" -> (forall c', c <> vector u c') -> from_str p c s (Some v) -> from_str path t s (Some (RNew A v)).
Proof. intros N D V F. apply (from_tuple A u P rd path t p d a m c s (Some v)); auto. Qed.
Lemma tuple_checked cmp len path t p d a m c v ks : unshadowed P -> (forall p m ks ks', In (p, IValidate m ks) P -> In (p, IValidate m ks') P -> ks = ks') -> SpecFit.names u P path t p (ITuple d a m c) -> In (p, IValidate m ks) P ->
  accepts A u P rd cmp len path t (RNew A v) -> run_checks (rval A) (value_read A rd v) (value_cmp A cmp) (value_len A len) ks v = Accepted.
Proof.
  intros Un Uv N V Ac. remember (RNew A v) as w eqn:Ew. destruct Ac as [path t1 w I|path t1 p1 d1 m1 t1' w N1 Ac|path t1 p1 d1 a1 m1 c1 ks1 w N1 V1 B1 R1|path t1 p1 d1 a1 m1 vs1 w N1 V1];
    [destruct (library_free u P Un _ _ _ _ I N)|..]; destruct (names_same _ _ _ _ _ _ _ _ N N1) as [Ep Y]; try discriminate Y. injection Y as _ _ <- _. subst p1. injection Ew as <-. rewrite (Uv _ _ _ _ V V1). auto.
Qed.
Lemma enum_read path t p d a m vs s v : unshadowed P -> SpecFit.names u P path t p (IEnum d a m vs) -> ~ derives a "UtilsUnionSerDe" -> reads A u P rd path t s v ->
  exists w, In w vs /\ va_type w = None /\ variant_text w s.
Proof.
  intros Un N Nd Rv. destruct Rv as [path t1 s a1 I1 R1|path t1 p1 d1 m1 t1' s v1 N1 Rd1|path t1 p1 d1 a1 m1 c1 s v1 N1 D1 F1|path t1 p1 d1 a1 m1 vs1 pre1 w1 post1 s c1 v1 N1 D1 E1 Np1 Nw1 Tw1 F1|path t1 p1 d1 a1 m1 vs1 pre1 w1 post1 s N1 D1 Nd1 E1 Np1 Tw1 Vw1];
    [destruct (library_free u P Un _ _ _ _ I1 N)|..]; destruct (names_same _ _ _ _ _ _ _ _ N N1) as [Ep Y]; try discriminate Y; injection Y as _ <- _ ->; [contradiction|].
  exists w1. split; [rewrite E1; apply in_or_app; right; left; auto|auto].
Qed.
End Steps.
Ltac is_library b := idtac; lazymatch goal with
  | |- from_str ?A ?u ?P ?rd ?p ?x ?s None => change (from_str A u P rd p (rust u b) s None); apply library_none; [cbn; tauto|reflexivity]
  | |- from_str ?A ?u ?P ?rd ?p ?x ?s ?r => change (from_str A u P rd p (rust u b) s r); apply library_some; [cbn; tauto|reflexivity] end.
Ltac tuple_of tac := eapply tuple_some; [names_item|derived_tuple|not_vector|tac].
Ltac read_tuple tac := eapply reads_tuple; [names_item|derived_tuple|tac].

(** "5  07" is read as a list of percentages and written "5 7"; "blue" is read as a colour;
    "-3" is an amount, read as a number. *)
Example C70_ex4 : told u2 measures "tt:Levels" (TList true percent) (fun P t => exists v, read_as u2 P t (lit "5  07") v /\ written_as v = lit "5 7") /\
  told u2 measures "tt:Colour" (TRestriction (TBuiltin (lit "string")) [FEnumeration (lit "red"); FEnumeration (lit "blue")]) (fun P t => read_as u2 P t (lit "blue") (RUnit atom (lit "blue"))) /\
  told u2 measures "tt:Amount" (TUnion [TBuiltin (lit "int"); label]) (fun P t => read_as u2 P t (lit "-3") (RCase atom (RLib atom "i32" (ANumber (-3))))).
Proof.
  destruct C70_ex1 as (X1 & X2 & X3 & X4 & X5). destruct C70_ex2 as (Y1 & Y2 & Y3).
  split; [|split]; (eapply tell_ok; [auto|auto|vm_compute; reflexivity|reflexivity|reflexivity|apply (separate_types_check _ _ _ 3); vm_compute; reflexivity|once items_here|auto|intros P t E1 E2; vm_compute in E1, E2; subst P t]).
  - exists (RNew atom (RVec atom [RNew atom (RLib atom "i32" (ANumber 5)); RNew atom (RLib atom "i32" (ANumber 7))])). split; [|reflexivity].
    read_tuple idtac. eapply (from_vector _ _ _ _ _ _ _ _ _ _ (rust u2 "Percent") _ _ [Some (RNew atom (RLib atom "i32" (ANumber 5))); Some (RNew atom (RLib atom "i32" (ANumber 7)))]); [names_item|derived_tuple|apply (tokens_total (lit "5  07"))|].
    constructor; [tuple_of ltac:(is_library "i32")|]. constructor; [tuple_of ltac:(is_library "i32")|constructor].
  - eapply (reads_unit _ _ _ _ _ _ _ _ _ _ _ [_]); [names_item|eexists; split; [left; reflexivity|cbn; tauto]| |reflexivity| |reflexivity|].
    + intros (ds & I & J); cbn [In] in I; destruct I as [I|[I|[]]]; [|discriminate I]; injection I as <-; cbn in J; repeat (destruct J as [J|J]; [discriminate J|]); destruct J.
    + intros w [<-|[]] [(l & [Il|[]] & Ir)|[N E]]; [injection Il as <-; vm_compute in Ir; repeat (destruct Ir as [Ir|Ir]; [discriminate Ir|]); destruct Ir|vm_compute in E; discriminate E].
    + left. eexists. split; [left; reflexivity|vm_compute; tauto].
  - eapply (reads_union _ _ _ _ _ _ _ _ _ _ _ []); [names_item|eexists; split; [left; reflexivity|cbn; tauto]|reflexivity|intros ? []|discriminate|reflexivity|is_library "i32"].
Qed.

(** Length is checked in bytes: a valid text is rejected. *)
Definition letter : node := sch [restricted "Letter" "xs:string" [facet_node "maxLength" "1"]].
Theorem C70_length_refuted : forall text_cmp pattern digits u, let T := TRestriction (TBuiltin (lit "string")) [FMaxLength (lit "1")] in
  told u letter "tt:Letter" T (fun P t => exists s x, means pattern digits T s x /\ exists v, read_as u P t s v /\ ~ accepted text_cmp u P t v).
Proof.
  intros text_cmp pattern digits u T. tell letter.
  - refers_declared ltac:(left; reflexivity). restricts ltac:(refers_builtin "string").
  - exists [233], (Atom atom (AText [233])). split.
    + split; [eexists; split; [|reflexivity]; split; [vm_compute; tauto|split; [exact I|reflexivity]]|]. split; [|left; reflexivity]. intros f [<-|[]]. exists 1. split; [apply ParserProofs.count_text_iff; reflexivity|vm_compute; discriminate].
    + exists (RNew atom (RLib atom "String" (AText [233]))). split.
      * read_tuple ltac:(tuple_of ltac:(is_library "String")).
      * intros A. eapply tuple_checked in A; [|apply unshadowed_check; vm_compute; reflexivity|lone|names_item|right; left; reflexivity]. vm_compute in A. discriminate A.
Qed.
Print Assumptions C70_length_refuted.

(** An enumeration is read by its text: of two texts of a value only the listed one is read. *)
Definition steps : node := sch [restricted "Step" "xs:int" [facet_node "enumeration" "1"; facet_node "enumeration" "2"]].
Theorem C70_enumeration_refuted : forall pattern digits u, let T := TRestriction (TBuiltin (lit "int")) [FEnumeration (lit "1"); FEnumeration (lit "2")] in
  told u steps "tt:Step" T (fun P t => exists s x, means pattern digits T s x /\ forall v, ~ read_as u P t s v).
Proof.
  intros pattern digits u T. tell steps.
  - refers_declared ltac:(left; reflexivity). restricts ltac:(refers_builtin "int").
  - exists (lit "01"), (Atom atom (ANumber 1)). split.
    + split; [eexists; split; [apply text_int; reflexivity|reflexivity]|]. split; [intros f [<-|[<-|[]]]; exact I|]. right. exists (lit "1"). split; [left; reflexivity|]. eexists; split; [apply text_int; reflexivity|reflexivity].
    + intros v R. unfold read_as in R. eapply enum_read in R; [|apply unshadowed_check; vm_compute; reflexivity|names_item|intros (ds & I & J); cbn [In] in I; destruct I as [I|[I|[]]]; [|discriminate I]; injection I as <-; cbn in J; repeat (destruct J as [J|J]; [discriminate J|]); destruct J].
      destruct R as (w & I & E & V). cbn [In] in I. destruct I as [<-|[<-|[<-|[]]]]; [| |discriminate E];
        (destruct V as [(l & [Il|[]] & Ir)|[N _]]; [injection Il as <-; vm_compute in Ir; repeat (destruct Ir as [Ir|Ir]; [discriminate Ir|]); destruct Ir|eapply N; [left; reflexivity|vm_compute; left; reflexivity]]).
Qed.
Print Assumptions C70_enumeration_refuted.

Ltac no_number H := let a := fresh in let L := fresh in let E := fresh in let z := fresh in destruct H as (a & L & E); apply int_text in L as (z & -> & L); vm_compute in L; first [discriminate L|injection L as <-].

(** A type derived from a declared type does not check what the declared type demands. *)
Definition scores : node := sch [restricted "Percent" "xs:int" [facet_node "maxInclusive" "100"]; restricted "Score" "tt:Percent" []].
Theorem C70_inherited_refuted : forall text_cmp pattern digits u, let T := TRestriction (TRestriction (TBuiltin (lit "int")) [FMaxInclusive (lit "100")]) [] in
  told u scores "tt:Score" T (fun P t => exists s v, read_as u P t s v /\ accepted text_cmp u P t v /\ forall x, ~ means pattern digits T s x).
Proof.
  intros text_cmp pattern digits u T. tell scores.
  - refers_declared ltac:(right; left; reflexivity). restricts ltac:(refers_declared ltac:(left; reflexivity); restricts ltac:(refers_builtin "int")).
  - exists (lit "200"), (RNew atom (RNew atom (RLib atom "i32" (ANumber 200)))). split; [|split].
    + read_tuple ltac:(tuple_of ltac:(tuple_of ltac:(is_library "i32"))).
    + eapply accepts_tuple with (ks := []); [names_item|do 3 right; left; reflexivity|intros ? ? ? ? []|reflexivity].
    + intros x [[Bx [Fx _]] _]. destruct (Fx _ (or_introl eq_refl)) as (a & b & c & -> & Db & Or & Nc). no_number Bx. no_number Db. 
      repeat match goal with E : Atom atom _ = Atom atom _ |- _ => injection E as -> end. vm_compute in Or. injection Or as <-. apply Nc. reflexivity.
Qed.
Print Assumptions C70_inherited_refuted.

(** A list skips what it cannot read, and is accepted. *)
Definition sizes : node := sch [list_type "Sizes" "xs:int"].
Lemma items_only s ts : forallb (fun c => negb (is_whitespace c) || xml_space c) s = true -> xml_items s ts -> split_whitespace s = ts.
Proof.
  intros F X. apply tokens_split, items_tokens; auto. intros c I W. rewrite forallb_forall in F. apply F in I. rewrite W in I. cbn in I. apply xml_space_iff. auto.
Qed.
Theorem C70_list_refuted : forall text_cmp pattern digits u, let T := TList true (TBuiltin (lit "int")) in
  told u sizes "tt:Sizes" T (fun P t => exists s v, read_as u P t s v /\ accepted text_cmp u P t v /\ written_as v = lit "1 2" /\ forall x, ~ means pattern digits T s x).
Proof.
  intros text_cmp pattern digits u T. tell sizes.
  - refers_declared ltac:(left; reflexivity). eapply de_list; [only_here|reflexivity|reflexivity|refers_builtin "int"].
  - exists (lit "1 x 2"), (RNew atom (RVec atom [RLib atom "i32" (ANumber 1); RLib atom "i32" (ANumber 2)])). split; [|split; [|split]].
    + read_tuple idtac. eapply (from_vector _ _ _ _ _ _ _ _ _ _ (rust u "i32") _ _ [Some (RLib atom "i32" (ANumber 1)); None; Some (RLib atom "i32" (ANumber 2))]); [names_item|derived_tuple|apply (tokens_total (lit "1 x 2"))|].
      constructor; [is_library "i32"|]. constructor; [is_library "i32"|]. constructor; [is_library "i32"|constructor].
    + eapply accepts_tuple with (ks := []); [names_item|do 1 right; left; reflexivity|intros ? ? ? ? []|reflexivity].
    + reflexivity.
    + intros x (ts & xs & X & F & _). apply items_only in X; [|reflexivity]. vm_compute in X. subst ts. inversion F as [|? ? ? ? _ F1]; subst. inversion F1 as [|? y1 ? ? Dy _]; subst. no_number Dy.
Qed.
Print Assumptions C70_list_refuted.

(** A list is cut at characters that XML does not take for white space. *)
Definition words : node := sch [list_type "Words" "xs:string"].
Theorem C70_space_refuted : forall pattern digits u, let T := TList true (TBuiltin (lit "string")) in
  told u words "tt:Words" T (fun P t => exists s x v, means pattern digits T s x /\ read_as u P t s v /\ ~ means pattern digits T (written_as v) x).
Proof.
  intros pattern digits u T. tell words.
  - refers_declared ltac:(left; reflexivity). eapply de_list; [only_here|reflexivity|reflexivity|refers_builtin "string"].
  - exists [97; 160; 98], (Items atom [Atom atom (AText [97; 160; 98])]), (RNew atom (RVec atom [RLib atom "String" (AText (lit "a")); RLib atom "String" (AText (lit "b"))])). split; [|split].
    + exists [[97; 160; 98]], [Atom atom (AText [97; 160; 98])]. split.
      * apply (xi_last [] [97; 160; 98] []); [intros ? []| |intros ? []]. split; [discriminate|]. intros c J B. vm_compute in J, B. lia.
      * split; [|reflexivity]. constructor; [|constructor]. eexists. split; [|reflexivity]. split; [vm_compute; tauto|split; [exact I|reflexivity]].
    + read_tuple idtac. eapply (from_vector _ _ _ _ _ _ _ _ _ _ (rust u "String") _ _ [Some (RLib atom "String" (AText (lit "a"))); Some (RLib atom "String" (AText (lit "b")))]); [names_item|derived_tuple|apply (tokens_total [97; 160; 98])|].
      constructor; [is_library "String"|]. constructor; [is_library "String"|constructor].
    + intros (ts & xs & X & F & E). apply items_only in X; [|reflexivity]. vm_compute in X. subst ts. injection E as <-. inversion F as [|? ? ? ? _ F1]; subst. inversion F1.
Qed.
Print Assumptions C70_space_refuted.

(** Patterns are not checked; a value is written as Rust writes it, which the pattern may
    exclude. *)
Definition clocks : node := sch [restricted "Hour" "xs:int" [facet_node "pattern" "[0-9]{2}"]].
Theorem C70_pattern_refuted : forall text_cmp (pattern : str -> str -> Prop) digits u, pattern (lit "[0-9]{2}") (lit "05") -> ~ pattern (lit "[0-9]{2}") (lit "5") ->
  let T := TRestriction (TBuiltin (lit "int")) [FPattern (lit "[0-9]{2}")] in
  told u clocks "tt:Hour" T (fun P t => exists s x v, means pattern digits T s x /\ read_as u P t s v /\ accepted text_cmp u P t v /\
    read_as u P t (written_as v) v /\ forall y, ~ means pattern digits T (written_as v) y).
Proof.
  intros text_cmp pattern digits u P1 P2 T. tell clocks.
  - refers_declared ltac:(left; reflexivity). restricts ltac:(refers_builtin "int").
  - exists (lit "05"), (Atom atom (ANumber 5)), (RNew atom (RLib atom "i32" (ANumber 5))). split; [|split; [|split; [|split]]].
    + split; [eexists; split; [apply text_int; reflexivity|reflexivity]|]. split; [intros f [<-|[]]; exact P1|left; reflexivity].
    + read_tuple ltac:(tuple_of ltac:(is_library "i32")).
    + eapply accepts_tuple with (ks := []); [names_item|do 1 right; left; reflexivity|intros ? ? ? ? []|reflexivity].
    + read_tuple ltac:(tuple_of ltac:(is_library "i32")).
    + intros y (_ & F & _). apply P2. exact (F _ (or_introl eq_refl)).
Qed.
Print Assumptions C70_pattern_refuted.

(** A union takes the first member that can read the text, whatever the member demands. *)
Definition amounts : node := sch [restricted "Small" "xs:int" [facet_node "maxInclusive" "10"]; restricted "Code" "xs:string" [facet_node "minLength" "3"]; union_type "Amount" "tt:Small tt:Code"].
Theorem C70_union_refuted : forall text_cmp pattern digits u,
  let T := TUnion [TRestriction (TBuiltin (lit "int")) [FMaxInclusive (lit "10")]; TRestriction (TBuiltin (lit "string")) [FMinLength (lit "3")]] in
  told u amounts "tt:Amount" T (fun P t => exists s x v, means pattern digits T s x /\ read_as u P t s v /\ accepted text_cmp u P t v /\ forall y, ~ means pattern digits T (written_as v) y).
Proof.
  intros text_cmp pattern digits u T. tell amounts.
  - refers_declared ltac:(do 2 right; left; reflexivity). eapply (de_union _ _ _ _ _ [lit "tt:Small"; lit "tt:Code"] [_; _] []); [only_here|reflexivity|apply (ParserProofs.blank_tokens_ok (lit "tt:Small tt:Code"))| |constructor].
    constructor; [refers_declared ltac:(left; reflexivity); restricts ltac:(refers_builtin "int")|]. constructor; [|constructor]. refers_declared ltac:(do 1 right; left; reflexivity). restricts ltac:(refers_builtin "string").
  - assert (No : forall s z x, parse_signed (-2147483648) 2147483647 s = Ok z -> (10 < z)%Z -> ~ means pattern digits (TRestriction (TBuiltin (lit "int")) [FMaxInclusive (lit "10")]) s x).
    { intros s z x Es Gz [Bx [Fx _]]. destruct (Fx _ (or_introl eq_refl)) as (a & b & c & -> & Db & Or & Nc). no_number Db. destruct Bx as (a0 & L & [= ->]). apply int_text in L as (z0 & -> & L). rewrite Es in L. injection L as <-.
      repeat match goal with E : Atom atom _ = Atom atom _ |- _ => injection E as -> end. cbn in Or. injection Or as <-. apply Nc. apply Z.compare_gt_iff. auto. }
    exists (lit "050"), (Atom atom (AText (lit "050"))), (RCase atom (RNew atom (RLib atom "i32" (ANumber 50)))). split; [|split; [|split]].
    + right. split; [intros y; eapply No; [reflexivity|reflexivity]|]. left. split; [eexists; split; [|reflexivity]; split; [vm_compute; tauto|split; [exact I|reflexivity]]|].
      split; [|left; reflexivity]. intros f [<-|[]]. exists 3. split; [apply ParserProofs.count_text_iff; reflexivity|vm_compute; discriminate].
    + eapply (reads_union _ _ _ _ _ _ _ _ _ _ _ []); [names_item|eexists; split; [left; reflexivity|cbn; tauto]|reflexivity|intros ? []|discriminate|reflexivity|tuple_of ltac:(is_library "i32")].
    + eapply accepts_enum; [names_item|]. vm_compute. tauto.
    + intros y [D|[_ [D|[_ []]]]]; [eapply No; [| |exact D]; reflexivity|]. destruct D as ((a & L & ->) & F & _). destruct (F _ (or_introl eq_refl)) as (n & C & Le). apply ParserProofs.count_text_iff in C. vm_compute in C. injection C as <-.
      destruct a as [z|w]; [destruct L as (lo & hi & J & _); assert (X := one_space _ _ SText J ltac:(vm_compute; tauto)); discriminate X|]. destruct L as (_ & _ & ->). vm_compute in Le. apply Le. reflexivity.
Qed.
Print Assumptions C70_union_refuted.
