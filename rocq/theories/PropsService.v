(** Property theorems C76, C77: WSDL documents of the usual kind, from the tree to the text. *)
From Coq Require Import NArith ZArith Bool Ascii String List Lia Permutation.
From Verif Require Import Str SpecLex SpecNames SpecBuiltin Xml StrFacts Names NamesProofs Entity Parser ParserFacts SpecSchema ParserProofs PropsParser Link SpecLink
  Gen SpecRust SpecGen RustFacts GenProofs GenProofs2 PropsGen Wsdl SpecWsdl WsdlProofs PropsWsdl PropsLink SpecDoc DocProofs PropsDoc SpecScope ScopeProofs PropsScope SpecTraits PropsTraits PropsSize SpecDistinct PropsDistinct SpecService ServiceProofs.
Import ListNotations.
Local Open Scope string_scope.
Local Open Scope list_scope.
Notation concat := List.concat.

(** C76: a schema is read the same wherever it is embedded. *)
Theorem C76_schema_alone : forall u s anc, tag "schema" s -> parse_schema u s anc = parse_schema u s [].
Proof. exact (fun u s anc => schema_alone u s anc []). Qed.
Print Assumptions C76_schema_alone.
(** C76: every document of the usual kind is turned into code: nothing panics, and the text
    lexes to the items of its schemas, in document order, and the function of every operation. *)
Theorem C76_document : forall u roots root order, root_element roots root -> service root ->
  ns_prefix (target_namespace root) <> Some (lit "transport") ->
  (forall d, definitions_new root = Ok d -> Permutation (order d) (map snd (df_ports d))) ->
  exists s itss ops xs, wsdl_code u roots order = Ok s /\
    Forall2 (fun ts its => exists f, parse_schema u (snd ts) [] = Ok f /\ file_items u f (rf_types f) its) (embedded root) itss /\
    Permutation ops (operations root) /\ Forall2 (exchanges root) ops xs /\
    lex u s = Some (concat (map (item_tokens u) (concat itss)) ++
                    concat (map (exchange_tokens u (fun q => default_format_type u q (target_namespace root)) (format_name u)) xs)).
Proof. exact service_outcome. Qed.
Print Assumptions C76_document.

(** C77: the functions can be called: their names are identifiers, and distinct if the names of
    the operations differ in more than case and punctuation; the types of the request and of
    the response are types the embedded schemas introduce, and not the type parameter. *)
Theorem C77_callable : forall u root ops xs itss,
  Forall2 (fun ts its => exists f, parse_schema u (snd ts) [] = Ok f /\ file_items u f (rf_types f) its) (embedded root) itss ->
  Permutation ops (operations root) -> Forall2 (exchanges root) ops xs ->
  (forall t s, In (t, s) (embedded root) -> ok_schema s /\ tidy s /\
     forall x, SpecDoc.part x s -> orderly u s (ns_prefix (target_namespace s)) (ns_prefix (xsd_namespace s)) x) ->
  (forall op x, In op (operations root) -> exchanges root op x ->
     callable_name (ex_name x) /\ offered root (ns_prefix (target_namespace root)) (ex_request x) /\ offered root (ns_prefix (target_namespace root)) (ex_response x)) ->
  (forall x, In x xs -> rust_ident (format_name u (ex_name x)) /\
     forall q, q = ex_request x \/ q = ex_response x -> exists w, lexemes u (default_format_type u q (target_namespace root)) = [TWord w] /\ rust_ident w /\ w <> lit "T" /\
       In ([], [TWord w]) (concat (map (introduces []) (concat itss)))) /\
  (NoDup (map (fun op => option_map letters (attribute op (lit "name"))) (operations root)) -> NoDup (map (fun x => format_name u (ex_name x)) xs)).
Proof. exact service_callable. Qed.
Print Assumptions C77_callable.
(** C77: what the schemas mention resolves, as in C63. *)
Theorem C77_resolved : forall u root itss,
  Forall2 (fun ts its => exists f, parse_schema u (snd ts) [] = Ok f /\ file_items u f (rf_types f) its) (embedded root) itss ->
  (forall t s, In (t, s) (embedded root) -> ok_schema s /\ tidy s /\
     forall x, SpecDoc.part x s -> orderly u s (ns_prefix (target_namespace s)) (ns_prefix (xsd_namespace s)) x) ->
  Forall2 (fun ts its => forall P t, In (P, t) (concat (map (mentions []) its)) ->
     resolves u (namespaces (snd ts)) (ns_prefix (target_namespace (snd ts))) (ns_prefix (xsd_namespace (snd ts))) (concat (map (introduces []) its)) P t)
    (embedded root) itss.
Proof.
  intros u root itss F S. induction F as [|[t s] its es itss (f & E & A) F IH]; constructor.
  - destruct (S t s (or_introl eq_refl)) as (O & T & Or). cbn [snd] in *. destruct (schema_inv _ _ _ _ E) as (_ & _ & _ & E1 & E2). rewrite <- E1, <- E2 in *.
    apply (C63_schema u s f its O T E Or A).
  - apply IH. intros; eapply S; right; eauto.
Qed.
Print Assumptions C77_resolved.
(** C77: if each schema gives separate names (C66) and no two schemas give the same, the code
    of all schemas together defines nothing twice and hides nothing. *)
Theorem C77_distinct : forall u root itss,
  Forall2 (fun ts its => exists f, parse_schema u (snd ts) [] = Ok f /\ file_items u f (rf_types f) its) (embedded root) itss ->
  (forall t s, In (t, s) (embedded root) -> ok_schema s /\ tidy s /\
     (forall x, SpecDoc.part x s -> orderly u s (ns_prefix (target_namespace s)) (ns_prefix (xsd_namespace s)) x) /\
     separate_types s (snd (named_by u s)) (format_name u)) ->
  ForallOrdPairs (fun a b => strangers (format_name u) (named_by u (snd a)) (named_by u (snd b))) (embedded root) ->
  distinct_types (concat itss).
Proof. exact (fun u root itss => schemas_distinct u (embedded root) itss). Qed.
Print Assumptions C77_distinct.

(** ** An example *)
Definition wsdl_ns (p : string) (cs : list node) : node := Elem (lit "definitions") [(lit "targetNamespace", lit "urn:tt")] [named_ns p "urn:tt"; named_ns "oo" "urn:oo"] cs.
Definition wsdl (cs : list node) : node := wsdl_ns "tt" cs.
Definition types_of (ss : list node) : node := PropsWsdl.el "types" [] ss.
Definition clock_schema : node := sch
  [anon "GetDate" [seq []]; anon "GetDateResponse" [seq [typed "Date" "xs:date"; typed "Zone" "tt:Zone"]]; named_string "Zone" []].
Definition get_msgs : list node := [msg "In" [PropsWsdl.part "p" "tt:GetDate"]; msg "Out" [PropsWsdl.part "p" "tt:GetDateResponse"]].
Definition get_op (n : string) : node := oper n [inp "tt:In"; outp "tt:Out"].
Definition clock : node := wsdl (types_of [clock_schema] :: get_msgs ++ [pt_of "Clock" [get_op "GetDate"; get_op "read-date"]]).
Ltac in_elems := vm_compute; repeat (try (left; reflexivity); right).
Ltac msg_of k := exists (lit k); split; [split; [vm_compute; let X := fresh in intros X; repeat (destruct X as [X|X]; [discriminate X|]); exact X|right; exists (lit "tt"); reflexivity]|split; [in_elems|reflexivity]].
Lemma get_exchange root n : In (msg "In" [PropsWsdl.part "p" "tt:GetDate"]) (elems "message" root) -> In (msg "Out" [PropsWsdl.part "p" "tt:GetDateResponse"]) (elems "message" root) ->
  exchanges root (get_op n) {| ex_name := lit n; ex_request := lit "tt:GetDate"; ex_response := lit "tt:GetDateResponse"; ex_doc := None |}.
Proof.
  intros A B. assert (L : forall k, ~ In 58%N k -> local (lit "tt:" ++ k) k) by (intros k N; split; auto; right; exists (lit "tt"); reflexivity).
  exists (inp "tt:In"), (outp "tt:Out"), [], (lit "tt:In"), (lit "tt:Out"). split; [exists [], []; repeat split; constructor|]. do 3 (split; [reflexivity|]).
  split; [|split].
  - exists (msg "In" [PropsWsdl.part "p" "tt:GetDate"]), (PropsWsdl.part "p" "tt:GetDate"). split; [|split; reflexivity].
    exists (lit "In"). split; [apply (L (lit "In")); vm_compute; intuition discriminate|]. split; [auto|reflexivity].
  - exists (msg "Out" [PropsWsdl.part "p" "tt:GetDateResponse"]), (PropsWsdl.part "p" "tt:GetDateResponse"), []. split; [|split; reflexivity].
    exists (lit "Out"). split; [apply (L (lit "Out")); vm_compute; intuition discriminate|]. split; [auto|reflexivity].
  - intros y e I [T _]. destruct I as [<-|[<-|[]]]; discriminate T.
Qed.
Definition quietb (s : str) : bool := forallb (fun c => negb (existsb (N.eqb c) [34; 47; 92; 10]%N)) s.
Lemma quietb_ok s : quietb s = true -> quiet s.
Proof. unfold quietb. rewrite forallb_forall. intros H c I. specialize (H c I). cbn [existsb] in H. lia. Qed.
(** Documents whose operations are those of the example. *)
Lemma get_service root : (exists d, definitions_new root = Ok d) -> (forall t s, In (t, s) (embedded root) -> ok_schema s /\ tidy s) ->
  In (msg "In" [PropsWsdl.part "p" "tt:GetDate"]) (elems "message" root) -> In (msg "Out" [PropsWsdl.part "p" "tt:GetDateResponse"]) (elems "message" root) ->
  (forall op, In op (operations root) -> exists n, op = get_op n) -> service root.
Proof.
  intros D S A B C. split; [apply definitions_accepted; auto|]. split; [auto|]. intros op I. destruct (C op I) as (n & ->). eexists. split; [apply get_exchange; auto|].
  split; apply quietb_ok; reflexivity.
Qed.
Lemma clock_schema_ok : ok_schema clock_schema /\ tidy clock_schema /\ forall u x, SpecDoc.part x clock_schema -> orderly u clock_schema (Some (lit "tt")) (Some (lit "xs")) x.
Proof.
  split; [|split; [apply tidy_check; reflexivity|intros u; apply orderly_check; vm_compute; reflexivity]].
  split; [reflexivity|]. cbn [clock_schema sch children]. constructor; [solve_ok|]. constructor; [solve_ok|]. constructor; [do 2 right; left; apply enum_ok; constructor|constructor].
Qed.
Example C76_clock : service clock /\ ns_prefix (target_namespace clock) = Some (lit "tt") /\
  exists s, wsdl_code u2 [Other; clock] (fun d => map snd (df_ports d)) = Ok s /\ lex u2 s = Some (rust u2 "
#[derive(Default, Clone, PartialEq, Debug, YaSerialize, YaDeserialize)]
#[yaserde(prefix = ""tt"", namespace = ""tt: urn:tt"")]
pub struct GetDate {}
impl Validate for GetDate {}
#[derive(Default, Clone, PartialEq, Debug, YaSerialize, YaDeserialize)]
#[yaserde(prefix = ""tt"", namespace = ""tt: urn:tt"")]
pub struct GetDateResponse {
    #[yaserde(prefix = ""tt"", rename = ""Date"")]
    pub date: xs::Date,
    #[yaserde(prefix = ""tt"", rename = ""Zone"")]
    pub zone: Zone,
}
impl Validate for GetDateResponse {}
#[derive(Default, Clone, PartialEq, Debug, UtilsTupleIo, UtilsDefaultSerde)]
pub struct Zone (pub String);
impl Validate for Zone {}
pub async fn get_date<T: transport::Transport>(transport: &T, request: &GetDate) -> Result<GetDateResponse, transport::Error> { transport::request(transport, request).await }
pub async fn read_date<T: transport::Transport>(transport: &T, request: &GetDate) -> Result<GetDateResponse, transport::Error> { transport::request(transport, request).await }").
Proof.
  split.
  - apply get_service; [eexists; reflexivity| |in_elems|in_elems|].
    + intros t s [[= <- <-]|[]]. split; apply clock_schema_ok.
    + intros op [<-|[<-|[]]]; eexists; reflexivity.
  - split; [reflexivity|]. eexists. split; [vm_compute; reflexivity|]. vm_compute. reflexivity.
Qed.

Definition offeredb (root : node) (own : option str) (q : str) : bool :=
  let '(p, l) := split_name q in (opt_str_eqb p None || opt_str_eqb p own) && negb (str_eqb (letters l) (lit "t")) &&
  existsb (fun ts => introducedb (snd ts) l) (embedded root).
Lemma offeredb_ok root own q : offeredb root own q = true -> offered root own q.
Proof.
  unfold offeredb. pose proof (split_name_qualified q) as Q. destruct (split_name q) as [p l]. rewrite !andb_true_iff, orb_true_iff, !opt_str_eqb_iff, existsb_exists.
  intros [[P N] ([t s] & I & J)]. exists p, l, t, s. split; auto. split; auto. split; auto. split; [apply introducedb_ok; auto|].
  apply negb_true_iff in N. intros E. rewrite E in N. rewrite str_eqb_refl in N. discriminate.
Qed.
Lemma get_unique root op x y : accepted root -> exchanges root op x -> exchanges root op y -> x = y.
Proof.
  intros A X Y. apply definitions_accepted in A as (d & D). apply exchange_func_inj.
  eapply (op_func_unique root d D op); eauto using exchange_op, exchange_classified.
Qed.
(** The example meets the conditions of C77. *)
Example C77_clock : (forall u t s, In (t, s) (embedded clock) -> ok_schema s /\ tidy s /\
     forall x, SpecDoc.part x s -> orderly u s (ns_prefix (target_namespace s)) (ns_prefix (xsd_namespace s)) x) /\
  (forall op x, In op (operations clock) -> exchanges clock op x ->
     callable_name (ex_name x) /\ offered clock (ns_prefix (target_namespace clock)) (ex_request x) /\ offered clock (ns_prefix (target_namespace clock)) (ex_response x)) /\
  NoDup (map (fun op => option_map letters (attribute op (lit "name"))) (operations clock)).
Proof.
  split; [|split].
  - intros u t s [[= <- <-]|[]]. destruct clock_schema_ok as (A & B & C). split; [auto|]. split; [auto|]. apply C.
  - intros op x I E. assert (A : accepted clock) by (apply C76_clock).
    assert (G : forall n, exchanges clock (get_op n) {| ex_name := lit n; ex_request := lit "tt:GetDate"; ex_response := lit "tt:GetDateResponse"; ex_doc := None |}) by (intros n; apply get_exchange; in_elems).
    assert (N : exists n, op = get_op n /\ In n ["GetDate"; "read-date"]) by (destruct I as [<-|[<-|[]]]; eexists; split; [reflexivity|left; reflexivity|reflexivity|right; left; reflexivity]).
    destruct N as (n & -> & N). assert (x = {| ex_name := lit n; ex_request := lit "tt:GetDate"; ex_response := lit "tt:GetDateResponse"; ex_doc := None |}) by (eapply get_unique; eauto). subst x. cbn [ex_name ex_request ex_response].
    split; [|split; apply offeredb_ok; vm_compute; reflexivity].
    destruct N as [<-|[<-|[]]]; (split; [vm_compute; intuition discriminate|]; split; [intros c J; vm_compute in J; repeat (destruct J as [<-|J]; [lia|]); destruct J|];
      split; [eexists; split; [left; reflexivity|unfold alnum, letter, lower, upper; vm_compute; intuition discriminate]|vm_compute; discriminate]).
  - vm_compute. constructor; [intros [X|[]]; discriminate X|constructor; [intros []|constructor]].
Qed.

(** Two schemas, with a module each. *)
Lemma expands_one schema ds : forall ns ms, expands schema ds ns -> expands schema ds ms -> ns = ms.
Proof.
  intros ns ms E. revert ms. induction E as [|d ds a b A IHa B IHb]; intros ms X; inversion X; subst; auto. f_equal. f_equal; auto.
Qed.
Lemma insides_one s nss ms : Forall2 (inside_names s) (children s) nss -> Forall2 (inside_names s) (children s) ms -> nss = ms.
Proof.
  generalize (children s). intros cs F. revert ms. induction F as [|c n cs nss I F IH]; intros ms X; inversion X as [|? m ? ms' I' F']; subst; auto. f_equal; auto.
  unfold inside_names in I, I'. destruct (structured c); [eapply expands_one; eauto|congruence].
Qed.
Definition strangersb (k : nat) (ident : str -> str) (a b : node * (str -> list token)) : bool :=
  let '(s, ty) := a in let '(s', ty') := b in
  match insides s k (children s), insides s' k (children s') with
  | Some nss, Some nss' =>
      forallb (fun x => forallb (fun y => negb (same_nameb (ty x) (ty' y))) (outsides s' ++ concat nss')) (outsides s) &&
      forallb (fun x => forallb (fun y => negb (same_nameb (ty x) (ty' y))) (outsides s')) (outsides s ++ concat nss) &&
      forallb (fun m => negb (existsb (str_eqb m) (module_names s' ident nss'))) (module_names s ident nss)
  | _, _ => false
  end.
Lemma strangers_check k ident a b : strangersb k ident a b = true -> strangers ident a b.
Proof.
  destruct a as [s ty], b as [s' ty']. unfold strangersb, strangers. intros H nss nss' F F'.
  destruct (insides s k (children s)) as [ms|] eqn:E; [|discriminate]. destruct (insides s' k (children s')) as [ms'|] eqn:E'; [|discriminate].
  apply insides_ok in E, E'. assert (ms = nss) by (eapply insides_one; eauto). assert (ms' = nss') by (eapply insides_one; eauto). subst ms ms'.
  apply andb_true_iff in H as [H H3]. apply andb_true_iff in H as [H1 H2]. rewrite forallb_forall in H1, H2, H3. split; [|split].
  - intros x y I J Q. specialize (H1 x I). rewrite forallb_forall in H1. specialize (H1 y J). rewrite Q, same_nameb_refl in H1. discriminate.
  - intros x y I J Q. specialize (H2 x I). rewrite forallb_forall in H2. specialize (H2 y J). rewrite Q, same_nameb_refl in H2. discriminate.
  - intros m I J. specialize (H3 m I). apply negb_true_iff in H3. assert (X : existsb (str_eqb m) (module_names s' ident nss') = true) by (apply existsb_exists; exists m; split; [auto|apply str_eqb_eq; auto]). congruence.
Qed.
Definition oo_schema (cs : list node) : node :=
  Elem (lit "schema") [(lit "targetNamespace", lit "urn:oo")] [named_ns "xs" "http://www.w3.org/2001/XMLSchema"; named_ns "tt" "urn:tt"; named_ns "oo" "urn:oo"] cs.
Definition zones : node := oo_schema [anon "Zones" [seq [anon "Area" [seq [typed "Name" "xs:string"]]]]].
Definition areas : node := sch [anon "GetAreas" [seq [anon "Area" [seq [typed "Id" "xs:int"]]]]].
Definition atlas : node := wsdl (types_of [zones; areas] :: []).
Example C77_atlas : embedded atlas = [(types_of [zones; areas], zones); (types_of [zones; areas], areas)] /\
  (forall t s, In (t, s) (embedded atlas) -> ok_schema s /\ tidy s /\
     (forall x, SpecDoc.part x s -> orderly u2 s (ns_prefix (target_namespace s)) (ns_prefix (xsd_namespace s)) x) /\
     separate_types s (snd (named_by u2 s)) (format_name u2)) /\
  ForallOrdPairs (fun a b => strangers (format_name u2) (named_by u2 (snd a)) (named_by u2 (snd b))) (embedded atlas) /\
  exists itss, Forall2 (fun ts its => exists f, parse_schema u2 (snd ts) [] = Ok f /\ file_items u2 f (rf_types f) its) (embedded atlas) itss /\
    concat (map (introduces []) (concat itss)) =
      [([], rust u2 "Zones"); ([lit "zones"], rust u2 "AreaType"); ([], rust u2 "GetAreas"); ([lit "get_areas"], rust u2 "AreaType")].
Proof.
  split; [reflexivity|]. split; [|split].
  - intros t s [[= <- <-]|[[= <- <-]|[]]]; (split; [split; [reflexivity|]; cbn [zones areas oo_schema sch children]; solve_ok|]; split; [apply tidy_check; reflexivity|]; split; [apply orderly_check; vm_compute; reflexivity|apply (separate_types_check _ _ _ 3); vm_compute; reflexivity]).
  - constructor; [|constructor; [constructor|constructor]]. constructor; [|constructor]. apply (strangers_check 3). vm_compute. reflexivity.
  - eexists. split; [|].
    + constructor; [eexists; split; [vm_compute; reflexivity|cbn [rf_types]; repeat econstructor]|]. constructor; [eexists; split; [vm_compute; reflexivity|cbn [rf_types]; repeat econstructor]|constructor].
    + vm_compute. reflexivity.
Qed.

(** ** What fails otherwise *)
(** An operation without a response: the result type is missing. *)
Definition call_tokens (n req res : string) : list token :=
  rust u2 ("pub async fn " ++ n ++ "<T: transport::Transport>(transport: &T, request: &" ++ req ++ ") -> Result<" ++ res ++ ", transport::Error> { transport::request(transport, request).await }")%string.
Definition no_order (d : Wsdl.definitions) : list port_type := map snd (df_ports d).
Theorem C76_one_way_refuted : exists root op i, accepted root /\ embedded root = [] /\ operations root = [op] /\ one_way op i /\
  exists s, wsdl_code u2 [root] no_order = Ok s /\ lex u2 s = Some (call_tokens "stop" "Stop" "").
Proof.
  exists (wsdl [msg "In" [PropsWsdl.part "p" "tt:Stop"]; pt_of "P" [oper "Stop" [inp "tt:In"]]]). eexists. exists (inp "tt:In").
  split; [apply definitions_accepted; eexists; reflexivity|]. split; [reflexivity|]. split; [reflexivity|]. split; [exists []; repeat split; constructor|].
  eexists. split; vm_compute; reflexivity.
Qed.
Print Assumptions C76_one_way_refuted.
(** If the prefix of the target namespace is [transport], the path to the trait is lost. *)
Theorem C76_transport_refuted : exists root, service root /\ ns_prefix (target_namespace root) = Some (lit "transport") /\
  exists s, wsdl_code u2 [root] no_order = Ok s /\
  lex u2 s = Some (rust u2 "pub async fn get_date<T: Transport>(transport: &T, request: &tt::GetDate) -> Result<tt::GetDateResponse, transport::Error> { transport::request(transport, request).await }").
Proof.
  exists (wsdl_ns "transport" (get_msgs ++ [pt_of "P" [get_op "GetDate"]])). split; [|split; [reflexivity|eexists; split; vm_compute; reflexivity]].
  apply get_service; [eexists; reflexivity|intros t s []|in_elems|in_elems|]. intros op [<-|[]]. eexists. reflexivity.
Qed.
Print Assumptions C76_transport_refuted.
(** Two schemas, each fine for itself, that declare elements of one name define a type twice. *)
Definition other_schema : node :=
  Elem (lit "schema") [(lit "targetNamespace", lit "urn:oo")] [named_ns "xs" "http://www.w3.org/2001/XMLSchema"; named_ns "tt" "urn:tt"; named_ns "oo" "urn:oo"] [anon "GetDate" [seq []]].
Theorem C76_distinct_refuted : forall u, exists root t s s', service root /\ embedded root = [(t, s); (t, s')] /\ attribute s (lit "targetNamespace") <> attribute s' (lit "targetNamespace") /\
  exists its its', schema_items u (t, s) its /\ schema_items u (t, s') its' /\ NoDup (concat (map (introduces []) its)) /\ NoDup (concat (map (introduces []) its')) /\
    ~ NoDup (concat (map (introduces []) (its ++ its'))).
Proof.
  intros u. exists (wsdl (types_of [clock_schema; other_schema] :: get_msgs ++ [pt_of "Clock" [get_op "GetDate"]])), (types_of [clock_schema; other_schema]), clock_schema, other_schema.
  split; [|split; [reflexivity|split; [discriminate|]]].
  - apply get_service; [eexists; reflexivity| |in_elems|in_elems|intros op [<-|[]]; eexists; reflexivity].
    intros t s [[= <- <-]|[[= <- <-]|[]]]; [split; apply clock_schema_ok|]. split; [split; [reflexivity|]; cbn [other_schema children]; solve_ok|apply tidy_check; reflexivity].
  - eexists. eexists. split; [eexists; split; [vm_compute; reflexivity|unfold file_toks; cbn [rf_types]; repeat econstructor]|].
    split; [eexists; split; [vm_compute; reflexivity|unfold file_toks; cbn [rf_types]; repeat econstructor]|].
    vm_compute. split; [|split].
    + repeat (constructor; [intros X; repeat (destruct X as [X|X]; [discriminate X|]); exact X|]). constructor.
    + constructor; [intros []|constructor].
    + intros X. inversion X as [|? ? Y _]. apply Y. do 2 right. left. reflexivity.
Qed.
Print Assumptions C76_distinct_refuted.
(** Operations of one name in two port types (one per binding, say), or of names that differ
    in case only, give functions of one name. *)
Theorem C77_names_refuted : forall n n', In (n, n') [("GetDate", "GetDate"); ("GetDate", "getDate")] -> exists root, service root /\
  exists s, wsdl_code u2 [root] no_order = Ok s /\
  lex u2 s = Some (call_tokens "get_date" "GetDate" "GetDateResponse" ++ call_tokens "get_date" "GetDate" "GetDateResponse").
Proof.
  intros n n' I. exists (wsdl (get_msgs ++ [pt_of "ClockSoap" [get_op n]; pt_of "ClockHttp" [get_op n']])). split.
  - apply get_service; [eexists; reflexivity|intros t s []|in_elems|in_elems|]. intros op [<-|[<-|[]]]; eexists; reflexivity.
  - destruct I as [[= <- <-]|[[= <- <-]|[]]]; eexists; split; vm_compute; reflexivity.
Qed.
Print Assumptions C77_names_refuted.
(** An operation called Try gives a function whose name is a reserved word. *)
Theorem C77_reserved_refuted : exists root, service root /\ In (lit "try") rust_reserved /\
  exists s, wsdl_code u2 [root] no_order = Ok s /\ lex u2 s = Some (call_tokens "try" "GetDate" "GetDateResponse").
Proof.
  exists (wsdl (get_msgs ++ [pt_of "P" [get_op "Try"]])). split.
  - apply get_service; [eexists; reflexivity|intros t s []|in_elems|in_elems|]. intros op [<-|[]]; eexists; reflexivity.
  - split; [vm_compute; repeat (try (left; reflexivity); right)|]. eexists; split; vm_compute; reflexivity.
Qed.
Print Assumptions C77_reserved_refuted.
(** The types of messages are looked for in the target namespace of the definitions: elements
    of a schema with another one are written as paths into a module, where they are not. *)
Definition far_root : node :=
  Elem (lit "definitions") [(lit "targetNamespace", lit "urn:service")] [named_ns "tt" "urn:tt"; named_ns "svc" "urn:service"] (types_of [clock_schema] :: get_msgs ++ [pt_of "Clock" [get_op "GetDate"]]).
Theorem C77_namespace_refuted : service far_root /\ introduced clock_schema (lit "GetDate") /\ ns_prefix (target_namespace clock_schema) = Some (lit "tt") /\
  exists its s, schema_items u2 (types_of [clock_schema], clock_schema) its /\ In ([], rust u2 "GetDate") (concat (map (introduces []) its)) /\
    ~ In ([lit "tt"], rust u2 "GetDate") (concat (map (introduces []) its)) /\
    wsdl_code u2 [far_root] no_order = Ok s /\ lex u2 s = Some (concat (map (item_tokens u2) its) ++ call_tokens "get_date" "tt::GetDate" "tt::GetDateResponse").
Proof.
  split; [|split; [apply introducedb_ok; reflexivity|split; [reflexivity|]]].
  - apply get_service; [eexists; reflexivity| |in_elems|in_elems|intros op [<-|[]]; eexists; reflexivity]. intros t s [[= <- <-]|[]]. split; apply clock_schema_ok.
  - eexists. eexists. split; [eexists; split; [vm_compute; reflexivity|unfold file_toks; cbn [rf_types]; repeat econstructor]|].
    split; [vm_compute; left; reflexivity|]. split; [vm_compute; intros X; repeat (destruct X as [X|X]; [discriminate X|]); exact X|].
    split; vm_compute; reflexivity.
Qed.
Print Assumptions C77_namespace_refuted.
(** An element called [t] is hidden by the type parameter. *)
Definition t_schema : node := sch [anon "t" [seq []]].
Definition t_root : node := wsdl [types_of [t_schema]; msg "M" [PropsWsdl.part "p" "tt:t"]; pt_of "P" [oper "Get" [inp "tt:M"; outp "tt:M"]]].
Theorem C77_parameter_refuted : service t_root /\
  exists its s, schema_items u2 (types_of [t_schema], t_schema) its /\ concat (map (introduces []) its) = [([], rust u2 "T")] /\
    wsdl_code u2 [t_root] no_order = Ok s /\ lex u2 s = Some (concat (map (item_tokens u2) its) ++ call_tokens "get" "T" "T").
Proof.
  split.
  - split; [apply definitions_accepted; eexists; reflexivity|]. split.
    + intros t s [[= <- <-]|[]]. split; [split; [reflexivity|]; cbn [t_schema sch children]; solve_ok|apply tidy_check; reflexivity].
    + intros op [<-|[]]. exists {| ex_name := lit "Get"; ex_request := lit "tt:t"; ex_response := lit "tt:t"; ex_doc := None |}. split; [|split; apply quietb_ok; reflexivity].
      exists (inp "tt:M"), (outp "tt:M"), [], (lit "tt:M"), (lit "tt:M"). split; [exists [], []; repeat split; constructor|]. do 3 (split; [reflexivity|]).
      split; [eexists; eexists; split; [msg_of "M"|split; reflexivity]|]. split; [eexists; eexists; eexists; split; [msg_of "M"|split; reflexivity]|].
      intros y e I [T _]. destruct I as [<-|[<-|[]]]; discriminate T.
  - eexists. eexists. split; [eexists; split; [vm_compute; reflexivity|unfold file_toks; cbn [rf_types]; repeat econstructor]|].
    split; [vm_compute; reflexivity|]. split; vm_compute; reflexivity.
Qed.
Print Assumptions C77_parameter_refuted.
