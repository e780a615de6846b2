(** Property theorems C52-C55, C58: WSDL documents. *)
From Coq Require Import NArith ZArith Bool Ascii String List Lia Permutation.
From Verif Require Import Str SpecNames Xml Names NamesProofs Entity Parser SpecSchema Link Gen SpecRust SpecGen RustFacts GenProofs GenProofs2 PropsGen Wsdl SpecWsdl WsdlProofs.
Import ListNotations.
Local Open Scope string_scope.
Local Open Scope list_scope.
Notation concat := List.concat.
Definition el (t : string) (attrs : list (string * string)) (cs : list node) : node :=
  Elem (lit t) (map (fun '(a, v) => (lit a, lit v)) attrs) [{| ns_name := Some (lit "tds"); ns_uri := lit "http://device" |}] cs.
Definition pt_of (p : string) (ops : list node) : node := el "portType" [("name", p)] ops.
Definition get_date : node :=
  el "operation" [("name", "GetDate")]
    [el "documentation" [] [Text (lit "Reads the clock.")]; el "input" [("message", "tds:GetDateRequest")] [];
     el "output" [("message", "tds:GetDateResponse")] []; el "fault" [("name", "Busy"); ("message", "tds:Fault")] []].
Definition msg (n : string) (ps : list node) : node := el "message" [("name", n)] ps.
Definition part (n t : string) : node := el "part" [("name", n); ("element", t)] [].
Definition device : node :=
  el "definitions" [("targetNamespace", "http://device")]
    [msg "GetDateRequest" [part "parameters" "tds:GetDate"]; Text (lit " ");
     msg "GetDateResponse" [part "parameters" "tds:GetDateResponse"]; pt_of "Device" [get_date]].
Definition defs_of (n : node) : definitions := match definitions_new n with Ok d => d | _ => none_yet n end.
Definition code_of (n : node) : res str := let d := defs_of n in generate_wsdl u2 d (map snd (df_ports d)).
Definition tokens_of (n : node) (f : func) : list token :=
  func_tokens u2 (fun q => default_format_type u2 q (target_namespace n)) (format_name u2) f.

(** C52: a document is accepted exactly if every import, message, port type and binding has
    its key, no two of a kind the same, and every operation can be classified (C53);
    otherwise reading it panics. *)
Theorem C52_accepted : forall root, ((exists d, definitions_new root = Ok d) <-> accepted root) /\
  (definitions_new root = Panic <-> ~ accepted root) /\ definitions_new root <> Err.
Proof. exact (fun root => conj (proj1 (definitions_accepted root)) (conj (proj2 (definitions_accepted root)) (definitions_no_err root))). Qed.
Print Assumptions C52_accepted.
(** C52: then looking a key up finds the one declaration that carries it, whole: a message
    with its parts, a port type with its operations. *)
Theorem C52_lookup : forall root d, definitions_new root = Ok d ->
  df_node d = root /\ df_types d = elems "types" root /\
  (forall k c, assoc k (df_imports d) = Some c <-> In c (elems "import" root) /\ has c "namespace" k) /\
  (forall k c, assoc k (df_bindings d) = Some c <-> In c (elems "binding" root) /\ has c "name" k) /\
  (forall k m, assoc k (df_messages d) = Some m <->
     In (ms_node m) (elems "message" root) /\ has (ms_node m) "name" k /\ ms_parts m = parts (ms_node m)) /\
  (forall k p, assoc k (df_ports d) = Some p <->
     In (pt_node p) (elems "portType" root) /\ has (pt_node p) "name" k /\ parsed_port (pt_node p) p) /\
  map (fun e => pt_node (snd e)) (df_ports d) = elems "portType" root /\ Forall (fun e => parsed_port (pt_node (snd e)) (snd e)) (df_ports d).
Proof. exact definitions_lookup. Qed.
Print Assumptions C52_lookup.
Example C52_device : exists d, definitions_new device = Ok d /\ List.length (df_messages d) = 2 /\
  exists p, assoc (lit "Device") (df_ports d) = Some p /\ map op_node (pt_ops p) = [get_date].
Proof. eexists. split; [reflexivity|]. split; [reflexivity|]. eexists. split; reflexivity. Qed.
Example C52_twice : definitions_new (el "definitions" [] [msg "A" []; msg "B" []; msg "A" [part "x" "y"]]) = Panic /\
  definitions_new (el "definitions" [] [msg "A" []; pt_of "A" []; el "binding" [("name", "A")] []]) <> Panic /\
  definitions_new (el "definitions" [] [el "import" [("location", "x")] []]) = Panic.
Proof. repeat split; discriminate. Qed.

(** C53: the first input or output among the child elements of an operation decides, together
    with the element right after it; the faults are the fault elements after both; any other
    operation makes the parser panic. *)
Theorem C53_classification : forall op,
  (forall i o fs, op_type_new op = Ok (RequestResponse i o fs) <-> request_response op i o fs) /\
  (forall i, op_type_new op = Ok (OneWay i) <-> one_way op i) /\
  (forall o i fs, op_type_new op = Ok (SolicitResponse o i fs) <-> solicit_response op o i fs) /\
  (forall o, op_type_new op = Ok (Notification o) <-> notification op o) /\
  (op_type_new op = Panic <-> ~ classified op) /\ op_type_new op <> Err.
Proof. exact classify. Qed.
Print Assumptions C53_classification.
Definition inp (m : string) : node := el "input" [("message", m)] [].
Definition outp (m : string) : node := el "output" [("message", m)] [].
Definition oper (n : string) (cs : list node) : node := el "operation" [("name", n)] cs.
Example C53_kinds :
  op_type_new get_date = Ok (RequestResponse (inp "tds:GetDateRequest") (outp "tds:GetDateResponse") [el "fault" [("name", "Busy"); ("message", "tds:Fault")] []]) /\
  op_type_new (oper "a" [el "documentation" [] []; Text (lit " "); inp "x"; Text (lit " ")]) = Ok (OneWay (inp "x")) /\
  op_type_new (oper "a" [outp "x"; inp "y"; el "fault" [] []; el "other" [] []]) = Ok (SolicitResponse (outp "x") (inp "y") [el "fault" [] []]) /\
  op_type_new (oper "a" [outp "x"]) = Ok (Notification (outp "x")) /\
  op_type_new (oper "a" [inp "x"; el "documentation" [] []; outp "y"]) = Panic /\
  op_type_new (oper "a" [inp "x"; el "fault" [] []]) = Panic /\ op_type_new (oper "a" [el "fault" [] []]) = Panic.
Proof. repeat split. Qed.

(** C54: the generator writes one function for every operation of every port type: the port
    types in the order [order] in which the map yields them, their operations in document
    order, each function as the document describes it (C55). *)
Theorem C54_functions : forall u root d order, definitions_new root = Ok d -> Permutation order (map snd (df_ports d)) ->
  Permutation (map pt_node order) (elems "portType" root) /\
  forall s, generate_wsdl u d order = Ok s -> exists fss, Forall2 (port_funcs root) (map pt_node order) fss /\
    (Forall (Forall (sane_func u sane_type)) fss ->
     lex u s = Some (concat (map (fun fs => concat (map (func_tokens u (fun q => default_format_type u q (target_namespace root)) (format_name u)) fs)) fss))).
Proof.
  intros u root d order D P. split; [exact (proj1 (definitions_ports _ _ _ D P))|]. intros s G.
  apply (generate_ok _ _ _ D _ P) in G as (fss & F & ->). exists fss. split; auto. intros S. apply closed_lex, generate_tokens. exact S.
Qed.
Print Assumptions C54_functions.
(** C54: it panics exactly if some operation describes no function, and describes at most one. *)
Theorem C54_panic : forall u root d order, definitions_new root = Ok d -> Permutation order (map snd (df_ports d)) ->
  (generate_wsdl u d order = Panic <->
   exists p op, In p (elems "portType" root) /\ In op (elems "operation" p) /\ forall f, ~ op_func root op f) /\
  generate_wsdl u d order <> Err.
Proof. exact (fun u root d order D P => generate_panic u root d D order P). Qed.
Print Assumptions C54_panic.
Theorem C54_unique : forall root op f f', accepted root -> classified op -> op_func root op f -> op_func root op f' -> f = f'.
Proof. intros root op f f' A. apply definitions_accepted in A as (d & D). exact (op_func_unique root d D op f f'). Qed.
Print Assumptions C54_unique.
(** C54: another iteration order permutes the port types' blocks and changes nothing else. *)
Theorem C54_order : forall u root d o1 o2 s1 s2, definitions_new root = Ok d ->
  Permutation o1 (map snd (df_ports d)) -> Permutation o2 (map snd (df_ports d)) ->
  generate_wsdl u d o1 = Ok s1 -> generate_wsdl u d o2 = Ok s2 ->
  exists b1 b2, Permutation b1 b2 /\ s1 = concat b1 /\ s2 = concat b2 /\ List.length b1 = List.length (elems "portType" root).
Proof. exact generate_orders. Qed.
Print Assumptions C54_order.
Definition get_date_func : func :=
  {| f_name := lit "GetDate"; f_params := [(lit "request", lit "tds:GetDate")]; f_result := lit "tds:GetDateResponse"; f_doc := Some (lit "Reads the clock.") |}.
Example C54_device : exists s, code_of device = Ok s /\ lex u2 s = Some (tokens_of device get_date_func) /\
  tokens_of device get_date_func = rust u2 "// Reads the clock.
pub async fn get_date<T: transport::Transport>(transport: &T, request: &GetDate) -> Result<GetDateResponse, transport::Error> { transport::request(transport, request).await }".
Proof. eexists. split; [reflexivity|]. split; vm_compute; reflexivity. Qed.
Ltac in_elems := vm_compute; repeat (try (left; reflexivity); right).
Ltac msg_of k := exists (lit k); split; [split; [vm_compute; let X := fresh in intros X; repeat (destruct X as [X|X]; [discriminate X|]); exact X|right; exists (lit "tds"); reflexivity]|split; [in_elems|reflexivity]].
Example C54_get_date : op_func device get_date get_date_func.
Proof.
  eapply (of_request_response device get_date (inp "tds:GetDateRequest") (outp "tds:GetDateResponse") [el "fault" [("name", "Busy"); ("message", "tds:Fault")] []]);
    [|reflexivity|reflexivity|reflexivity| | |].
  - exists [el "documentation" [] [Text (lit "Reads the clock.")]], [el "fault" [("name", "Busy"); ("message", "tds:Fault")] []].
    do 4 (split; [first [reflexivity|repeat constructor; discriminate]|]). reflexivity.
  - eapply (rp_single _ _ (msg "GetDateRequest" [part "parameters" "tds:GetDate"])); [msg_of "GetDateRequest"|reflexivity|reflexivity].
  - eapply (rt_element _ _ (msg "GetDateResponse" [part "parameters" "tds:GetDateResponse"])); [msg_of "GetDateResponse"|reflexivity|reflexivity].
  - eexists [], _, _. split; [reflexivity|]. split; [split; [reflexivity|eexists; reflexivity]|intros y e []].
Qed.
(** C54: the output is not determined by the document. *)
Definition two_ports : node :=
  el "definitions" [] [msg "M" [part "p" "E"]; pt_of "P" [oper "a" [inp "M"; outp "M"]]; pt_of "Q" [oper "b" [inp "M"; outp "M"]]].
Theorem C54_determined_refuted : exists root d o1 o2, definitions_new root = Ok d /\
  Permutation o1 (map snd (df_ports d)) /\ Permutation o2 (map snd (df_ports d)) /\
  forall u, exists s1 s2, generate_wsdl u d o1 = Ok s1 /\ generate_wsdl u d o2 = Ok s2 /\ s1 <> s2.
Proof.
  exists two_ports. eexists. exists (map snd (df_ports (defs_of two_ports))), (rev (map snd (df_ports (defs_of two_ports)))).
  split; [reflexivity|]. split; [apply Permutation_refl|]. split; [apply Permutation_sym, Permutation_rev|].
  intros u. eexists. eexists. split; [reflexivity|]. split; [reflexivity|]. vm_compute. discriminate.
Qed.
Print Assumptions C54_determined_refuted.
(** C54: operations the parser accepts need not have a function: notifications, single parts
    given by type, responses without parts. *)
Definition broken (op : node) (ms : list node) : node := el "definitions" [] (ms ++ [pt_of "P" [op]]).
Theorem C54_every_operation_refuted : forall u root, 
  In root [broken (oper "a" [outp "M"]) [msg "M" [part "p" "E"]];
           broken (oper "a" [outp "M"; inp "M"]) [msg "M" [part "p" "E"]];
           broken (oper "a" [inp "M"]) [msg "M" [el "part" [("name", "p"); ("type", "E")] []]];
           broken (oper "a" [inp "M"; outp "N"]) [msg "M" [part "p" "E"]; msg "N" []]] ->
  exists d, definitions_new root = Ok d /\ generate_wsdl u d (map snd (df_ports d)) = Panic.
Proof. intros u root [<-|[<-|[<-|[<-|[]]]]]; eexists; split; reflexivity. Qed.
Print Assumptions C54_every_operation_refuted.

(** C55: a parameter's message is the message named by the part after the last colon, and
    there is none exactly if no message has that name. *)
Theorem C55_message : forall root d p q, definitions_new root = Ok d -> has p "message" q ->
  exists r, get_message_by_param d p = Ok r /\
  match r with
  | Some m => message_of root q (ms_node m) /\ ms_parts m = parts (ms_node m) /\ forall m', message_of root q m' -> m' = ms_node m
  | None => no_message root q
  end.
Proof.
  intros root d p q D H. unfold get_message_by_param. rewrite H. cbn [expect bind]. eexists. split; [reflexivity|].
  pose proof (message_lookup root d D q) as L. destruct (assoc _ _) as [m|]; auto. destruct L as [A B]. do 2 (split; auto).
  intros m' M'. exact (message_unique root d D q _ _ M' A).
Qed.
Print Assumptions C55_message.
(** C55: the function of an operation: a transport argument, then the parameters of the
    request message, none if it is missing; the response type, empty if it is missing. *)
Theorem C55_function : forall root d o g, definitions_new root = Ok d -> op_type_new (op_node o) = Ok (op_ty o) ->
  (function_new o d = Ok g <-> exists f, op_func root (op_node o) f /\
     g = {| fn_args := (lit "transport", lit "T") :: f_params f; fn_return := f_result f; fn_doc := f_doc f; fn_name := f_name f |}) /\
  (function_new o d = Panic <-> forall f, ~ op_func root (op_node o) f).
Proof. intros root d o g D T. split; [exact (function_ok root d D o g T)|exact (function_panic root d D o T)]. Qed.
Print Assumptions C55_function.
(** C55: the body uses a variable [request]; it is a parameter exactly if the request message
    has a single part or a part of that name. *)
Theorem C55_scoped : forall root op i f qi, accepted root -> (one_way op i \/ exists o fs, request_response op i o fs) -> has i "message" qi ->
  op_func root op f ->
  (well_scoped f <-> exists m, message_of root qi m /\ (List.length (parts m) = 1 \/ exists p, In p (parts m) /\ has p "name" (lit "request"))).
Proof. exact scoped. Qed.
Print Assumptions C55_scoped.
Definition lost : node := broken (oper "a" [inp "Lost"; outp "Lost"]) [].
Definition pair_msg : node :=
  broken (oper "a" [inp "M"; outp "N"]) [msg "M" [part "in" "E"; el "part" [("name", "b"); ("type", "xs:string")] []]; msg "N" [part "r" "R"]].
Theorem C55_scoped_refuted : forall root, In root [lost; pair_msg] -> accepted root /\
  exists op f, In op (concat (map (elems "operation") (elems "portType" root))) /\ op_func root op f /\ ~ well_scoped f.
Proof.
  intros root I. assert (D : exists d, definitions_new root = Ok d) by (destruct I as [<-|[<-|[]]]; eexists; reflexivity).
  assert (A : accepted root) by (apply definitions_accepted; exact D). split; [exact A|].
  destruct D as (d & D). destruct I as [<-|[<-|[]]].
  - exists (oper "a" [inp "Lost"; outp "Lost"]). destruct (proj1 (proj1 (C55_function _ d {| op_node := oper "a" [inp "Lost"; outp "Lost"]; op_ty := RequestResponse (inp "Lost") (outp "Lost") [] |}
      {| fn_args := [(lit "transport", lit "T")]; fn_return := []; fn_doc := None; fn_name := lit "a" |} D eq_refl))) as (f & F & E).
    + injection D as <-. reflexivity.
    + exists f. split; [left; reflexivity|]. split; [exact F|]. injection E as E _ _ _. unfold well_scoped. rewrite <- E. exact (fun x => x).
  - exists (oper "a" [inp "M"; outp "N"]). destruct (proj1 (proj1 (C55_function _ d {| op_node := oper "a" [inp "M"; outp "N"]; op_ty := RequestResponse (inp "M") (outp "N") [] |}
      {| fn_args := [(lit "transport", lit "T"); (lit "in", lit "E"); (lit "b", lit "xs:string")]; fn_return := lit "R"; fn_doc := None; fn_name := lit "a" |} D eq_refl))) as (f & F & E).
    + injection D as <-. reflexivity.
    + exists f. split; [left; reflexivity|]. split; [exact F|]. injection E as E _ _ _. unfold well_scoped. rewrite <- E. intros [[=]|[[=]|[]]].
Qed.
Print Assumptions C55_scoped_refuted.
Example C55_lost : exists s, code_of lost = Ok s /\
  lex u2 s = Some (rust u2 "pub async fn a<T: transport::Transport>(transport: &T) -> Result<, transport::Error> { transport::request(transport, request).await }").
Proof. eexists. split; [reflexivity|]. vm_compute. reflexivity. Qed.
(** Part names are written as they are, and built-in types are not translated. *)
Example C55_pair : exists s, code_of pair_msg = Ok s /\
  lex u2 s = Some (rust u2 "pub async fn a<T: transport::Transport>(transport: &T, in: &E, b: &xs::String) -> Result<R, transport::Error> { transport::request(transport, request).await }").
Proof. eexists. split; [reflexivity|]. vm_compute. reflexivity. Qed.
(** C55: a reference into another namespace finds the message of the same local name here. *)
Theorem C55_namespace_refuted : exists root d p q m t, definitions_new root = Ok d /\ has p "message" q /\
  get_message_by_param d p = Ok (Some m) /\ qualified q (Some t) (lit "M") /\
  attribute root (lit "targetNamespace") = Some (lit "http://device") /\
  (forall n, In n (namespaces root) -> ns_name n = Some t -> ns_uri n = lit "http://other") /\
  exists n, In n (namespaces root) /\ ns_name n = Some t.
Proof.
  exists (Elem (lit "definitions") [(lit "targetNamespace", lit "http://device")]
            [{| ns_name := Some (lit "tds"); ns_uri := lit "http://device" |}; {| ns_name := Some (lit "o"); ns_uri := lit "http://other" |}] [msg "M" []]).
  eexists. exists (inp "o:M"), (lit "o:M"). eexists. exists (lit "o").
  split; [reflexivity|]. split; [reflexivity|]. split; [reflexivity|]. split; [split; [reflexivity|intros [[=]|[]]]|]. split; [reflexivity|]. split.
  - intros n [<-|[<-|[]]] E; [discriminate E|reflexivity].
  - eexists. split; [right; left; reflexivity|reflexivity].
Qed.
Print Assumptions C55_namespace_refuted.

(** C58: the code for a WSDL document: the items of every embedded schema, in document order,
    then the functions. *)
Theorem C58_document : forall u roots root d order, root_element roots root -> definitions_new root = Ok d ->
  Permutation (order d) (map snd (df_ports d)) -> forall s, wsdl_code u roots order = Ok s -> exists fs fss,
  Forall2 (fun '(t, s) f => parse_schema u s [t; root] = Ok f) (embedded root) fs /\
  Forall2 (port_funcs root) (map pt_node (order d)) fss /\
  (Forall (fun f => sane_ns (rf_target_ns f) /\ Forall sane (rf_types f)) fs -> Forall (Forall (sane_func u sane_type)) fss ->
   exists itss, Forall2 (fun f its => file_items u f (rf_types f) its) fs itss /\
   lex u s = Some (concat (map (fun its => concat (map (item_tokens u) its)) itss) ++
                   concat (map (fun fs => concat (map (func_tokens u (fun q => default_format_type u q (target_namespace root)) (format_name u)) fs)) fss))).
Proof. exact code_tokens. Qed.
Print Assumptions C58_document.
(** C58: the tool succeeds exactly if every schema is parsed and generated and every operation
    has a function. *)
Theorem C58_succeeds : forall u roots root d order, root_element roots root -> definitions_new root = Ok d ->
  Permutation (order d) (map snd (df_ports d)) ->
  ((exists s, wsdl_code u roots order = Ok s) <->
   (forall t s, In (t, s) (embedded root) -> exists f f' x, parse_schema u s [t; root] = Ok f /\ generate_rs_file u f = Ok (f', x)) /\
   (forall p op, In p (elems "portType" root) -> In op (elems "operation" p) -> exists f, op_func root op f)).
Proof. exact code_succeeds. Qed.
Print Assumptions C58_succeeds.
(** C58: schemas embedded in WSDL are not resolved: where the same schema on its own yields
    the members of the base type, here there is a member [base]. *)
Definition derived_schema : node :=
  Elem (lit "schema") [(lit "targetNamespace", lit "http://device")]
    [{| ns_name := Some (lit "xs"); ns_uri := lit "http://www.w3.org/2001/XMLSchema" |}; {| ns_name := Some (lit "tds"); ns_uri := lit "http://device" |}]
  [el "complexType" [("name", "Base")] [el "sequence" [] [el "element" [("name", "id"); ("type", "xs:int")] []]];
   el "complexType" [("name", "Derived")] [el "complexContent" [] [el "extension" [("base", "tds:Base")] [el "sequence" [] []]]]].
Definition field_names (p : list item) : list (list str) :=
  concat (map (fun i => match i with IStruct _ _ _ fs => [map (fun f => rf_name f) fs] | _ => [] end) p).
Theorem C58_resolved_refuted : exists t s f f' its its' code,
  embedded (el "definitions" [] [t]) = [(t, s)] /\ parse_schema u2 s [t; el "definitions" [] [t]] = Ok f /\ link f = Ok f' /\
  wsdl_code u2 [el "definitions" [] [t]] (fun d => map snd (df_ports d)) = Ok code /\
  file_items u2 f (rf_types f) its /\ lex u2 code = Some (concat (map (item_tokens u2) its)) /\
  file_items u2 f' (rf_types f') its' /\
  field_names its = [[lit "id"]; [lit "base"]] /\ field_names its' = [[lit "id"]; [lit "id"]].
Proof.
  set (f := match parse_schema u2 derived_schema [el "types" [] [derived_schema]; el "definitions" [] [el "types" [] [derived_schema]]] with Ok f => f | _ => file [] end).
  vm_compute in f. set (f' := match link f with Ok f' => f' | _ => f end). vm_compute in f'.
  set (code := match wsdl_code u2 [el "definitions" [] [el "types" [] [derived_schema]]] (fun d => map snd (df_ports d)) with Ok c => c | _ => [] end).
  vm_compute in code.
  assert (I : exists its, file_items u2 f (rf_types f) its /\ lex u2 code = Some (concat (map (item_tokens u2) its)) /\ field_names its = [[lit "id"]; [lit "base"]]).
  { eexists. split; [eapply all_cons; [apply items_struct, all_nil|eapply all_cons; [apply items_struct, all_nil|apply all_nil]]|].
    split; vm_compute; reflexivity. }
  assert (I' : exists its, file_items u2 f' (rf_types f') its /\ field_names its = [[lit "id"]; [lit "id"]]).
  { eexists. split; [eapply all_cons; [apply items_struct, all_nil|eapply all_cons; [apply items_struct, all_nil|apply all_nil]]|].
    vm_compute; reflexivity. }
  destruct I as (its & A & B & C), I' as (its' & A' & C').
  exists (el "types" [] [derived_schema]), derived_schema, f, f', its, its', code.
  split; [reflexivity|]. do 3 (split; [vm_compute; reflexivity|]). do 4 (split; [assumption|]). assumption.
Qed.
Print Assumptions C58_resolved_refuted.
