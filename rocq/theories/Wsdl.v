(** Model of wsdl-parser: parser/{mod,definitions,message,port_type,binding,types}.rs,
    generator/{mod,function}.rs, and of the text wsdl-parser-cli/src/main.rs writes for a
    document.  The formatting functions of generator/mod.rs l.53-190 are copies of those of
    xsd-parser (Comment.v, Names.v).

    A [HashMap] is the list of its entries in order of insertion; the order in which it is
    iterated is a parameter of [generate]. *)
From Coq Require Import NArith Bool Ascii String List.
From Verif Require Import Str Xml Comment Names Entity Parser Link Gen.
Import ListNotations.
Local Open Scope list_scope.

(** parser/mod.rs l.17-54: the element kinds the code distinguishes *)
Inductive wtype := WBinding | WDefinitions | WDocumentation | WImport | WInput | WFault | WMessage
  | WOperation | WOutput | WPart | WPortType | WTypes | WUnknown.
Definition wsdl_type (n : node) : wtype :=
  match assoc (tag_name n)
    [(lit "binding", WBinding); (lit "definitions", WDefinitions); (lit "documentation", WDocumentation);
     (lit "import", WImport); (lit "input", WInput); (lit "fault", WFault); (lit "message", WMessage);
     (lit "operation", WOperation); (lit "output", WOutput); (lit "part", WPart); (lit "portType", WPortType);
     (lit "types", WTypes)] with
  | Some t => t
  | None => WUnknown
  end.
Definition wtype_eqb (a b : wtype) : bool :=
  match a, b with
  | WBinding, WBinding | WDefinitions, WDefinitions | WDocumentation, WDocumentation | WImport, WImport
  | WInput, WInput | WFault, WFault | WMessage, WMessage | WOperation, WOperation | WOutput, WOutput
  | WPart, WPart | WPortType, WPortType | WTypes, WTypes | WUnknown, WUnknown => true
  | _, _ => false
  end.
(** children().filter(is_element && wsdl_type == t), as in message.rs l.37-44 *)
Definition of_type (t : wtype) (n : node) : bool := is_element n && wtype_eqb (wsdl_type n) t.

(** message.rs l.26-49, 76-95: a message is its node and its parts; accessors panic *)
Record message := { ms_node : node; ms_parts : list node }.
Definition message_new (n : node) : message := {| ms_node := n; ms_parts := filter (of_type WPart) (children n) |}.
Definition name_of (n : node) : res str := expect (attribute n (lit "name")).

(** port_type.rs l.110-116; parameters and faults are their nodes *)
Inductive op_type :=
| RequestResponse (input output : node) (faults : list node)
| OneWay (input : node)
| SolicitResponse (output input : node) (faults : list node)
| Notification (output : node).
(** port_type.rs l.118-173: the loop over the element children *)
Fixpoint op_type_loop (cs : list node) : res op_type :=
  match cs with
  | [] => Panic
  | ch :: cs' =>
    match wsdl_type ch with
    | WInput =>
      match cs' with
      | o :: rest => if wtype_eqb (wsdl_type o) WOutput
                     then Ok (RequestResponse ch o (filter (fun n => wtype_eqb (wsdl_type n) WFault) rest)) else Panic
      | [] => Ok (OneWay ch)
      end
    | WOutput =>
      match cs' with
      | i :: rest => if wtype_eqb (wsdl_type i) WInput
                     then Ok (SolicitResponse ch i (filter (fun n => wtype_eqb (wsdl_type n) WFault) rest)) else Panic
      | [] => Ok (Notification ch)
      end
    | _ => op_type_loop cs'
    end
  end.
Definition op_type_new (n : node) : res op_type := op_type_loop (filter is_element (children n)).

(** port_type.rs l.76-108 *)
Record operation := { op_node : node; op_ty : op_type }.
Definition operation_new (n : node) : res operation := rmap (fun t => {| op_node := n; op_ty := t |}) (op_type_new n).
Fixpoint find_map {A B} (f : A -> option B) (l : list A) : option B :=
  match l with [] => None | a :: l' => match f a with Some b => Some b | None => find_map f l' end end.
Definition operation_doc (o : operation) : option str :=
  find_map (fun n => if wtype_eqb (wsdl_type n) WDocumentation then text n else None) (children (op_node o)).

(** port_type.rs l.16-46 *)
Record port_type := { pt_node : node; pt_ops : list operation }.
Definition port_type_new (n : node) : res port_type :=
  rmap (fun ops => {| pt_node := n; pt_ops := ops |}) (rtraverse operation_new (filter (of_type WOperation) (children n))).

(** definitions.rs l.37-45; imports and bindings are their nodes (binding.rs l.1-79: reading
    a binding only collects nodes) *)
Record definitions := {
  df_node : node; df_imports : list (str * node); df_types : list node; df_messages : list (str * message);
  df_ports : list (str * port_type); df_bindings : list (str * node) }.
(** definitions.rs l.106-136: insert and assert that the key is new *)
Definition insert_new {A} (k : str) (v : A) (m : list (str * A)) : res (list (str * A)) :=
  match assoc k m with Some _ => Panic | None => Ok (m ++ [(k, v)]) end.
(** definitions.rs l.93-102 *)
Definition add_child (d : definitions) (ch : node) : res definitions :=
  match wsdl_type ch with
  | WImport =>
    bind (expect (attribute ch (lit "namespace"))) (fun k => bind (insert_new k ch (df_imports d)) (fun m =>
      Ok {| df_node := df_node d; df_imports := m; df_types := df_types d; df_messages := df_messages d; df_ports := df_ports d; df_bindings := df_bindings d |}))
  | WTypes =>
      Ok {| df_node := df_node d; df_imports := df_imports d; df_types := df_types d ++ [ch]; df_messages := df_messages d; df_ports := df_ports d; df_bindings := df_bindings d |}
  | WMessage =>
    bind (name_of ch) (fun k => bind (insert_new k (message_new ch) (df_messages d)) (fun m =>
      Ok {| df_node := df_node d; df_imports := df_imports d; df_types := df_types d; df_messages := m; df_ports := df_ports d; df_bindings := df_bindings d |}))
  | WPortType =>
    bind (port_type_new ch) (fun p => bind (name_of ch) (fun k => bind (insert_new k p (df_ports d)) (fun m =>
      Ok {| df_node := df_node d; df_imports := df_imports d; df_types := df_types d; df_messages := df_messages d; df_ports := m; df_bindings := df_bindings d |})))
  | WBinding =>
    bind (name_of ch) (fun k => bind (insert_new k ch (df_bindings d)) (fun m =>
      Ok {| df_node := df_node d; df_imports := df_imports d; df_types := df_types d; df_messages := df_messages d; df_ports := df_ports d; df_bindings := m |}))
  | _ => Ok d
  end.
Fixpoint add_children (d : definitions) (cs : list node) : res definitions :=
  match cs with [] => Ok d | ch :: cs' => bind (add_child d ch) (fun d' => add_children d' cs') end.
(** definitions.rs l.84-104 *)
Definition definitions_new (n : node) : res definitions :=
  add_children {| df_node := n; df_imports := []; df_types := []; df_messages := []; df_ports := []; df_bindings := [] |}
    (filter is_element (children n)).

(** definitions.rs l.80-82, port_type.rs l.189-193 *)
Definition get_message_by_param (d : definitions) (p : node) : res (option message) :=
  bind (expect (attribute p (lit "message"))) (fun q => Ok (assoc (last_segment 58 q) (df_messages d))).

(** function.rs l.13-38; the generic parameter is the constant GENERIC_TRANSPORT *)
Record function := { fn_args : list (str * str); fn_return : str; fn_doc : option str; fn_name : str }.
Definition param_new (part : node) : res (str * str) :=
  bind (name_of part) (fun n =>
  bind (expect (or_else (attribute part (lit "element")) (attribute part (lit "type")))) (fun t => Ok (n, t))).
(** function.rs l.65-79 *)
Definition get_input_params (input : option message) : res (list (str * str)) :=
  let transport := (lit "transport", lit "T") in
  match input with
  | None => Ok [transport]
  | Some m =>
    match ms_parts m with
    | [p] => bind (expect (attribute p (lit "element"))) (fun t => Ok [transport; (lit "request", t)])
    | ps => bind (rtraverse param_new ps) (fun l => Ok (transport :: l))
    end
  end.
(** function.rs l.58: and_then(|m| m.parts()[0].element()).unwrap_or("") *)
Definition return_type (output : option message) : res str :=
  match output with
  | None => Ok []
  | Some m =>
    match ms_parts m with
    | [] => Panic
    | p :: _ => Ok (match attribute p (lit "element") with Some t => t | None => [] end)
    end
  end.
(** function.rs l.40-63 *)
Definition function_new (o : operation) (d : definitions) : res function :=
  let build input output :=
    bind (get_input_params input) (fun args =>
    bind (return_type output) (fun ret =>
    bind (name_of (op_node o)) (fun n =>
      Ok {| fn_args := args; fn_return := ret; fn_doc := operation_doc o; fn_name := n |}))) in
  match op_ty o with
  | RequestResponse i out _ =>
    bind (get_message_by_param d i) (fun im => bind (get_message_by_param d out) (fun om => build im om))
  | OneWay i => bind (get_message_by_param d i) (fun im => build im None)
  | _ => Panic
  end.

Section WGen.
Context (u : uni).
(** generator/mod.rs l.22-51 *)
Definition generate_function (f : function) (tns : option namespace) : str :=
  let ftype t := default_format_type u t tns in
  nl ++ format_comment (fn_doc f) 80 0 ++ lit "pub async fn " ++ format_name u (fn_name f) ++ lit "<" ++
  lit "T: " ++ ftype (lit "transport::Transport") ++ lit ">(" ++ nl ++ lit "    " ++
  join (lit "," ++ nl ++ lit "    ") (map (fun '(n, t) => n ++ lit ": &" ++ ftype t) (fn_args f)) ++ nl ++
  lit ") -> Result<" ++ ftype (fn_return f) ++ lit ", transport::Error> {" ++ nl ++ lit "    " ++
  lit "transport::request(transport, request).await" ++ nl ++ lit "}" ++ nl.
(** generator/mod.rs l.10-20; [order] are the port types in the order the map yields them *)
Definition generate_wsdl (d : definitions) (order : list port_type) : res str :=
  bind (rtraverse (fun p => rtraverse (fun o =>
          bind (function_new o d) (fun f => Ok (generate_function f (target_namespace (df_node d))))) (pt_ops p)) order)
    (fun ts => Ok (concat (map (@concat N) ts))).
(** types.rs l.20-24 *)
Definition schemas (t : node) : list node :=
  filter (fun n => is_element n && str_eqb (tag_name n) (lit "schema")) (children t).
(** wsdl-parser-cli/src/main.rs l.60-78: the text for a document; [roots] are the children of
    the document node (root_element: the first element).  Every schema is parsed with its
    [types] and [definitions] ancestors; the resolution of Link.v is not part of it. *)
Definition wsdl_code (roots : list node) (order : definitions -> list port_type) : res str :=
  bind (expect (find is_element roots)) (fun root =>
  bind (definitions_new root) (fun d =>
  bind (rtraverse (fun t => rtraverse (fun s =>
          bind (parse_schema u s [t; root]) (fun f => rmap snd (generate_rs_file u f))) (schemas t)) (df_types d)) (fun code =>
  bind (generate_wsdl d (order d)) (fun fns => Ok (concat (map (@concat N) code) ++ fns))))).
End WGen.
