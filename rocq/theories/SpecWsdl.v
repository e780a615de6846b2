(** Specification of WSDL 1.1 documents as the tool reads them and of the functions it writes.
    Only the XML tree (Xml.v), names and Rust tokens are used here. *)
From Coq Require Import NArith Bool Ascii String List.
From Verif Require Import Str SpecNames Xml Names SpecSchema SpecRust.
Import ListNotations.
Local Open Scope string_scope.
Local Open Scope list_scope.

(** ** Reading the document *)
Definition elements (n : node) : list node := filter is_element (children n).
Definition elems (t : string) (n : node) : list node := filter (tagged t) (elements n).

(** Every declaration of a kind carries the key attribute, and no two carry the same. *)
Definition keyed (root : node) (t a : string) : Prop :=
  (forall c, In c (elems t root) -> present c a) /\ NoDup (map (fun c => attribute c (lit a)) (elems t root)).

(** ** Operations
    The first child element that is an input or an output decides, with the one after it. *)
Definition neither (n : node) : Prop := ~ tag "input" n /\ ~ tag "output" n.
Definition faults (l : list node) : list node := filter (tagged "fault") l.
Definition request_response (op i o : node) (fs : list node) : Prop :=
  exists pre rest, elements op = pre ++ i :: o :: rest /\ Forall neither pre /\ tag "input" i /\ tag "output" o /\ fs = faults rest.
Definition one_way (op i : node) : Prop :=
  exists pre, elements op = pre ++ [i] /\ Forall neither pre /\ tag "input" i.
Definition solicit_response (op o i : node) (fs : list node) : Prop :=
  exists pre rest, elements op = pre ++ o :: i :: rest /\ Forall neither pre /\ tag "output" o /\ tag "input" i /\ fs = faults rest.
Definition notification (op o : node) : Prop :=
  exists pre, elements op = pre ++ [o] /\ Forall neither pre /\ tag "output" o.
Definition classified (op : node) : Prop :=
  (exists i o fs, request_response op i o fs) \/ (exists i, one_way op i) \/
  (exists o i fs, solicit_response op o i fs) \/ (exists o, notification op o).

(** The leading text of the first documentation child that starts with text. *)
Definition documentation_text (n : node) (d : str) : Prop := tag "documentation" n /\ exists r, children n = Text d :: r.
Definition op_documented (op : node) (d : option str) : Prop :=
  match d with
  | Some d => exists l x r, children op = l ++ x :: r /\ documentation_text x d /\ forall y e, In y l -> ~ documentation_text y e
  | None => forall y e, In y (children op) -> ~ documentation_text y e
  end.

(** Documents the parser accepts. *)
Definition accepted (root : node) : Prop :=
  keyed root "import" "namespace" /\ keyed root "message" "name" /\ keyed root "portType" "name" /\ keyed root "binding" "name" /\
  forall p op, In p (elems "portType" root) -> In op (elems "operation" p) -> classified op.

(** ** Messages
    [q] refers to the message named by its part after the last colon; the prefix plays no role. *)
Definition message_of (root : node) (q : str) (m : node) : Prop :=
  exists k, local q k /\ In m (elems "message" root) /\ has m "name" k.
Definition no_message (root : node) (q : str) : Prop := forall m, ~ message_of root q m.
Definition parts (m : node) : list node := elems "part" m.
Definition part_type (p : node) (t : str) : Prop := has p "element" t \/ (absent p "element" /\ has p "type" t).
(** Parameters after the transport: none without a message, one named [request] for a single
    part, otherwise one per part. *)
Inductive request_params (root : node) (q : str) : list (str * str) -> Prop :=
| rp_missing : no_message root q -> request_params root q []
| rp_single m p t : message_of root q m -> parts m = [p] -> has p "element" t -> request_params root q [(lit "request", t)]
| rp_parts m l : message_of root q m -> List.length (parts m) <> 1 ->
    Forall2 (fun p '(n, t) => has p "name" n /\ part_type p t) (parts m) l -> request_params root q l.
(** The result type: that of the element of the first part, or nothing. *)
Inductive response_type (root : node) (q : str) : str -> Prop :=
| rt_missing : no_message root q -> response_type root q []
| rt_element m p ps t : message_of root q m -> parts m = p :: ps -> has p "element" t -> response_type root q t
| rt_untyped m p ps : message_of root q m -> parts m = p :: ps -> absent p "element" -> response_type root q [].

(** ** Functions *)
Record func := { f_name : str; f_params : list (str * str); f_result : str; f_doc : option str }.
Inductive op_func (root op : node) : func -> Prop :=
| of_request_response i o fs qi qo n ps t d : request_response op i o fs -> has i "message" qi -> has o "message" qo ->
    has op "name" n -> request_params root qi ps -> response_type root qo t -> op_documented op d ->
    op_func root op {| f_name := n; f_params := ps; f_result := t; f_doc := d |}
| of_one_way i qi n ps d : one_way op i -> has i "message" qi -> has op "name" n -> request_params root qi ps -> op_documented op d ->
    op_func root op {| f_name := n; f_params := ps; f_result := []; f_doc := d |}.
Definition sane_func (u : uni) (sane_type : str -> Prop) (f : func) : Prop :=
  sane_type (f_result f) /\ Forall (fun '(n, t) => Forall (fun c => word_char u c = true) n /\ sane_type t) (f_params f).
Section Functions.
Context (u : uni) (type_text ident : str -> str).
Definition func_tokens (f : func) : list token :=
  notes (doc_words (f_doc f)) ++ rust u "pub async fn" ++ word (ident (f_name f)) ++ rust u "<T:" ++ lexemes u (type_text (lit "transport::Transport")) ++ rust u ">(" ++
  separated (rust u ",")
    (map (fun '(n, t) => word n ++ rust u ": &" ++ lexemes u (type_text t)) ((lit "transport", lit "T") :: f_params f)) ++
  rust u ") -> Result<" ++ lexemes u (type_text (f_result f)) ++
  rust u ", transport::Error> { transport::request(transport, request).await }".
(** The functions of port types: those of their operations, in order. *)
Definition port_funcs (root p : node) (fs : list func) : Prop := Forall2 (op_func root) (elems "operation" p) fs.
End Functions.
(** The body uses the variables [transport] and [request]; the first is always a parameter. *)
Definition well_scoped (f : func) : Prop := In (lit "request") (map fst (f_params f)).

(** The schemas embedded in a document, with the types element each is in. *)
Definition embedded (root : node) : list (node * node) :=
  List.concat (map (fun t => map (fun s => (t, s)) (elems "schema" t)) (elems "types" root)).
(** The root element of a document. *)
Definition root_element (roots : list node) (r : node) : Prop :=
  exists pre post, roots = pre ++ r :: post /\ is_element r = true /\ forall y, In y pre -> is_element y = false.
