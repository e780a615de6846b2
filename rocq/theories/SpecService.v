(** Services: WSDL documents of the usual kind - every operation takes the element of one
    message and answers with the element of another - and the functions for them. *)
From Coq Require Import NArith Bool Ascii String List.
From Verif Require Import Str SpecNames Xml Names SpecSchema SpecRust SpecGen SpecDoc SpecScope SpecDistinct SpecWsdl.
Import ListNotations.
Local Open Scope string_scope.
Local Open Scope list_scope.

Definition operations (root : node) : list node := List.concat (map (elems "operation") (elems "portType" root)).

(** What an operation of the usual kind says: its name, the element of the only part of the
    request message, the element of the first part of the response message, its documentation. *)
Record exchange := { ex_name : str; ex_request : str; ex_response : str; ex_doc : option str }.
Definition request_element (root : node) (q t : str) : Prop :=
  exists m p, message_of root q m /\ parts m = [p] /\ has p "element" t.
Definition response_element (root : node) (q t : str) : Prop :=
  exists m p ps, message_of root q m /\ parts m = p :: ps /\ has p "element" t.
Definition exchanges (root op : node) (x : exchange) : Prop :=
  exists i o fs qi qo, request_response op i o fs /\ has i "message" qi /\ has o "message" qo /\
    has op "name" (ex_name x) /\ request_element root qi (ex_request x) /\ response_element root qo (ex_response x) /\
    op_documented op (ex_doc x).

(** Documents with such operations, and with schemas as in C60. *)
Definition service (root : node) : Prop :=
  accepted root /\ (forall t s, In (t, s) (embedded root) -> ok_schema s /\ tidy s) /\
  forall op, In op (operations root) -> exists x, exchanges root op x /\ quiet (ex_request x) /\ quiet (ex_response x).

(** The function for an exchange. *)
Definition exchange_tokens (u : uni) (type_text ident : str -> str) (x : exchange) : list token :=
  notes (doc_words (ex_doc x)) ++ rust u "pub async fn" ++ word (ident (ex_name x)) ++
  rust u "<T: transport::Transport>(transport: &T, request: &" ++ lexemes u (type_text (ex_request x)) ++
  rust u ") -> Result<" ++ lexemes u (type_text (ex_response x)) ++
  rust u ", transport::Error> { transport::request(transport, request).await }".

(** An element declared in an embedded schema with a definition of its own, referred to
    without prefix or with the prefix [own] of the target namespace of the definitions; it is
    not called like the type parameter of the functions. *)
Definition offered (root : node) (own : option str) (q : str) : Prop :=
  exists p l t s, qualified q p l /\ (p = None \/ p = own) /\ In (t, s) (embedded root) /\ introduced s l /\ letters l <> lit "t".
(** Names of operations that give identifiers. *)
Definition callable_name (n : str) : Prop :=
  ~ In 58%N n /\ ascii_text n /\ (exists c, In c n /\ alnum c) /\ letters n <> lit "try".

(** The names two schemas give their types, under the names of types and modules: neither gives
    outside of modules a name the other gives anywhere, and no module of the one is called like
    one of the other. *)
Definition strangers (ident : str -> str) (a b : node * (str -> list token)) : Prop :=
  let '(s, ty) := a in let '(s', ty') := b in
  forall nss nss', Forall2 (inside_names s) (children s) nss -> Forall2 (inside_names s') (children s') nss' ->
    (forall x y, In x (outsides s) -> In y (outsides s' ++ List.concat nss') -> ty x <> ty' y) /\
    (forall x y, In x (outsides s ++ List.concat nss) -> In y (outsides s') -> ty x <> ty' y) /\
    forall m, In m (module_names s ident nss) -> In m (module_names s' ident nss') -> False.
