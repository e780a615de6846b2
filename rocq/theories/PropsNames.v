(** Property theorems C26-C32: comments, names, built-in types and modifiers in generated code. *)
From Coq Require Import NArith ZArith Bool Ascii String List Lia.
From Verif Require Import Str StrFacts SpecLex SpecSerde SerdeProofs Xml Comment Names Prim Ints SpecBuiltin SpecNames
  CommentProofs NamesProofs.
Import ListNotations.
Local Open Scope N_scope.

(** The tables for non-ASCII characters used in the examples: none is alphabetic. *)
Definition u0 : uni := {| u_alphabetic := fun _ => false; u_numeric := fun _ => false;
                          u_lower := fun _ => false; u_upper := fun _ => false |}.

(** C26: every line of the formatted documentation starts with the indentation and [//]; the
    only white space in it is the blank and the line feed; it ends in a line feed. *)
Theorem C26_comment_lines : forall doc max_len indent ps,
  pieces (format_comment doc max_len indent) ps ->
  (forall c, In c (format_comment doc max_len indent) -> is_whitespace c = true -> c = 32 \/ c = 10) /\
  exists ls, ps = ls ++ [[]] /\
    forall l, In l ls -> exists rest, l = repeat 32 indent ++ lit "//" ++ rest.
Proof. exact comment_lines_safe. Qed.
Print Assumptions C26_comment_lines.
Theorem C26_lines_exist : forall s, exists ps, pieces s ps.
Proof. exact pieces_total. Qed.
Print Assumptions C26_lines_exist.
Example C26_ex1 : format_comment (Some (lit "a b" ++ [10] ++ lit "x" ++ [13; 10] ++ lit "*/ fn main() {}" ++ [8232] ++ lit "pub"))%list 80 2
  = (lit "  // a b" ++ [10] ++ lit "  // */ fn main() {} pub" ++ [10])%list.
Proof. reflexivity. Qed.

(** C27: the words of the comment are the words of the documentation lines (those with more
    than one byte), in order; lines are filled greedily and are longer than the limit only if
    they hold one word. *)
Theorem C27_comment_words : forall doc max_len indent ps r,
  pieces (match doc with Some d => d | None => [] end) ps -> kept_words ps r ->
  exists groups, format_comment doc max_len indent = comment_text indent (concat groups) /\
    map (@concat str) groups = r /\ Forall (filled max_len indent) groups.
Proof. exact comment_spec. Qed.
Print Assumptions C27_comment_words.
Theorem C27_words_exist : forall ps, exists r, kept_words ps r.
Proof. exact kept_total. Qed.
Print Assumptions C27_words_exist.
Example C27_ex1 : format_comment (Some (lit "alpha beta gamma")) 14 0 =
  comment_text 0 [[lit "alpha"; lit "beta"]; [lit "gamma"]].
Proof. reflexivity. Qed.

(** C28: a field or module name is a Rust identifier in snake case, or [try]. *)
Theorem C28_name_is_identifier : forall u name l,
  local name l -> ascii_text l -> (exists c, In c l /\ alnum c) ->
  let r := format_name u name in
  (rust_ident r \/ r = lit "try") /\ snake_shape r /\ letters r = letters l.
Proof. exact format_name_ident. Qed.
Print Assumptions C28_name_is_identifier.
Example C28_ex1 : format_name u0 (lit "tt:PTZNodeType2") = lit "ptz_node_type_2". Proof. reflexivity. Qed.
Example C28_ex2 : format_name u0 (lit "Type") = lit "_type". Proof. reflexivity. Qed.
Example C28_ex3 : format_name u0 (lit "tt:2-GHz--band.") = lit "_2_g_hz_band". Proof. reflexivity. Qed.

(** C28: word boundaries of an ASCII name, position by position. *)
Theorem C28_name_words : forall u name l, local name l -> ascii_text l ->
  (format_name u name = snake_spec l \/ format_name u name = 95 :: snake_spec l) /\
  (format_name u name = 95 :: snake_spec l <->
     (exists c t, snake_spec l = c :: t /\ digit c) \/ In (snake_spec l) rs_keywords).
Proof.
  exact (fun u name l H1 H2 => conj (format_name_snake u name l H1 H2) (format_name_exact u name l H1 H2)).
Qed.
Print Assumptions C28_name_words.
Example C28_ex4 : snake_spec (lit "XMLHttp9Req") = lit "xml_http_9_req". Proof. reflexivity. Qed.

(** C28: without letters and digits after the last ':' there is no identifier at all. *)
Theorem C28_name_empty : forall u name l, local name l ->
  (format_name u name = [] <-> forall c, In c l -> is_alphanumeric u c = false).
Proof. exact format_name_empty. Qed.
Print Assumptions C28_name_empty.

(** C28: "every NCName gives an identifier" is false ("try", "_"), and for non-ASCII names the
    byte index is taken for a character index: in [éaB] no boundary is found before [B]. *)
Theorem C28_every_name_refuted :
  (forall u, format_name u (lit "Try") = lit "try" /\ In (lit "try") rust_reserved) /\
  (forall u, format_name u (lit "_") = []) /\
  (forall u, u_alphabetic u 233 = true -> u_numeric u 233 = false ->
     format_name u [233; 97; 66] = [233; 97; 98] /\
     format_name u (lit "eaB") = lit "ea_b").
Proof. exact name_refuted. Qed.
Print Assumptions C28_every_name_refuted.

(** C29: names of the own namespace (or without prefix) that are no built-ins give an
    unqualified identifier, or [try]. *)
Theorem C29_own_type : forall u name p l xsd tns,
  qualified name p l -> (exists c, In c l /\ alnum c) ->
  p = None \/ p = ns_prefix tns -> ~ (p = ns_prefix xsd /\ In l (map fst xsd_builtins)) ->
  let r := format_type_name u name xsd tns in
  (rust_ident r \/ r = lit "try") /\ letters r = letters l.
Proof. exact format_type_own_ident. Qed.
Print Assumptions C29_own_type.
Definition xs_ns : option namespace := Some ({| ns_name := Some (lit "xs"); ns_uri := lit "http://www.w3.org/2001/XMLSchema" |}).
Definition tt_ns : option namespace := Some ({| ns_name := Some (lit "tt"); ns_uri := lit "http://tt" |}).
Example C29_ex1 : format_type_name u0 (lit "tt:ptz-node_type2x") xs_ns tt_ns = lit "PtzNodeType2X". Proof. reflexivity. Qed.
Example C29_ex2 : format_type_name u0 (lit "self") xs_ns tt_ns = lit "_Self". Proof. reflexivity. Qed.

(** C29: names of another namespace are qualified with their prefix. *)
Theorem C29_foreign_type : forall u name q l xsd tns,
  qualified name (Some q) l -> (exists c, In c l /\ alnum c) ->
  ns_prefix tns <> Some q -> ~ (Some q = ns_prefix xsd /\ In l (map fst xsd_builtins)) ->
  exists us T, format_type_name u name xsd tns = us ++ q ++ lit "::" ++ T /\ (us = [] \/ us = [95]) /\
    T <> [] /\ (forall c, In c T -> alnum c) /\ letters T = letters l.
Proof. exact format_type_foreign_path. Qed.
Print Assumptions C29_foreign_type.
Example C29_ex3 : format_type_name u0 (lit "wsnt:topicExpression") xs_ns tt_ns = lit "wsnt::TopicExpression". Proof. reflexivity. Qed.

(** C29: a letter that does not follow a letter begins a word: it becomes upper case. *)
Theorem C29_word_starts : forall u a c b, ascii_text a -> letter c ->
  (a = [] \/ ~ letter (List.last a 0)) ->
  exists P Q, filter_type_name u (to_pascal_case u (a ++ c :: b)) = P ++ to_ascii_uppercase c :: Q /\
    letters P = letters a.
Proof. exact pascal_word_start. Qed.
Print Assumptions C29_word_starts.

(** C29: foreign names are not always paths: the part after [::] is not escaped, and the prefix
    is copied as it is. *)
Theorem C29_every_type_refuted : forall u,
  format_type_name u (lit "a:0fst") xs_ns tt_ns = lit "a::0Fst" /\
  format_type_name u (lit "a:self") xs_ns tt_ns = lit "a::Self" /\
  format_type_name u (lit "my-ns:t") xs_ns tt_ns = lit "my-ns::T" /\
  format_type_name u (lit "type:t") xs_ns tt_ns = lit "type::T".
Proof. exact type_refuted. Qed.
Print Assumptions C29_every_type_refuted.

(** C30: the mapping applies exactly to names with the schema prefix (or without prefix if the
    schema namespace is the default one) and a local part listed by XML Schema Part 2. *)
Theorem C30_builtin_names : forall name p l xsd, qualified name p l ->
  (match_built_in_type name xsd = None <-> ~ (p = ns_prefix xsd /\ In l (map fst xsd_builtins))).
Proof. exact built_in_none. Qed.
Print Assumptions C30_builtin_names.
Theorem C30_builtin_mapping : forall name xsd t,
  match_built_in_type name xsd = Some t <->
  exists l, qualified name (ns_prefix xsd) l /\ assoc l built_in_table = Some t.
Proof. exact built_in_iff. Qed.
Print Assumptions C30_builtin_mapping.
Example C30_ex1 : format_type_name u0 (lit "xs:unsignedShort") xs_ns tt_ns = lit "u16". Proof. reflexivity. Qed.
Example C30_ex2 : format_type_name u0 (lit "xsd:string") xs_ns tt_ns = lit "xsd::String". Proof. reflexivity. Qed.

(** C30: every built-in of XML Schema Part 2 is mapped to a type with the same value space
    (xs:float to the wider binary64, binary data to its text). *)
Theorem C30_value_spaces : forall n sp, In (n, sp) xsd_builtins ->
  exists r sp', assoc n built_in_table = Some r /\ assoc r rust_types = Some sp' /\ same_space sp sp'.
Proof. exact value_spaces. Qed.
Print Assumptions C30_value_spaces.

(** C30: the integer types: the parser of the mapped type reads exactly the literals of the
    values in the range (see [reads]). *)
Theorem C30_integer_texts : forall n lo hi, In (n, SInt lo hi) xsd_builtins ->
  exists r f, assoc n built_in_table = Some r /\ assoc r int_parsers = Some f /\ reads lo hi f.
Proof. exact integer_texts. Qed.
Print Assumptions C30_integer_texts.
Example C30_ex3 : exists f, assoc (lit "i8") int_parsers = Some f /\
  f (lit "-128") = Ok (-128)%Z /\ f (lit "128") = Err /\ f (lit "+7") = Ok 7%Z /\ f (lit " 7") = Err.
Proof. eexists. repeat split. Qed.

(** C30: "every literal is accepted" is false: "1" for xs:boolean, "-0" for the unsigned types;
    and the types of XSD outside the list give a path into the support crate. *)
Theorem C30_every_literal_refuted :
  bool_from_str (lit "1") = Err /\ bool_from_str (lit "0") = Err /\
  (forall max, parse_uint max (lit "-0") = Err) /\
  (forall u, format_type_name u (lit "xs:anyType") xs_ns tt_ns = lit "xs::AnyType").
Proof. exact literal_refuted. Qed.
Print Assumptions C30_every_literal_refuted.

(** C31: different names can become one. *)
Theorem C31_names_distinct_refuted :
  (forall u, format_name u (lit "fooBar") = format_name u (lit "foo-bar") /\
             format_name u (lit "a1") = format_name u (lit "a_1")) /\
  (forall u xsd tns, match_built_in_type (lit "FooBar") xsd = None ->
     match_built_in_type (lit "foo_bar") xsd = None ->
     format_type_name u (lit "FooBar") xsd tns = format_type_name u (lit "foo_bar") xsd tns).
Proof. exact distinct_refuted. Qed.
Print Assumptions C31_names_distinct_refuted.

(** C31: not, however, if they are lower-case words joined by single underscores, resp. types
    in upper camel case. *)
Theorem C31_field_names_injective : forall u a b, snake_word a -> snake_word b ->
  format_name u a = format_name u b -> a = b.
Proof. exact format_name_inj. Qed.
Print Assumptions C31_field_names_injective.
Theorem C31_type_names_injective : forall u xsd tns a b, canonical_pascal a -> canonical_pascal b ->
  match_built_in_type a xsd = None -> match_built_in_type b xsd = None ->
  format_type_name u a xsd tns = format_type_name u b xsd tns -> a = b.
Proof. exact format_type_inj. Qed.
Print Assumptions C31_type_names_injective.
Example C31_ex1 : format_name u0 (lit "loop") = lit "_loop". Proof. reflexivity. Qed.

(** C32: modifiers. *)
Theorem C32_modifiers : forall t,
  (forall ms, In MEmpty ms -> modify_type t ms = lit "()") /\
  (forall ms, ~ In MEmpty ms -> In MRecursive ms -> modify_type t ms = lit "Vec<" ++ t ++ lit ">") /\
  modify_type t [] = t /\
  (forall ms, ~ In MEmpty ms -> ~ In MRecursive ms ->
     modify_type t (ms ++ [MNone]) = modify_type t ms /\
     modify_type t (ms ++ [MArray]) = lit "Vec<" ++ modify_type t ms ++ lit ">" /\
     modify_type t (ms ++ [MOption]) = lit "Option<" ++ modify_type t ms ++ lit ">").
Proof.
  exact (fun t => conj (modify_empty t) (conj (modify_recursive t) (modify_steps t))).
Qed.
Print Assumptions C32_modifiers.
Example C32_ex1 : modify_type (lit "T") [MArray; MOption] = lit "Option<Vec<T>>". Proof. reflexivity. Qed.
Example C32_ex2 : modify_type (lit "T") [MOption; MEmpty; MRecursive] = lit "()". Proof. reflexivity. Qed.
