(** Model of the name conversions: xsd-parser/src/generator/{utils,default,base}.rs and the
    parts of the Inflector crate (0.11.4) they use.  wsdl-parser/src/generator/mod.rs
    l.80-190 repeats the same functions. *)
From Coq Require Import List NArith Bool Ascii String.
From Verif Require Import Str Xml.
Import ListNotations.
Local Open Scope N_scope.

Section Names.
Context (u : uni).

(** Inflector: trim_right = trim_end_matches(|c| !c.is_alphanumeric()) *)
Fixpoint drop_sep (s : str) : str :=
  match s with [] => [] | c :: s' => if is_alphanumeric u c then s else drop_sep s' end.
Definition trim_right (s : str) : str := rev (drop_sep (rev s)).

(** Inflector to_case_snake_like: [next_or_previous_char_is_lowercase].  [i] is a byte index
    (from char_indices) used as a character index (in [chars().nth]). *)
Definition near_lower (whole : str) (i : nat) : bool :=
  is_lowercase u (nth (i + 1) whole 65) || is_lowercase u (nth (i - 1) whole 65).

(** Inflector to_case_snake_like, the loop; [first] is [first_character]. *)
Fixpoint snake_loop (whole : str) (i : nat) (first : bool) (s : str) : str :=
  match s with
  | [] => []
  | c :: s' =>
    let i' := (i + utf8_len c)%nat in
    if negb (is_alphanumeric u c) then
      if negb first then 95 :: snake_loop whole i' true s' else snake_loop whole i' first s'
    else if negb first && (c =? to_ascii_uppercase c) && near_lower whole i then
      95 :: to_ascii_lowercase c :: snake_loop whole i' false s'
    else to_ascii_lowercase c :: snake_loop whole i' false s'
  end.
Definition to_snake_case (s : str) : str := snake_loop s 0 true (trim_right s).

(** Inflector to_case_camel_like with first word and injectable options of pascal case:
    [new_word], [last_char], [found_real_char]. *)
Fixpoint pascal_loop (new_word : bool) (last : N) (found : bool) (s : str) : str :=
  match s with
  | [] => []
  | c :: s' =>
    if negb (is_alphanumeric u c) && found then pascal_loop true last found s'
    else if negb found && negb (is_alphanumeric u c) then pascal_loop new_word last found s'
    else if is_numeric u c then c :: pascal_loop true last true s'
    else if new_word || (is_lowercase u last && is_uppercase u c && negb (last =? 32)) then
      to_ascii_uppercase c :: pascal_loop false last true s'
    else to_ascii_lowercase c :: pascal_loop false c true s'
  end.
Definition to_pascal_case (s : str) : str := pascal_loop true 32 false (trim_right s).

(** utils.rs l.131-189: RS_KEYWORDS *)
Definition rs_keywords : list str := map lit
  ["abstract"; "alignof"; "as"; "async"; "await"; "become"; "box"; "break"; "const";
   "continue"; "crate"; "do"; "dyn"; "else"; "enum"; "extern crate"; "extern"; "false";
   "final"; "fn"; "for"; "if let"; "if"; "impl"; "in"; "let"; "loop"; "macro"; "match";
   "mod"; "move"; "mut"; "offsetof"; "override"; "priv"; "proc"; "pub"; "pure"; "ref";
   "return"; "Self"; "self"; "sizeof"; "static"; "struct"; "super"; "trait"; "true"; "type";
   "typeof"; "unsafe"; "unsized"; "use"; "virtual"; "where"; "while"; "yield"]%string.

(** utils.rs l.106-114 *)
Definition sanitize (s : str) : str :=
  match s with
  | [] => s
  | c :: _ => if is_numeric u c || existsb (str_eqb s) rs_keywords then 95 :: s else s
  end.

(** utils.rs l.116-122 *)
Definition is_valid_symbol (c : N) : bool :=
  (is_alphanumeric u c || (c =? 95)) && is_ascii c && negb (is_whitespace c).
Definition filter_type_name (s : str) : str := filter is_valid_symbol s.

(** utils.rs l.124-129 *)
Fixpoint split_name_at (pre s : str) : option (str * str) :=
  match s with
  | [] => None
  | c :: s' => if c =? 58 then Some (rev pre, s') else split_name_at (c :: pre) s'
  end.
Definition split_name (name : str) : option str * str :=
  match split_name_at [] name with
  | Some (p, n) => (Some p, n)
  | None => (None, name)
  end.

(** default.rs l.20-22 *)
Definition format_name (name : str) : str := sanitize (to_snake_case (last_segment 58 name)).

(** ns.as_ref().and_then(|ns| ns.name()) *)
Definition ns_prefix (ns : option namespace) : option str :=
  match ns with Some n => ns_name n | None => None end.

(** default.rs l.24-46 *)
Definition default_format_type (type_name : str) (target_ns : option namespace) : str :=
  let '(prefix, name) := split_name type_name in
  let option_tns := ns_prefix target_ns in
  let pascalized_name := filter_type_name (to_pascal_case name) in
  let qname p := (p ++ lit "::" ++ pascalized_name)%list in
  let r := match prefix, option_tns with
           | Some ns, Some tns => if str_eqb ns tns then pascalized_name else qname ns
           | Some ns, None => qname ns
           | None, _ => pascalized_name
           end in
  sanitize r.

(** utils.rs l.27-97: the table *)
Definition built_in_table : list (str * str) := map (fun '(a, b) => (lit a, lit b))
  [("hexBinary", "String"); ("base64Binary", "String"); ("boolean", "bool");
   ("integer", "xs::Integer"); ("nonNegativeInteger", "xs::NonNegativeInteger");
   ("positiveInteger", "xs::PositiveInteger"); ("nonPositiveInteger", "xs::NonPositiveInteger");
   ("negativeInteger", "xs::NegativeInteger");
   ("long", "i64"); ("int", "i32"); ("short", "i16"); ("byte", "i8");
   ("unsignedLong", "u64"); ("unsignedInt", "u32"); ("unsignedShort", "u16"); ("unsignedByte", "u8");
   ("decimal", "xs::Decimal"); ("double", "f64"); ("float", "f64");
   ("date", "xs::Date"); ("time", "xs::Time"); ("dateTime", "xs::DateTime");
   ("dateTimeStamp", "xs::DateTimeStamp"); ("duration", "xs::Duration");
   ("gDay", "xs::GDay"); ("gMonth", "xs::GMonth"); ("gMonthDay", "xs::GMonthDay");
   ("gYear", "xs::GYear"); ("gYearMonth", "xs::GYearMonth");
   ("string", "String"); ("normalizedString", "String"); ("token", "String");
   ("language", "String"); ("Name", "String"); ("NCName", "String"); ("ENTITY", "String");
   ("ID", "String"); ("IDREF", "String"); ("NMTOKEN", "String"); ("anyURI", "String");
   ("QName", "String"); ("NOTATION", "String"); ("anySimpleType", "String");
   ("ENTITIES", "Vec<String>"); ("IDREFS", "Vec<String>"); ("NMTOKENS", "Vec<String>")]%string.

Definition opt_str_eqb (a b : option str) : bool :=
  match a, b with
  | Some x, Some y => str_eqb x y
  | None, None => true
  | _, _ => false
  end.

(** utils.rs l.21-104 *)
Definition match_built_in_type (type_name : str) (xsd_ns : option namespace) : option str :=
  let '(prefix, name) := split_name type_name in
  if negb (opt_str_eqb (ns_prefix xsd_ns) prefix) then None
  else assoc name built_in_table.

(** base.rs l.22-27 *)
Definition format_type_name (type_name : str) (xsd_ns target_ns : option namespace) : str :=
  match match_built_in_type type_name xsd_ns with
  | Some t => t
  | None => default_format_type type_name target_ns
  end.

End Names.

(** parser/types.rs: TypeModifier *)
Inductive modifier := MNone | MArray | MOption | MRecursive | MEmpty.
Definition modifier_eqb (a b : modifier) : bool :=
  match a, b with
  | MNone, MNone | MArray, MArray | MOption, MOption | MRecursive, MRecursive | MEmpty, MEmpty => true
  | _, _ => false
  end.

(** default.rs l.48-66 *)
Definition modify_step (r : str) (m : modifier) : str :=
  match m with
  | MArray => lit "Vec<" ++ r ++ lit ">"
  | MOption => lit "Option<" ++ r ++ lit ">"
  | _ => r
  end%list.
Definition modify_type (type_name : str) (ms : list modifier) : str :=
  if existsb (modifier_eqb MEmpty) ms then lit "()"
  else if existsb (modifier_eqb MRecursive) ms then (lit "Vec<" ++ type_name ++ lit ">")%list
  else fold_left modify_step ms type_name.

(** default.rs l.68-79: name.find(':') *)
Definition yaserde_for_attribute (name indent : str) : str :=
  match split_name name with
  | (Some p, n) => indent ++ lit "#[yaserde(attribute, prefix = """ ++ p ++ lit """, rename = """
                   ++ n ++ lit """)]" ++ [10]
  | (None, n) => indent ++ lit "#[yaserde(attribute, rename = """ ++ n ++ lit """)]" ++ [10]
  end%list.

(** default.rs l.81-98 *)
Definition yaserde_for_element (name : str) (target_ns : option namespace) (indent : str) : str :=
  let '(prefix, field_name) :=
    match split_name name with
    | (Some p, n) => (Some p, n)
    | (None, n) => (ns_prefix target_ns, n)
    end in
  match prefix with
  | Some p => indent ++ lit "#[yaserde(prefix = """ ++ p ++ lit """, rename = """ ++ field_name
              ++ lit """)]" ++ [10]
  | None => indent ++ lit "#[yaserde(rename = """ ++ field_name ++ lit """)]" ++ [10]
  end%list.

(** default.rs l.100-102 *)
Definition yaserde_for_flatten_element (indent : str) : str :=
  (indent ++ lit "#[yaserde(flatten)]" ++ [10])%list.
