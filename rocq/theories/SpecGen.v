(** What the generated code is: the Rust items of every schema entity.
    The names are parameters ([type_text q]: the Rust text of the type named [q], [ident n]:
    the Rust identifier of the name [n]); C28-C31 say what they are. *)
From Coq Require Import NArith ZArith Bool Ascii String List.
From Verif Require Import Str SpecLex SpecNames Xml Names Entity SpecSchema SpecRust.
Import ListNotations.
Local Open Scope string_scope.
Local Open Scope list_scope.

(** A name at its first colon: the part before, if there is one, and the part after. *)
Fixpoint before_colon (s : str) : option (str * str) :=
  match s with
  | [] => None
  | c :: s' => if (c =? 58)%N then Some ([], s')
               else match before_colon s' with Some (a, b) => Some (c :: a, b) | None => None end
  end.
Definition colon_split (n : str) : option str * str :=
  match before_colon n with Some (a, b) => (Some a, b) | None => (None, n) end.
(** A decimal number below 2^32 as Rust reads it. *)
Definition u32_text (v : str) (n : N) : Prop := count_text v n /\ (n < 2 ^ 32)%N.

Section Items.
Context (u : uni) (tns : option namespace) (type_text ident variant_ident : str -> str).

Definition ty (q : str) : list token := lexemes u (type_text q).
(** A type under modifiers (C32). *)
Definition wrap (t : list token) (m : modifier) : list token :=
  match m with
  | MArray => rust u "Vec<" ++ t ++ rust u ">"
  | MOption => rust u "Option<" ++ t ++ rust u ">"
  | _ => t
  end.
Definition modified (t : list token) (ms : list modifier) : list token :=
  if existsb (modifier_eqb MEmpty) ms then rust u "()"
  else if existsb (modifier_eqb MRecursive) ms then rust u "Vec<" ++ t ++ rust u ">"
  else fold_left wrap ms t.

(** yaserde attributes *)
Definition ns_args : list (string * option str) :=
  match tns with
  | Some n => match ns_name n with
              | Some p => [("prefix", Some p); ("namespace", Some (p ++ lit ": " ++ ns_uri n))]
              | None => [("namespace", Some (ns_uri n))]
              end
  | None => []
  end.
Definition prefix_arg (p : option str) : list (string * option str) :=
  match p with Some p => [("prefix", Some p)] | None => [] end.
Definition field_attrs (f : field entity) : list attr :=
  let '(p, n) := colon_split (fl_name f) in
  match fl_source f with
  | FromChoice => [AYaserde [("flatten", None)]]
  | FromAttribute => [AYaserde (("attribute", None) :: prefix_arg p ++ [("rename", Some n)])]
  | FromElement =>
      let q := match p with Some _ => p | None => match tns with Some t => ns_name t | None => None end end in
      [AYaserde (prefix_arg q ++ [("rename", Some n)])]
  | FromBase | FromNA => []
  end.
(** The members of a struct: prohibited attributes and wildcards are left out; a field with
    nested types refers to the module [m]. *)
Definition member (m : str) (f : field entity) : rfield :=
  {| rf_doc := doc_words (fl_comment f); rf_attrs := field_attrs f; rf_name := ident (fl_name f);
     rf_type := modified (ty (match fl_subtypes f with [] => fl_type f | _ => m ++ lit "::" ++ fl_type f end)) (fl_mods f) |}.
Definition members (m : str) (fs : list (field entity)) : list rfield :=
  map (member m) (filter (fun f => negb (existsb (modifier_eqb MEmpty) (fl_mods f))) fs).

Definition case_variant (c : enum_case) : variant :=
  let '(p, n) := colon_split (ec_name c) in
  {| va_doc := doc_words (ec_comment c);
     va_attrs := match ec_source c with
                 | OfUnion => []
                 | _ => match p with
                        | Some _ => [AYaserde (prefix_arg p ++ [("rename", Some n)])]
                        | None => if str_eqb n (variant_ident (ec_name c)) then [] else [AYaserde [("rename", Some n)]]
                        end
                 end;
     va_name := variant_ident (ec_name c);
     va_type := match ec_type c with Some t => Some (modified (ty t) (ec_mods c)) | None => None end |}.

(** The checks of the facets; [None] if the value of a length facet is not a 32-bit number. *)
Definition bound_check (kind op relation : string) (t : list token) (v : str) : check :=
  {| ck_cond := CBound op v t;
     ck_message := lit kind ++ lit " validation error: invalid value of 0! \nExpected: 0 " ++ lit relation ++ lit " " ++ v ++ lit ".\nActual: 0 == {}" |}.
Definition length_check (kind op relation : string) (n : N) : check :=
  {| ck_cond := CLen op n;
     ck_message := lit kind ++ lit " validation error. \nExpected: 0 length " ++ lit relation ++ lit " " ++ dec n ++ lit " \nActual: 0 length == {}" |}.
Inductive facet_checks (t : list token) : facet_type -> list check -> Prop :=
| fc_max_exclusive v : facet_checks t (FMaxExclusive v) [bound_check "MaxExclusive" ">=" "<" t v]
| fc_max_inclusive v : facet_checks t (FMaxInclusive v) [bound_check "MaxInclusive" ">" "<=" t v]
| fc_min_exclusive v : facet_checks t (FMinExclusive v) [bound_check "MinExclusive" "<=" ">" t v]
| fc_min_inclusive v : facet_checks t (FMinInclusive v) [bound_check "MinInclusive" "<" ">=" t v]
| fc_length v n : u32_text v n -> facet_checks t (FLength v) [length_check "Length" "!=" "==" n]
| fc_max_length v n : u32_text v n -> facet_checks t (FMaxLength v) [length_check "MaxLength" ">" "<=" n]
| fc_min_length v n : u32_text v n -> n <> 0%N -> facet_checks t (FMinLength v) [length_check "MinLength" "<" ">=" n]
| fc_min_length_0 v : u32_text v 0%N -> facet_checks t (FMinLength v) []
| fc_enumeration v : facet_checks t (FEnumeration v) []
| fc_fraction_digits v : facet_checks t (FFractionDigits v) []
| fc_pattern v : facet_checks t (FPattern v) []
| fc_total_digits v : facet_checks t (FTotalDigits v) []
| fc_white_space w : facet_checks t (FWhiteSpace w) [].

(** Documentation that yields at least one comment line: some line has more than one byte
    between its white space. *)
Definition documented (c : option str) : Prop :=
  exists d ps r w, c = Some d /\ pieces d ps /\ kept_words ps r /\ In w r.

Definition struct_derive := ADerive ["Default"; "Clone"; "PartialEq"; "Debug"; "YaSerialize"; "YaDeserialize"].
Definition tuple_derive := ADerive ["Default"; "Clone"; "PartialEq"; "Debug"; "UtilsTupleIo"; "UtilsDefaultSerde"].
Definition choice_derive := ADerive ["PartialEq"; "Debug"; "Clone"; "YaSerialize"; "YaDeserialize"].
Definition union_derive := ADerive ["PartialEq"; "Debug"; "UtilsUnionSerDe"].
Definition nested (s : strukt entity) : list entity := st_subtypes s ++ concat (map fl_subtypes (st_fields s)).

(** The items of an entity. *)
Inductive items : entity -> list item -> Prop :=
| items_struct s inner :
    all_items (nested s) inner ->
    items (EStruct s)
      ([IStruct (doc_words (st_comment s)) [struct_derive; AYaserde ns_args] (ty (st_name s)) (members (ident (st_name s)) (st_fields s));
        IValidate (ty (st_name s)) []] ++
       match nested s with [] => [] | _ => [IMod (ident (st_name s)) inner] end)
| items_tuple t inner ks :
    all_items (tu_subtypes t) inner ->
    Forall2 (facet_checks (modified (ty (tu_type t)) (tu_mods t))) (map fa_type (tu_facets t)) ks ->
    items (ETuple t)
      ([ITuple (doc_words (tu_comment t)) [tuple_derive] (ty (tu_name t)) (modified (ty (tu_type t)) (tu_mods t))] ++ inner ++
       [IValidate (ty (tu_name t)) (List.concat ks)])
| items_enum e inner :
    all_items (en_subtypes e) inner ->
    items (EEnum e)
      ([IEnum (doc_words (en_comment e)) (match en_source e with OfUnion => [union_derive] | _ => [choice_derive; AYaserde ns_args] end) (ty (en_name e))
          (map case_variant (en_cases e) ++ [{| va_doc := []; va_attrs := []; va_name := lit "__Unknown__"; va_type := Some (ty (en_type e)) |}]);
        IDefault (ty (en_name e)); IValidate (ty (en_name e)) []] ++ inner)
| items_alias a : ~ documented (al_comment a) ->
    items (EAlias a) [INote (split_whitespace (lit "pub type " ++ type_text (al_name a) ++ lit " = " ++ type_text (al_original a) ++ lit ";"))]
| items_documented_alias a : documented (al_comment a) ->
    items (EAlias a) [IType (lit "//" :: doc_words (al_comment a)) (ty (al_name a)) (ty (al_original a))]
| items_import i : items (EImport i) [INote (split_whitespace (lit "use " ++ im_location i ++ lit " " ++ im_name i ++ lit ";"))]
with all_items : list entity -> list item -> Prop :=
| all_nil : all_items [] []
| all_cons e l a b : items e a -> all_items l b -> all_items (e :: l) (a ++ b).
End Items.

(** ** Texts for which the generated code is well-formed
    Type names: the part before the colon, if any, is emitted as it is.  Texts put between
    quotes must not contain quotes, backslashes or line breaks. *)
Definition sane_type (q : str) : Prop := forall p l, qualified q (Some p) l -> plain p.
Definition sane_ns (n : option namespace) : Prop :=
  forall t, n = Some t -> literal (ns_uri t) /\ forall p, ns_name t = Some p -> literal p.
Definition sane_facet (f : facet) : Prop :=
  match fa_type f with
  | FMaxExclusive v | FMaxInclusive v | FMinExclusive v | FMinInclusive v => literal v
  | _ => True
  end.
Definition one_line (s : str) : Prop := ~ In 10%N s.
Inductive sane : entity -> Prop :=
| sane_struct s : sane_type (st_name s) ->
    Forall (fun f => sane_type (fl_type f) /\ literal (fl_name f) /\ Forall sane (fl_subtypes f)) (st_fields s) ->
    Forall sane (st_subtypes s) -> sane (EStruct s)
| sane_tuple t : sane_type (tu_name t) -> sane_type (tu_type t) -> Forall sane_facet (tu_facets t) ->
    Forall sane (tu_subtypes t) -> sane (ETuple t)
| sane_enum e : sane_type (en_name e) -> sane_type (en_type e) ->
    Forall (fun c => literal (ec_name c) /\ forall t, ec_type c = Some t -> sane_type t) (en_cases e) ->
    Forall sane (en_subtypes e) -> sane (EEnum e)
| sane_alias a : sane_type (al_name a) -> sane_type (al_original a) -> sane (EAlias a)
| sane_import i : one_line (im_location i) -> one_line (im_name i) -> sane (EImport i).

(** The value of a length facet. *)
Definition length_value (f : facet_type) : option str :=
  match f with FLength v | FMaxLength v | FMinLength v => Some v | _ => None end.
(** A tuple, at any depth, with a length facet that is not a 32-bit number. *)
Inductive bad_length : entity -> Prop :=
| bad_here t f v : In f (tu_facets t) -> length_value (fa_type f) = Some v -> (forall n, ~ u32_text v n) -> bad_length (ETuple t)
| bad_in_tuple t e : In e (tu_subtypes t) -> bad_length e -> bad_length (ETuple t)
| bad_in_field s f e : In f (st_fields s) -> In e (fl_subtypes f) -> bad_length e -> bad_length (EStruct s)
| bad_in_struct s e : In e (st_subtypes s) -> bad_length e -> bad_length (EStruct s)
| bad_in_enum n e : In e (en_subtypes n) -> bad_length e -> bad_length (EEnum n).

(** ** What is declared and what is defined
    The types a schema entity declares, outermost first, with the module path they belong to:
    the nested types of a struct live in the module named after it. *)
Inductive kind := KStruct | KTuple | KEnum.
Section Declared.
Context (ident : str -> str).
Fixpoint declared (path : list str) (e : entity) : list (list str * str * kind) :=
  match e with
  | EStruct s =>
      let inner := path ++ [ident (st_name s)] in
      (path, st_name s, KStruct) :: List.concat (map (declared inner) (st_subtypes s)) ++
      List.concat (map (fun f => List.concat (map (declared inner) (fl_subtypes f))) (st_fields s))
  | ETuple t => (path, tu_name t, KTuple) :: List.concat (map (declared path) (tu_subtypes t))
  | EEnum n => (path, en_name n, KEnum) :: List.concat (map (declared path) (en_subtypes n))
  | EField _ | ECase _ | EAlias _ | EImport _ => []
  end.
End Declared.
(** The types items define, and those they implement Validate and Default for. *)
Fixpoint defined (path : list str) (i : item) : list (list str * list token * kind) :=
  match i with
  | IStruct _ _ n _ => [(path, n, KStruct)]
  | ITuple _ _ n _ => [(path, n, KTuple)]
  | IEnum _ _ n _ => [(path, n, KEnum)]
  | IMod m l => List.concat (map (defined (path ++ [m])) l)
  | IDefault _ | IValidate _ _ | IType _ _ _ | INote _ => []
  end.
Fixpoint validated (path : list str) (i : item) : list (list str * list token) :=
  match i with
  | IValidate n _ => [(path, n)]
  | IMod m l => List.concat (map (validated (path ++ [m])) l)
  | _ => []
  end.
Fixpoint defaulted (path : list str) (i : item) : list (list str * list token) :=
  match i with
  | IDefault n => [(path, n)]
  | IMod m l => List.concat (map (defaulted (path ++ [m])) l)
  | _ => []
  end.

(** ** Documentation
    The words of the comments among tokens, and those an entity calls for: its documentation,
    that of its members, that of its nested types.  An alias and an import are themselves
    comments; a documented alias is not, and its documentation starts with [//]. *)
Definition noted (ts : list token) : list str := List.concat (map (fun t => match t with TNote w => [w] | _ => [] end) ts).
Section Docs.
Context (type_text : str -> str).
Fixpoint entity_words (e : entity) : list str :=
  match e with
  | EStruct s =>
      doc_words (st_comment s) ++
      List.concat (map (fun f => if existsb (modifier_eqb MEmpty) (fl_mods f) then [] else doc_words (fl_comment f)) (st_fields s)) ++
      List.concat (map entity_words (st_subtypes s)) ++
      List.concat (map (fun f => List.concat (map entity_words (fl_subtypes f))) (st_fields s))
  | ETuple t => doc_words (tu_comment t) ++ List.concat (map entity_words (tu_subtypes t))
  | EEnum n =>
      doc_words (en_comment n) ++ List.concat (map (fun c => doc_words (ec_comment c)) (en_cases n)) ++
      List.concat (map entity_words (en_subtypes n))
  | EAlias a =>
      match doc_words (al_comment a) with
      | [] => split_whitespace (lit "pub type " ++ type_text (al_name a) ++ lit " = " ++ type_text (al_original a) ++ lit ";")
      | ws => lit "//" :: ws
      end
  | EImport i => split_whitespace (lit "use " ++ im_location i ++ lit " " ++ im_name i ++ lit ";")
  | EField _ | ECase _ => []
  end.
End Docs.

(** No struct, at any depth, has a field with nested types. *)
Inductive unnested : entity -> Prop :=
| un_struct s : Forall (fun f => fl_subtypes f = []) (st_fields s) -> Forall unnested (st_subtypes s) -> unnested (EStruct s)
| un_tuple t : Forall unnested (tu_subtypes t) -> unnested (ETuple t)
| un_enum n : Forall unnested (en_subtypes n) -> unnested (EEnum n)
| un_alias a : unnested (EAlias a)
| un_import i : unnested (EImport i).
