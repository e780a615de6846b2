(** Model of the code generator: xsd-parser/src/generator/{mod,base,struct,struct_field,
    tuple_struct,enum,enum_case,alias,import,validator}.rs with the default generators
    (builder.rs l.60-77).

    [generate] has an effect: a struct prefixes the types of its fields in place
    (struct.rs l.24-28).  Entities form a tree without sharing and every entity is generated
    once per call, so the text ([gen]) and the state left behind ([touched]) are two
    functions of the entity; [generate] is the pair.  A panic comes from the [unwrap] of a
    length facet only. *)
From Coq Require Import NArith Bool Ascii String List.
From Verif Require Import Str Xml Comment Names Entity Link.
Import ListNotations.
Local Open Scope list_scope.

Definition nl : str := [10%N].
(** base.rs l.15-21 *)
Definition indent : str := spaces 4.

(** validator.rs l.13-28 *)
Definition gen_validate_impl (name body : str) : str :=
  if is_empty body then lit "impl Validate for " ++ name ++ lit " {}"
  else lit "impl Validate for " ++ name ++ lit " {" ++ nl ++
       lit "    fn validate(&self) -> Result<(), String> { " ++ body ++ nl ++
       lit "        Ok(())" ++ nl ++ lit "    }" ++ nl ++ lit "}" ++ nl.

(** validator.rs l.53-75, 101-123: the four bounds differ in the words *)
Definition gen_bound (kind op expected : string) (value name typename : str) : str :=
  nl ++ lit "        if self." ++ name ++ lit op ++ lit """" ++ value ++ lit """.parse::<" ++ typename ++
  lit ">().unwrap() {" ++ nl ++
  lit "            return Err(format!(""" ++ lit kind ++ lit " validation error: invalid value of " ++ name ++
  lit "! \nExpected: " ++ name ++ lit expected ++ value ++ lit ".\nActual: " ++ name ++ lit " == {}"", self." ++
  name ++ lit "));" ++ nl ++ lit "        }".
Definition gen_max_exclusive_validation := gen_bound "MaxExclusive" " >= " " < ".
Definition gen_max_inclusive_validation := gen_bound "MaxInclusive" " > " " <= ".
Definition gen_min_exclusive_validation := gen_bound "MinExclusive" " <= " " > ".
Definition gen_min_inclusive_validation := gen_bound "MinInclusive" " < " " >= ".

(** validator.rs l.77-99, 125-140: [value.parse::<u32>().unwrap()], printed again *)
Definition gen_len (kind op expected : string) (value : N) (name : str) : str :=
  lit "        if self." ++ name ++ lit ".len()" ++ lit op ++ dec value ++ lit " {" ++ nl ++
  lit "            return Err(format!(""" ++ lit kind ++ lit " validation error. \nExpected: " ++ name ++
  lit " length" ++ lit expected ++ dec value ++ lit " \nActual: " ++ name ++ lit " length == {}"", self." ++ name ++
  lit ".len()));" ++ nl ++ lit "        }".
Definition u32_value (value : str) : res N :=
  match parse_unsigned u32_max value with Some v => Ok v | None => Panic end.
Definition gen_length_validation (value name : str) : res str :=
  rmap (fun v => nl ++ gen_len "Length" " != " " == " v name) (u32_value value).
Definition gen_max_length_validation (value name : str) : res str :=
  rmap (fun v => nl ++ gen_len "MaxLength" " > " " <= " v name) (u32_value value).
Definition gen_min_length_validation (value name : str) : res str :=
  rmap (fun v => if (v =? 0)%N then []
                 else nl ++ lit "        #[allow(clippy::len_zero)]" ++ nl ++ gen_len "MinLength" " < " " >= " v name)
       (u32_value value).

(** validator.rs l.30-51 *)
Definition gen_facet_validation (f : facet_type) (name typename : str) : res str :=
  match f with
  | FEnumeration _ => Ok []
  | FFractionDigits _ => Ok []
  | FLength v => gen_length_validation v name
  | FMaxExclusive v => Ok (gen_max_exclusive_validation v name typename)
  | FMaxInclusive v => Ok (gen_max_inclusive_validation v name typename)
  | FMaxLength v => gen_max_length_validation v name
  | FMinExclusive v => Ok (gen_min_exclusive_validation v name typename)
  | FMinInclusive v => Ok (gen_min_inclusive_validation v name typename)
  | FMinLength v => gen_min_length_validation v name
  | FPattern _ | FTotalDigits _ | FWhiteSpace _ => Ok []
  end.

(** s.split("::") *)
Fixpoint split_path (cur s : str) : list str :=
  match s with
  | [] => [rev cur]
  | c :: s' =>
    match s' with
    | d :: s'' => if (c =? 58)%N && (d =? 58)%N then rev cur :: split_path [] s'' else split_path (c :: cur) s'
    | [] => split_path (c :: cur) s'
    end
  end.

(** text.replace("\n\n\n", "\n"), as in struct.rs l.71 *)
Fixpoint squeeze (s : str) : str :=
  match s with
  | [] => []
  | a :: s1 =>
    match s1 with
    | b :: (c :: s3) =>
      if (a =? 10)%N && (b =? 10)%N && (c =? 10)%N then 10%N :: squeeze s3 else a :: squeeze s1
    | _ => a :: squeeze s1
    end
  end.
(** struct.rs l.70-75 *)
Definition shift (text ind : str) : str :=
  fold_left (fun acc x => acc ++ x)
    (map (fun s => if negb (is_empty s) then nl ++ ind ++ s else nl) (split_on 10 (squeeze text))) ind.

Section Gen.
Context (u : uni) (tns xsd : option namespace).

(** base.rs l.23-36 *)
Definition type_ident (name : str) : str := format_type_name u name xsd tns.
Definition doc (c : option str) (ind : nat) : str := format_comment c 80 ind.

(** struct_field.rs l.41-55 *)
Definition field_macros (f : field entity) : str :=
  match fl_source f with
  | FromChoice => yaserde_for_flatten_element indent
  | FromAttribute => yaserde_for_attribute (fl_name f) indent
  | FromElement => yaserde_for_element (fl_name f) tns indent
  | FromBase | FromNA => []
  end.
(** struct_field.rs l.10-39 *)
Definition gen_field (f : field entity) : str :=
  if existsb (modifier_eqb MEmpty) (fl_mods f) then []
  else doc (fl_comment f) 4 ++ field_macros f ++ indent ++ lit "pub " ++ format_name u (fl_name f) ++ lit ": " ++
       modify_type (type_ident (fl_type f)) (fl_mods f) ++ lit ",".

(** struct.rs l.24-28 *)
Definition prefix_field (mod_name : str) (f : field entity) : field entity :=
  {| fl_name := fl_name f;
     fl_type := if negb (is_empty (fl_subtypes f)) then mod_name ++ lit "::" ++ fl_type f else fl_type f;
     fl_comment := fl_comment f; fl_subtypes := fl_subtypes f; fl_source := fl_source f; fl_mods := fl_mods f |}.
(** struct.rs l.21-44, 107-109; base.rs l.42-44 *)
Definition mod_name (s : strukt entity) : str := format_name u (st_name s).
Definition gen_fields (s : strukt entity) : str :=
  let fields := join (nl ++ nl) (filter (fun t => negb (is_empty t))
                  (map gen_field (map (prefix_field (mod_name s)) (st_fields s)))) in
  if is_empty fields then fields else nl ++ fields ++ nl.

(** struct.rs l.81-101, enum.rs l.63-87: the attribute with the namespace *)
Definition yaserde_ns : str :=
  match tns with
  | Some tn =>
    match ns_name tn with
    | Some p => lit "#[yaserde(prefix = """ ++ p ++ lit """, namespace = """ ++ p ++ lit ": " ++ ns_uri tn ++ lit """)]" ++ nl
    | None => lit "#[yaserde(namespace = """ ++ ns_uri tn ++ lit """)]" ++ nl
    end
  | None => lit "#[yaserde()]" ++ nl
  end.
Definition struct_macros : str :=
  lit "#[derive(Default, Clone, PartialEq, Debug, YaSerialize, YaDeserialize)]" ++ nl ++ yaserde_ns.

(** struct.rs l.56-67; [fst] and [st] are the texts of the nested types of the fields and of
    the struct *)
Definition gen_mod (name fst st : str) : str :=
  if negb (is_empty fst) || negb (is_empty st) then
    nl ++ lit "pub mod " ++ name ++ lit " {" ++ nl ++ indent ++ lit "use super::*;" ++ st ++ nl ++
    shift fst indent ++ nl ++ lit "}" ++ nl
  else st ++ nl ++ fst.

(** enum_case.rs l.23-29 *)
Definition case_name (c : enum_case) : str := last (split_path [] (default_format_type u (ec_name c) tns)) [].
(** enum_case.rs l.40-65 *)
Definition case_macros (c : enum_case) : str :=
  match ec_source c with
  | OfUnion => []
  | _ =>
    match split_name (ec_name c) with
    | (Some p, n) => indent ++ lit "#[yaserde(prefix = """ ++ p ++ lit """, rename = """ ++ n ++ lit """)]" ++ nl
    | (None, n) => if str_eqb n (case_name c) then []
                   else indent ++ lit "#[yaserde(rename = """ ++ n ++ lit """)]" ++ nl
    end
  end.
(** enum_case.rs l.7-38 *)
Definition gen_case (c : enum_case) : str :=
  doc (ec_comment c) 4 ++ case_macros c ++ indent ++ case_name c ++
  match ec_type c with
  | Some t => lit "(" ++ modify_type (type_ident t) (ec_mods c) ++ lit ")"
  | None => []
  end ++ lit ",".

(** enum.rs l.63-87 *)
Definition enum_macros (e : enum entity) : str :=
  match en_source e with
  | OfUnion => lit "#[derive(PartialEq, Debug, UtilsUnionSerDe)]"
  | _ => lit "#[derive(PartialEq, Debug, Clone, YaSerialize, YaDeserialize)]" ++ yaserde_ns
  end.
(** enum.rs l.11-19 *)
Definition enum_default (name : str) : str :=
  lit "impl Default for " ++ name ++ lit " {" ++ nl ++
  indent ++ lit "fn default() -> " ++ name ++ lit " {" ++ nl ++
  indent ++ indent ++ lit "Self::__Unknown__(""No valid variants"".into())" ++ nl ++
  indent ++ lit "}" ++ nl ++ lit "}".

(** tuple_struct.rs l.28-35, 49-56 *)
Definition tuple_type (t : tuple entity) : str := modify_type (type_ident (tu_type t)) (tu_mods t).
Definition tuple_validation (t : tuple entity) : res str :=
  bind (rtraverse (fun f => gen_facet_validation (fa_type f) (lit "0") (tuple_type t)) (tu_facets t)) (fun bs =>
    Ok (gen_validate_impl (type_ident (tu_name t)) (concat bs))).

(** mod.rs l.49-60: Generator::generate, the text.
    Struct: struct.rs l.9-19, 46-68; base.rs l.46-48 (join_subtypes); tuple: tuple_struct.rs
    l.12-26; enum: enum.rs l.9-61; alias.rs l.4-11; import.rs l.4-6. *)
Fixpoint gen (e : entity) {struct e} : res str :=
  match e with
  | ETuple t =>
    bind (rtraverse gen (tu_subtypes t)) (fun subs =>
    bind (tuple_validation t) (fun validation =>
      Ok (doc (tu_comment t) 0 ++
          lit "#[derive(Default, Clone, PartialEq, Debug, UtilsTupleIo, UtilsDefaultSerde)]" ++ nl ++
          lit "pub struct " ++ type_ident (tu_name t) ++ lit " (pub " ++ tuple_type t ++ lit ");" ++ nl ++
          join nl subs ++ nl ++ validation ++ nl)))
  | EStruct s =>
    bind (rtraverse (fun f => rmap (join nl) (rtraverse gen (fl_subtypes f))) (st_fields s)) (fun fsubs =>
    bind (rtraverse gen (st_subtypes s)) (fun subs =>
      Ok (doc (st_comment s) 0 ++ struct_macros ++ lit "pub struct " ++ type_ident (st_name s) ++ lit " {" ++
          gen_fields s ++ lit "}" ++ nl ++ nl ++ gen_validate_impl (type_ident (st_name s)) [] ++ nl ++
          gen_mod (mod_name s) (concat fsubs) (join nl subs) ++ nl)))
  | EField f => Ok (gen_field f)
  | EEnum e =>
    bind (rtraverse gen (en_subtypes e)) (fun subs =>
      let name := type_ident (en_name e) in
      Ok (doc (en_comment e) 0 ++ enum_macros e ++ nl ++ lit "pub enum " ++ name ++ lit " {" ++ nl ++
          join nl (map gen_case (en_cases e)) ++ nl ++
          indent ++ lit "__Unknown__(" ++ type_ident (en_type e) ++ lit ")," ++ nl ++ lit "}" ++ nl ++ nl ++
          enum_default name ++ nl ++ nl ++ gen_validate_impl name [] ++ nl ++ nl ++ join nl subs ++ nl ++ nl))
  | ECase c => Ok (gen_case c)
  | EAlias a =>
    Ok (lit "//" ++ doc (al_comment a) 0 ++ lit " pub type " ++ type_ident (al_name a) ++ lit " = " ++
        type_ident (al_original a) ++ lit ";" ++ nl)
  | EImport i => Ok (lit "//use " ++ im_location i ++ lit "  " ++ im_name i ++ lit ";" ++ nl)
  end.

(** The state left behind: every generated struct has prefixed the types of its fields
    (struct.rs l.24-28). *)
Fixpoint touched (e : entity) {struct e} : entity :=
  match e with
  | ETuple t => ETuple {| tu_name := tu_name t; tu_comment := tu_comment t; tu_type := tu_type t;
                          tu_subtypes := map touched (tu_subtypes t); tu_mods := tu_mods t; tu_facets := tu_facets t |}
  | EStruct s =>
    EStruct {| st_name := st_name s; st_comment := st_comment s;
               st_fields := map (fun f =>
                 {| fl_name := fl_name f; fl_type := fl_type (prefix_field (mod_name s) f); fl_comment := fl_comment f;
                    fl_subtypes := map touched (fl_subtypes f); fl_source := fl_source f; fl_mods := fl_mods f |}) (st_fields s);
               st_groups := st_groups s; st_subtypes := map touched (st_subtypes s) |}
  | EEnum e => EEnum {| en_name := en_name e; en_cases := en_cases e; en_comment := en_comment e; en_type := en_type e;
                        en_subtypes := map touched (en_subtypes e); en_source := en_source e |}
  | EField _ | ECase _ | EAlias _ | EImport _ => e
  end.
Definition generate (e : entity) : res (entity * str) := rmap (fun t => (touched e, t)) (gen e).
End Gen.

(** mod.rs l.43-47 *)
Definition generate_rs_file (u : uni) (f : rs_file) : res (rs_file * str) :=
  bind (rtraverse (generate u (rf_target_ns f) (rf_xsd_ns f)) (rf_types f)) (fun r =>
    Ok ({| rf_types := map fst r; rf_groups := rf_groups f; rf_target_ns := rf_target_ns f; rf_xsd_ns := rf_xsd_ns f |},
        concat (map snd r))).
