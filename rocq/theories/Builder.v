(** Model of xsd-parser/src/generator/builder.rs and of the part of generator/mod.rs that
    chooses the sub-generators: a generator put together by a user, with own generators for
    some kinds of entities, and used for one file after the other. *)
From Coq Require Import NArith ZArith Bool Ascii String List.
From Verif Require Import Str Xml Comment Names Entity Link Gen.
Import ListNotations.

Section Builder.
Context (u : uni).

(** base.rs l.14-49: the methods of a base generator, which all sub-generators use.  Of the
    generator, [format_type_name] is given the name spaces and [join_subtypes] what
    [Generator::generate] does; own methods other than [join_subtypes] do not panic. *)
Record base := {
  b_indent : str; b_indent_size : nat;
  b_type : option namespace -> option namespace -> str -> str;      (* target and XSD name space, name *)
  b_name : str -> str; b_comment : option str -> nat -> str; b_modify : str -> list modifier -> str;
  b_mod : str -> str; b_join : (entity -> res str) -> list entity -> res str }.
(** An implementation of the trait gives some of the methods; the others are the provided ones,
    which call [self] (base.rs l.15-17). *)
Record base_generator := {
  o_indent : option str; o_indent_size : option nat;
  o_type : option (option namespace -> option namespace -> str -> str);
  o_name : option (str -> str); o_comment : option (option str -> nat -> str);
  o_modify : option (str -> list modifier -> str);
  o_mod : option (str -> str); o_join : option ((entity -> res str) -> list entity -> res str) }.
Definition method {A} (own : option A) (provided : A) : A := match own with Some f => f | None => provided end.
Definition base_of (o : base_generator) : base :=
  let size := method (o_indent_size o) 4%nat in
  {| b_indent := method (o_indent o) (spaces size);
     b_indent_size := size;
     b_type := method (o_type o) (fun tns xsd n => format_type_name u n xsd tns);
     b_name := method (o_name o) (format_name u);
     b_comment := method (o_comment o) (fun c ind => format_comment c 80 ind);
     b_modify := method (o_modify o) modify_type;
     b_mod := method (o_mod o) (format_name u);
     b_join := method (o_join o) (fun generate l => rmap (join nl) (rtraverse generate l)) |}.
(** base.rs l.51-52 *)
Definition DefaultBaseGenerator : base_generator :=
  {| o_indent := None; o_indent_size := None; o_type := None; o_name := None; o_comment := None; o_modify := None;
     o_mod := None; o_join := None |}.

(** A sub-generator is a trait object whose [generate] gets the entity and the generator.  Of
    the generator it sees the name spaces (mod.rs l.30-31), the base generator and
    [Generator::generate] (which is also what [struct_field_gen().generate] and
    [enum_case_gen().generate] are for fields and cases). *)
Record view := { v_tns : option namespace; v_xsd : option namespace; v_base : base; v_gen : entity -> res str }.
Definition sub (A : Type) := view -> A -> res str.

(** mod.rs l.28-41 *)
Record generator := {
  g_target_ns : option namespace; g_xsd_ns : option namespace;
  g_tuple : option (sub (tuple entity)); g_struct : option (sub (strukt entity));
  g_field : option (sub (field entity)); g_base : option base_generator;
  g_case : option (sub enum_case); g_enum : option (sub (enum entity));
  g_alias : option (sub (alias entity)); g_import : option (sub import_) }.

(** #[derive(Default)], mod.rs l.28, builder.rs l.14 *)
Definition generator_default : generator :=
  {| g_target_ns := None; g_xsd_ns := None; g_tuple := None; g_struct := None; g_field := None; g_base := None;
     g_case := None; g_enum := None; g_alias := None; g_import := None |}.

(** The default sub-generators: the texts of Gen.v with calls to the base generator, and to
    the generator for nested entities. *)
Definition b_ident (v : view) (name : str) : str := b_type (v_base v) (v_tns v) (v_xsd v) name.
(** tuple_struct.rs l.12-56 *)
Definition b_tuple_type (v : view) (t : tuple entity) : str := b_modify (v_base v) (b_ident v (tu_type t)) (tu_mods t).
Definition default_tuple : sub (tuple entity) := fun v t =>
  bind (b_join (v_base v) (v_gen v) (tu_subtypes t)) (fun subs =>
  bind (rtraverse (fun f => gen_facet_validation (fa_type f) (lit "0") (b_tuple_type v t)) (tu_facets t)) (fun checks =>
    Ok (b_comment (v_base v) (tu_comment t) 0 ++
        lit "#[derive(Default, Clone, PartialEq, Debug, UtilsTupleIo, UtilsDefaultSerde)]" ++ nl ++
        lit "pub struct " ++ b_ident v (tu_name t) ++ lit " (pub " ++ b_tuple_type v t ++ lit ");" ++ nl ++
        subs ++ nl ++ gen_validate_impl (b_ident v (tu_name t)) (concat checks) ++ nl))).
(** struct.rs l.46-75 *)
Definition b_module (b : base) (name fst st : str) : str :=
  if negb (is_empty fst) || negb (is_empty st) then
    nl ++ lit "pub mod " ++ name ++ lit " {" ++ nl ++ b_indent b ++ lit "use super::*;" ++ st ++ nl ++
    shift fst (b_indent b) ++ nl ++ lit "}" ++ nl
  else st ++ nl ++ fst.
(** struct.rs l.9-44 *)
Definition default_struct : sub (strukt entity) := fun v s =>
  let m := b_mod (v_base v) (st_name s) in
  bind (rtraverse (fun f => v_gen v (EField (prefix_field m f))) (st_fields s)) (fun texts =>
  bind (rtraverse (fun f => b_join (v_base v) (v_gen v) (fl_subtypes f)) (st_fields s)) (fun fsubs =>
  bind (b_join (v_base v) (v_gen v) (st_subtypes s)) (fun subs =>
    let fields := join (nl ++ nl) (filter (fun t => negb (is_empty t)) texts) in
    Ok (b_comment (v_base v) (st_comment s) 0 ++ struct_macros (v_tns v) ++ lit "pub struct " ++
        b_ident v (st_name s) ++ lit " {" ++
        (if is_empty fields then fields else nl ++ fields ++ nl) ++ lit "}" ++ nl ++ nl ++
        gen_validate_impl (b_ident v (st_name s)) [] ++ nl ++
        b_module (v_base v) m (concat fsubs) subs ++ nl)))).
(** struct_field.rs l.10-55 *)
Definition b_field_macros (v : view) (f : field entity) : str :=
  match fl_source f with
  | FromChoice => yaserde_for_flatten_element (b_indent (v_base v))
  | FromAttribute => yaserde_for_attribute (fl_name f) (b_indent (v_base v))
  | FromElement => yaserde_for_element (fl_name f) (v_tns v) (b_indent (v_base v))
  | FromBase | FromNA => []
  end.
Definition default_field : sub (field entity) := fun v f =>
  Ok (if existsb (modifier_eqb MEmpty) (fl_mods f) then []
      else b_comment (v_base v) (fl_comment f) (b_indent_size (v_base v)) ++ b_field_macros v f ++ b_indent (v_base v) ++ lit "pub " ++
           b_name (v_base v) (fl_name f) ++ lit ": " ++ b_modify (v_base v) (b_ident v (fl_type f)) (fl_mods f) ++ lit ",").
(** enum.rs l.9-61 *)
Definition b_enum_default (b : base) (name : str) : str :=
  lit "impl Default for " ++ name ++ lit " {" ++ nl ++
  b_indent b ++ lit "fn default() -> " ++ name ++ lit " {" ++ nl ++
  b_indent b ++ b_indent b ++ lit "Self::__Unknown__(""No valid variants"".into())" ++ nl ++
  b_indent b ++ lit "}" ++ nl ++ lit "}".
Definition default_enum : sub (enum entity) := fun v e =>
  bind (rtraverse (fun c => v_gen v (ECase c)) (en_cases e)) (fun cases =>
  bind (b_join (v_base v) (v_gen v) (en_subtypes e)) (fun subs =>
    let name := b_ident v (en_name e) in
    Ok (b_comment (v_base v) (en_comment e) 0 ++ enum_macros (v_tns v) e ++ nl ++ lit "pub enum " ++ name ++ lit " {" ++ nl ++
        join nl cases ++ nl ++
        b_indent (v_base v) ++ lit "__Unknown__(" ++ b_ident v (en_type e) ++ lit ")," ++ nl ++ lit "}" ++ nl ++ nl ++
        b_enum_default (v_base v) name ++ nl ++ nl ++ gen_validate_impl name [] ++ nl ++ nl ++ subs ++ nl ++ nl))).
(** enum_case.rs l.7-65; the name of a case does not come from the base generator (l.23-29) *)
Definition b_case_macros (v : view) (c : enum_case) : str :=
  match ec_source c with
  | OfUnion => []
  | _ =>
    match split_name (ec_name c) with
    | (Some p, n) => b_indent (v_base v) ++ lit "#[yaserde(prefix = """ ++ p ++ lit """, rename = """ ++ n ++ lit """)]" ++ nl
    | (None, n) => if str_eqb n (case_name u (v_tns v) c) then []
                   else b_indent (v_base v) ++ lit "#[yaserde(rename = """ ++ n ++ lit """)]" ++ nl
    end
  end.
Definition default_case : sub enum_case := fun v c =>
  Ok (b_comment (v_base v) (ec_comment c) (b_indent_size (v_base v)) ++ b_case_macros v c ++ b_indent (v_base v) ++
      case_name u (v_tns v) c ++
      match ec_type c with
      | Some t => lit "(" ++ b_modify (v_base v) (b_ident v t) (ec_mods c) ++ lit ")"
      | None => []
      end ++ lit ",").
(** alias.rs l.4-23 *)
Definition default_alias : sub (alias entity) := fun v a =>
  Ok (lit "//" ++ b_comment (v_base v) (al_comment a) 0 ++ lit " pub type " ++ b_ident v (al_name a) ++ lit " = " ++
      b_ident v (al_original a) ++ lit ";" ++ nl).
(** import.rs l.4-6 *)
Definition default_import : sub import_ := fun v i =>
  Ok (lit "//use " ++ im_location i ++ lit "  " ++ im_name i ++ lit ";" ++ nl).

(** builder.rs l.21-60: the methods of the builder *)
Inductive call :=
| WithBase (b : base_generator) | WithTuple (s : sub (tuple entity)) | WithStruct (s : sub (strukt entity))
| WithField (s : sub (field entity)) | WithCase (s : sub enum_case) | WithEnum (s : sub (enum entity))
| WithAlias (s : sub (alias entity)) | WithImport (s : sub import_).
Definition with_ (g : generator) (c : call) : generator :=
  let (tns, xsd, t, s, f, b, ca, e, a, i) := g in
  match c with
  | WithBase x => Build_generator tns xsd t s f (Some x) ca e a i
  | WithTuple x => Build_generator tns xsd (Some x) s f b ca e a i
  | WithStruct x => Build_generator tns xsd t (Some x) f b ca e a i
  | WithField x => Build_generator tns xsd t s (Some x) b ca e a i
  | WithCase x => Build_generator tns xsd t s f b (Some x) e a i
  | WithEnum x => Build_generator tns xsd t s f b ca (Some x) a i
  | WithAlias x => Build_generator tns xsd t s f b ca e (Some x) i
  | WithImport x => Build_generator tns xsd t s f b ca e a (Some x)
  end.
(** std: [Option::get_or_insert_with] *)
Definition get_or_insert {A} (d : A) (o : option A) : option A := match o with Some x => Some x | None => Some d end.
(** builder.rs l.62-81 *)
Definition build (g : generator) : generator :=
  {| g_target_ns := g_target_ns g; g_xsd_ns := g_xsd_ns g;
     g_tuple := get_or_insert default_tuple (g_tuple g); g_struct := get_or_insert default_struct (g_struct g);
     g_field := get_or_insert default_field (g_field g); g_base := get_or_insert DefaultBaseGenerator (g_base g);
     g_case := get_or_insert default_case (g_case g); g_enum := get_or_insert default_enum (g_enum g);
     g_alias := get_or_insert default_alias (g_alias g); g_import := get_or_insert default_import (g_import g) |}.
(** A chain of calls on [GeneratorBuilder::default()], then [build()]. *)
Definition built (cs : list call) : generator := build (fold_left with_ cs generator_default).

(** mod.rs l.49-72.  [fuel] bounds the depth of calls of [generate] from sub-generators.  A
    generator without a base panics at the first use of it; [build] always gives one. *)
Fixpoint generate_with (fuel : nat) (g : generator) (e : entity) : res str :=
  match fuel with
  | O => Panic
  | S k =>
    let run {A} (o : option (sub A)) (x : A) : res str :=
      match o, g_base g with
      | Some s, Some b => s {| v_tns := g_target_ns g; v_xsd := g_xsd_ns g; v_base := base_of b; v_gen := generate_with k g |} x
      | _, _ => Panic
      end in
    match e with
    | ETuple t => run (g_tuple g) t
    | EStruct s => run (g_struct g) s
    | EField f => run (g_field g) f
    | EEnum n => run (g_enum g) n
    | ECase c => run (g_case g) c
    | EAlias a => run (g_alias g) a
    | EImport i => run (g_import g) i
    end
  end.
(** mod.rs l.43-47: the name spaces are left in the generator *)
Definition file_with (fuel : nat) (g : generator) (f : rs_file) : generator * res str :=
  let g' := {| g_target_ns := rf_target_ns f; g_xsd_ns := rf_xsd_ns f; g_tuple := g_tuple g; g_struct := g_struct g;
               g_field := g_field g; g_base := g_base g; g_case := g_case g; g_enum := g_enum g;
               g_alias := g_alias g; g_import := g_import g |} in
  (g', rmap (@concat N) (rtraverse (generate_with fuel g') (rf_types f))).
(** Several files with one generator, as wsdl-parser-cli/src/main.rs l.64-68 does. *)
Fixpoint files_with (fuel : nat) (g : generator) (fs : list rs_file) : generator * list (res str) :=
  match fs with
  | [] => (g, [])
  | f :: fs' => let (g1, t) := file_with fuel g f in
                let (g2, ts) := files_with fuel g1 fs' in (g2, t :: ts)
  end.
End Builder.
