(** Model of xsd-parser/src/parser/types.rs and the facet types of xsd_elements.rs.
    [RefCell]s are plain components here; Link.v models the borrowing. *)
From Coq Require Import List NArith Bool Ascii String.
From Verif Require Import Str Xml Names.
Import ListNotations.

(** xsd_elements.rs l.56-61 *)
Inductive white_space := WsPreserve | WsReplace | WsCollapse.

(** xsd_elements.rs l.40-54 *)
Inductive facet_type :=
| FEnumeration (v : str) | FFractionDigits (v : str) | FLength (v : str)
| FMaxExclusive (v : str) | FMaxInclusive (v : str) | FMaxLength (v : str)
| FMinExclusive (v : str) | FMinInclusive (v : str) | FMinLength (v : str)
| FPattern (v : str) | FTotalDigits (v : str) | FWhiteSpace (w : white_space).

(** types.rs l.111-115 *)
Record facet := { fa_type : facet_type; fa_comment : option str }.

(** types.rs l.100-109 *)
Inductive field_source := FromAttribute | FromElement | FromBase | FromChoice | FromNA.

(** types.rs l.137-144 *)
Inductive enum_source := OfRestriction | OfChoice | OfUnion | OfNA.

(** types.rs l.155-163 *)
Record enum_case := {
  ec_name : str; ec_comment : option str; ec_value : str; ec_type : option str;
  ec_mods : list modifier; ec_source : enum_source }.

(** types.rs l.173-178 *)
Record import_ := { im_name : str; im_location : str; im_comment : option str }.

Section E.
Context (E : Type).
(** types.rs l.165-171 *)
Record alias := { al_name : str; al_original : str; al_comment : option str; al_subtypes : list E }.
(** types.rs l.80-88 *)
Record field := {
  fl_name : str; fl_type : str; fl_comment : option str; fl_subtypes : list E;
  fl_source : field_source; fl_mods : list modifier }.
(** types.rs l.17-24 *)
Record strukt := {
  st_name : str; st_comment : option str; st_fields : list field; st_groups : list alias;
  st_subtypes : list E }.
(** types.rs l.117-125 *)
Record tuple := {
  tu_name : str; tu_comment : option str; tu_type : str; tu_subtypes : list E;
  tu_mods : list modifier; tu_facets : list facet }.
(** types.rs l.127-135 *)
Record enum := {
  en_name : str; en_cases : list enum_case; en_comment : option str; en_type : str;
  en_subtypes : list E; en_source : enum_source }.
End E.
Arguments al_name {E}. Arguments al_original {E}. Arguments al_comment {E}. Arguments al_subtypes {E}.
Arguments fl_name {E}. Arguments fl_type {E}. Arguments fl_comment {E}. Arguments fl_subtypes {E}.
Arguments fl_source {E}. Arguments fl_mods {E}.
Arguments st_name {E}. Arguments st_comment {E}. Arguments st_fields {E}. Arguments st_groups {E}.
Arguments st_subtypes {E}.
Arguments tu_name {E}. Arguments tu_comment {E}. Arguments tu_type {E}. Arguments tu_subtypes {E}.
Arguments tu_mods {E}. Arguments tu_facets {E}.
Arguments en_name {E}. Arguments en_cases {E}. Arguments en_comment {E}. Arguments en_type {E}.
Arguments en_subtypes {E}. Arguments en_source {E}.

(** types.rs l.180-189 *)
Inductive entity :=
| EStruct (s : strukt entity)
| EField (f : field entity)
| ETuple (t : tuple entity)
| EEnum (e : enum entity)
| ECase (c : enum_case)
| EAlias (a : alias entity)
| EImport (i : import_).

(** types.rs l.191-203 *)
Definition entity_name (e : entity) : str :=
  match e with
  | EStruct s => st_name s
  | ETuple t => tu_name t
  | EEnum e => en_name e
  | ECase c => ec_name c
  | EAlias a => al_name a
  | EField f => fl_name f
  | EImport i => im_name i
  end.

Definition st_set_name (n : str) (s : strukt entity) : strukt entity :=
  {| st_name := n; st_comment := st_comment s; st_fields := st_fields s;
     st_groups := st_groups s; st_subtypes := st_subtypes s |}.
Definition en_set_name (n : str) (e : enum entity) : enum entity :=
  {| en_name := n; en_cases := en_cases e; en_comment := en_comment e; en_type := en_type e;
     en_subtypes := en_subtypes e; en_source := en_source e |}.

(** types.rs l.205-216 *)
Definition set_name (n : str) (e : entity) : entity :=
  match e with
  | EStruct s => EStruct (st_set_name n s)
  | ETuple t => ETuple {| tu_name := n; tu_comment := tu_comment t; tu_type := tu_type t;
                          tu_subtypes := tu_subtypes t; tu_mods := tu_mods t; tu_facets := tu_facets t |}
  | EEnum e => EEnum (en_set_name n e)
  | ECase c => ECase {| ec_name := n; ec_comment := ec_comment c; ec_value := ec_value c;
                        ec_type := ec_type c; ec_mods := ec_mods c; ec_source := ec_source c |}
  | EAlias a => EAlias {| al_name := n; al_original := al_original a; al_comment := al_comment a;
                          al_subtypes := al_subtypes a |}
  | EField f => EField {| fl_name := n; fl_type := fl_type f; fl_comment := fl_comment f;
                          fl_subtypes := fl_subtypes f; fl_source := fl_source f; fl_mods := fl_mods f |}
  | EImport i => EImport {| im_name := n; im_location := im_location i; im_comment := im_comment i |}
  end.

Definition st_set_comment (c : option str) (s : strukt entity) : strukt entity :=
  {| st_name := st_name s; st_comment := c; st_fields := st_fields s;
     st_groups := st_groups s; st_subtypes := st_subtypes s |}.
Definition st_set_fields (fs : list (field entity)) (s : strukt entity) : strukt entity :=
  {| st_name := st_name s; st_comment := st_comment s; st_fields := fs;
     st_groups := st_groups s; st_subtypes := st_subtypes s |}.

(** types.rs l.218-230 *)
Definition set_comment (c : option str) (e : entity) : entity :=
  match e with
  | EStruct s => EStruct (st_set_comment c s)
  | ETuple t => ETuple {| tu_name := tu_name t; tu_comment := c; tu_type := tu_type t;
                          tu_subtypes := tu_subtypes t; tu_mods := tu_mods t; tu_facets := tu_facets t |}
  | EEnum e => EEnum {| en_name := en_name e; en_cases := en_cases e; en_comment := c;
                        en_type := en_type e; en_subtypes := en_subtypes e; en_source := en_source e |}
  | ECase k => ECase {| ec_name := ec_name k; ec_comment := c; ec_value := ec_value k;
                        ec_type := ec_type k; ec_mods := ec_mods k; ec_source := ec_source k |}
  | EAlias a => EAlias {| al_name := al_name a; al_original := al_original a; al_comment := c;
                          al_subtypes := al_subtypes a |}
  | EField f => EField {| fl_name := fl_name f; fl_type := fl_type f; fl_comment := c;
                          fl_subtypes := fl_subtypes f; fl_source := fl_source f; fl_mods := fl_mods f |}
  | EImport i => EImport {| im_name := im_name i; im_location := im_location i; im_comment := c |}
  end.

(** types.rs l.7-15 ([name] and [namespace] stay empty) *)
Record rs_file := {
  rf_types : list entity; rf_groups : list entity;
  rf_target_ns : option namespace; rf_xsd_ns : option namespace }.
