(** Property theorems C47-C51, C59: the generated code. *)
From Coq Require Import NArith ZArith Bool Ascii String List Lia Permutation SpecFloat.
From Verif Require Import Str SpecLex SpecNames SpecBuiltin Xml Names NamesProofs Prim Entity SpecSchema Link Gen SpecRust SpecGen SpecCheck RustFacts GenProofs GenProofs2.
Import ListNotations.
Local Open Scope string_scope.
Local Open Scope list_scope.
Local Open Scope N_scope.
Notation concat := List.concat.

(** The names in the generated code of a file: types, members and modules (C28-C30), variants. *)
Definition type_text (u : uni) (f : rs_file) (q : str) : str := format_type_name u q (rf_xsd_ns f) (rf_target_ns f).
Definition file_items (u : uni) (f : rs_file) : list entity -> list item -> Prop :=
  all_items u (rf_target_ns f) (type_text u f) (format_name u) (variant_name u (rf_target_ns f)).
Definition ty_of (u : uni) (f : rs_file) : str -> list token := ty u (type_text u f).

(** C47: the text of a file with sane names lexes to the items of its types, in order. *)
Theorem C47_file : forall u f its, sane_ns (rf_target_ns f) -> Forall sane (rf_types f) ->
  file_items u f (rf_types f) its ->
  exists f' s, generate_rs_file u f = Ok (f', s) /\ lex u s = Some (concat (map (item_tokens u) its)).
Proof. exact file_text. Qed.
Print Assumptions C47_file.

(** C47: the generator never returns an error; it panics exactly if some length facet is no
    32-bit number; otherwise the items exist, and they are unique. *)
Theorem C47_panic : forall u f, sane_ns (rf_target_ns f) -> Forall sane (rf_types f) ->
  generate_rs_file u f <> Err /\
  (generate_rs_file u f = Panic <-> exists e, In e (rf_types f) /\ bad_length e) /\
  ((exists e, In e (rf_types f) /\ bad_length e) \/ exists its, file_items u f (rf_types f) its).
Proof. exact file_panic. Qed.
Print Assumptions C47_panic.
Theorem C47_unique : forall u f l a b, file_items u f l a -> file_items u f l b -> a = b.
Proof.
  exact (fun u f l a b A B => all_unique u _ _ l (fun e _ => items_unique u _ _ e) a b A B).
Qed.
Print Assumptions C47_unique.

(** C47: the declared structs, tuples and enums, with those nested in them, are defined in the
    order of their declaration, each once, at its module path; each has one Validate
    implementation, each enum one Default implementation. *)
Theorem C47_defined : forall u f l its, file_items u f l its ->
  let ds := concat (map (declared (format_name u) []) l) in
  concat (map (defined []) its) = map (fun '(p, n, k) => (p, ty_of u f n, k)) ds /\
  Permutation (concat (map (validated []) its)) (map (fun '(p, n, k) => (p, ty_of u f n)) ds) /\
  concat (map (defaulted []) its) = map (fun '(p, n, k) => (p, ty_of u f n)) (filter (fun d => match snd d with KEnum => true | _ => false end) ds).
Proof. exact file_defined. Qed.
Print Assumptions C47_defined.

(** An order schema: an enum, a tuple with facets, a struct with a nested type. *)
Definition u2 : uni := {| u_alphabetic := fun _ => false; u_numeric := fun _ => false; u_lower := fun _ => false; u_upper := fun _ => false |}.
Definition xs_ns : option namespace := Some {| ns_name := Some (lit "xs"); ns_uri := lit "http://www.w3.org/2001/XMLSchema" |}.
Definition shop_ns : option namespace := Some {| ns_name := Some (lit "shop"); ns_uri := lit "http://shop" |}.
Definition fld (n t : string) (subs : list entity) (ms : list modifier) : field entity :=
  {| fl_name := lit n; fl_type := lit t; fl_comment := None; fl_subtypes := subs; fl_source := FromElement; fl_mods := ms |}.
Definition strct (n : string) (fs : list (field entity)) : entity :=
  EStruct {| st_name := lit n; st_comment := Some (lit "An order."); st_fields := fs; st_groups := []; st_subtypes := [] |}.
Definition tup (n t : string) (fs : list facet_type) : entity :=
  ETuple {| tu_name := lit n; tu_comment := None; tu_type := lit t; tu_subtypes := []; tu_mods := [];
            tu_facets := map (fun f => {| fa_type := f; fa_comment := None |}) fs |}.
Definition colour : entity :=
  EEnum {| en_name := lit "colour"; en_cases := [{| ec_name := lit "dark-red"; ec_comment := None; ec_value := lit "dark-red"; ec_type := None; ec_mods := []; ec_source := OfRestriction |}];
           en_comment := None; en_type := lit "xs:string"; en_subtypes := []; en_source := OfRestriction |}.
Definition order : entity :=
  strct "Order" [fld "code" "shop:code" [] [MOption]; fld "item" "itemType" [strct "itemType" [fld "price" "xs:int" [] []]] [MArray]].
Definition file (l : list entity) : rs_file := {| rf_types := l; rf_groups := []; rf_target_ns := shop_ns; rf_xsd_ns := xs_ns |}.
Definition shop : rs_file := file [order; tup "code" "xs:string" [FMinLength (lit "2"); FPattern (lit "[A-Z]*")]; colour].
Definition text_of (u : uni) (f : rs_file) : str := match generate_rs_file u f with Ok (_, s) => s | _ => [] end.
Example C47_ex1 : match generate_rs_file u2 shop with Ok _ => True | _ => False end. Proof. vm_compute. exact I. Qed.
Example C47_ex2 : map (fun '(p, n, _) => (p, n)) (concat (map (declared (format_name u2) []) (rf_types shop))) =
  [([], lit "Order"); ([lit "order"], lit "itemType"); ([], lit "code"); ([], lit "colour")].
Proof. vm_compute. reflexivity. Qed.
Example C47_ex3 : Forall sane (rf_types shop) /\ sane_ns (rf_target_ns shop).
Proof.
  assert (Q : forall q : str, (let '(p, _) := split_name q in match p with Some p => forallb (fun c => negb ((c =? 34) || (c =? 47) || (c =? 10))) p | None => true end) = true -> sane_type q).
  { intros q H p l Hq. apply NamesProofs.split_name_iff in Hq. rewrite Hq in H. rewrite forallb_forall in H. intros c Hc. specialize (H c Hc). lia. }
  assert (L : forall v : str, forallb (fun c => negb ((c =? 34) || (c =? 92) || (c =? 10))) v = true -> literal v).
  { intros v H c Hc. rewrite forallb_forall in H. specialize (H c Hc). lia. }
  split.
  - repeat first [apply Q; vm_compute; reflexivity|apply L; vm_compute; reflexivity|exact I|intros ? [=]|constructor].
  - intros t [= <-]. cbn. split; [apply L; reflexivity|intros p [= <-]; apply L; reflexivity].
Qed.
Definition order_tokens : list token := lexemes u2 (lit "
// An order.
#[derive(Default, Clone, PartialEq, Debug, YaSerialize, YaDeserialize)]
#[yaserde(prefix = ""shop"", namespace = ""shop: http://shop"")]
pub struct Order {
  #[yaserde(prefix = ""shop"", rename = ""code"")] pub code: Option<Code>,
  #[yaserde(prefix = ""shop"", rename = ""item"")] pub item: Vec<order::ItemType>,
}
impl Validate for Order {}
pub mod order {
  use super::*;
  // An order.
  #[derive(Default, Clone, PartialEq, Debug, YaSerialize, YaDeserialize)]
  #[yaserde(prefix = ""shop"", namespace = ""shop: http://shop"")]
  pub struct ItemType { #[yaserde(prefix = ""shop"", rename = ""price"")] pub price: i32, }
  impl Validate for ItemType {}
}
#[derive(Default, Clone, PartialEq, Debug, UtilsTupleIo, UtilsDefaultSerde)]
pub struct Code(pub String);
impl Validate for Code {
  fn validate(&self) -> Result<(), String> {
    #[allow(clippy::len_zero)]
    if self.0.len() < 2 {
      return Err(format!(""MinLength validation error. \nExpected: 0 length >= 2 \nActual: 0 length == {}"", self.0.len()));
    }
    Ok(())
  }
}
#[derive(PartialEq, Debug, Clone, YaSerialize, YaDeserialize)]
#[yaserde(prefix = ""shop"", namespace = ""shop: http://shop"")]
pub enum Colour {
  #[yaserde(rename = ""dark-red"")] DarkRed,
  __Unknown__(String),
}
impl Default for Colour { fn default() -> Colour { Self::__Unknown__(""No valid variants"".into()) } }
impl Validate for Colour {}
").
Example C47_ex4 : lex u2 (text_of u2 shop) = Some order_tokens. Proof. vm_compute. reflexivity. Qed.

(** C47: the name of a variant: the local part in pascal case; escaped if the name has no
    prefix or that of the target namespace. *)
Theorem C47_variants : forall u tns n p l, qualified n p l -> (exists c, In c l /\ alnum c) ->
  let r := variant_name u tns n in
  letters r = letters l /\ (forall c, In c r -> alnum c \/ c = 95) /\
  (p = None \/ p = ns_prefix tns -> rust_ident r \/ r = lit "try").
Proof. exact variant_names. Qed.
Print Assumptions C47_variants.
(** C47: but not every enumeration gives valid code: foreign prefixes are dropped without
    escaping, names without ASCII letters and digits vanish, and different names collide. *)
Theorem C47_variants_refuted : forall u,
  variant_name u shop_ns (lit "x:self") = lit "Self" /\ In (lit "Self") rust_reserved /\
  variant_name u shop_ns (lit "x:1") = lit "1" /\
  variant_name u shop_ns (lit "+") = [] /\
  variant_name u shop_ns (lit "a-b") = variant_name u shop_ns (lit "a b") /\
  variant_name u shop_ns (lit "+1") = variant_name u shop_ns (lit "-1") /\
  variant_name u shop_ns (lit "x:a") = variant_name u shop_ns (lit "y:a").
Proof. intros u. repeat split; vm_compute; tauto. Qed.
Print Assumptions C47_variants_refuted.

(** C47: names and texts are not escaped: a quote in a bound, a line break in an import. *)
Theorem C47_sane_needed_refuted : forall u,
  lex u (text_of u (file [tup "t" "xs:int" [FMaxInclusive [34]]])) = None /\
  lex u (text_of u (file [EImport {| im_name := []; im_location := 10 :: lit "fn f() {}"; im_comment := None |}])) =
    Some (rust u "//use
 fn f() {} ;").
Proof. intros u. split; vm_compute; reflexivity. Qed.
Print Assumptions C47_sane_needed_refuted.

(** C48: without nested types in fields nothing is changed: generating again gives the same. *)
Theorem C48_again : forall u f f' s, Forall unnested (rf_types f) -> generate_rs_file u f = Ok (f', s) ->
  f' = f /\ generate_rs_file u f' = Ok (f', s).
Proof. exact file_twice. Qed.
Print Assumptions C48_again.
(** C48: in general a field type is prefixed once more by every generation. *)
Theorem C48_prefixed_again : forall u s f, In f (st_fields s) -> fl_subtypes f <> [] ->
  exists s' f', touched u (EStruct s) = EStruct s' /\ In f' (st_fields s') /\ fl_name f' = fl_name f /\
    fl_subtypes f' <> [] /\ fl_type f' = format_name u (st_name s) ++ lit "::" ++ fl_type f.
Proof. exact prefixed_again. Qed.
Print Assumptions C48_prefixed_again.
Theorem C48_always_refuted : exists f f' s f'' s',
  generate_rs_file u2 f = Ok (f', s) /\ generate_rs_file u2 f' = Ok (f'', s') /\ lex u2 s <> lex u2 s'.
Proof.
  exists shop. do 4 eexists. split; [vm_compute; reflexivity|]. split; [vm_compute; reflexivity|]. vm_compute. discriminate.
Qed.
Print Assumptions C48_always_refuted.
Example C48_ex1 : match generate_rs_file u2 shop with
  | Ok (f', _) => lex u2 (text_of u2 (file (firstn 1 (rf_types f')))) = Some (lexemes u2 (lit "
// An order.
#[derive(Default, Clone, PartialEq, Debug, YaSerialize, YaDeserialize)]
#[yaserde(prefix = ""shop"", namespace = ""shop: http://shop"")]
pub struct Order {
  #[yaserde(prefix = ""shop"", rename = ""code"")] pub code: Option<Code>,
  #[yaserde(prefix = ""shop"", rename = ""item"")] pub item: Vec<order::OrderItemType>,
}
impl Validate for Order {}
pub mod order {
  use super::*;
  // An order.
  #[derive(Default, Clone, PartialEq, Debug, YaSerialize, YaDeserialize)]
  #[yaserde(prefix = ""shop"", namespace = ""shop: http://shop"")]
  pub struct ItemType { #[yaserde(prefix = ""shop"", rename = ""price"")] pub price: i32, }
  impl Validate for ItemType {}
}"))
  | _ => False end.
Proof. vm_compute. reflexivity. Qed.

(** C49: an alias is code exactly if its documentation yields a comment line. *)
Theorem C49_alias : forall u f a, sane_ns (rf_target_ns f) -> sane (EAlias a) -> exists s,
  Gen.gen u (rf_target_ns f) (rf_xsd_ns f) (EAlias a) = Ok s /\
  (~ documented (al_comment a) -> exists ws, lex u s = Some (notes ws)) /\
  (documented (al_comment a) ->
   lex u s = Some (notes (lit "//" :: doc_words (al_comment a)) ++ rust u "pub type" ++ ty_of u f (al_name a) ++ rust u "=" ++ ty_of u f (al_original a) ++ rust u ";")).
Proof. exact alias_text. Qed.
Print Assumptions C49_alias.
Theorem C49_always_commented_refuted :
  lex u2 (text_of u2 (file [EAlias {| al_name := lit "a"; al_original := lit "xs:int"; al_comment := Some (lit "About a."); al_subtypes := [] |}]))
  = Some (rust u2 "//// About a.
 pub type A = i32;").
Proof. vm_compute. reflexivity. Qed.
Print Assumptions C49_always_commented_refuted.
Example C49_ex1 : lex u2 (text_of u2 (file [EAlias {| al_name := lit "a"; al_original := lit "xs:int"; al_comment := Some (lit " x "); al_subtypes := [] |}])) = Some (rust u2 "// pub type A = i32;").
Proof. vm_compute. reflexivity. Qed.

(** C50: the types nested in a field are defined in the module named after the struct. *)
Theorem C50_module : forall u f s fl e its, file_items u f [EStruct s] its -> In fl (st_fields s) -> In e (fl_subtypes fl) ->
  exists inner, In (IMod (format_name u (st_name s)) inner) its /\
    incl (map (fun '(p, n, k) => (p, ty_of u f n, k)) (declared (format_name u) [] e)) (concat (map (defined []) inner)).
Proof. exact module_of. Qed.
Print Assumptions C50_module.
(** C50: and the field refers to the nested type there, if the module is not named like the
    target prefix, the type not like a built-in, and its name needs no escape. *)
Theorem C50_reference : forall u f m (fl : field entity),
  fl_subtypes fl <> [] -> ~ In 58 (fl_type fl) -> ns_prefix (rf_target_ns f) <> Some (format_name u m) ->
  ~ (ns_prefix (rf_xsd_ns f) = None /\ In (fl_type fl) (map fst xsd_builtins)) ->
  (forall r, type_text u f (fl_type fl) <> 95 :: r) ->
  rf_type (member u (rf_target_ns f) (type_text u f) (format_name u) (format_name u m) fl) =
  modified u (word (format_name u m) ++ rust u "::" ++ ty_of u f (fl_type fl)) (fl_mods fl).
Proof. exact reference_of. Qed.
Print Assumptions C50_reference.
Example C50_ex1 : type_text u2 shop (lit "order::itemType") = lit "order::ItemType". Proof. vm_compute. reflexivity. Qed.
(** C50: each of the three conditions is needed. *)
Theorem C50_always_refuted : forall u,
  (forall T, type_text u (file []) (format_name u (lit "Shop") ++ lit "::" ++ T) = type_text u (file []) (lit "shop:" ++ T)) /\
  lex u (text_of u (file [strct "Shop" [fld "item" "itemType" [strct "itemType" []] []]])) = Some (rust u "
// An order.
#[derive(Default, Clone, PartialEq, Debug, YaSerialize, YaDeserialize)]
#[yaserde(prefix = ""shop"", namespace = ""shop: http://shop"")]
pub struct Shop { #[yaserde(prefix = ""shop"", rename = ""item"")] pub item: ItemType, }
impl Validate for Shop {}
pub mod shop {
  use super::*;
  // An order.
  #[derive(Default, Clone, PartialEq, Debug, YaSerialize, YaDeserialize)]
  #[yaserde(prefix = ""shop"", namespace = ""shop: http://shop"")]
  pub struct ItemType {}
  impl Validate for ItemType {}
}") /\
  (type_text u (file []) (lit "_1aType") = lit "_1Atype" /\ type_text u (file []) (lit "order::_1aType") = lit "order::1Atype").
Proof.
  intros u. split; [|split; [vm_compute; reflexivity|split; vm_compute; reflexivity]].
  intros T. assert (B : forall n l, qualified n (Some (lit "shop")) l -> match_built_in_type n xs_ns = None).
  { intros n l Q. unfold match_built_in_type. rewrite (proj2 (split_name_iff _ _ _) Q). reflexivity. }
  assert (Q1 : qualified (format_name u (lit "Shop") ++ lit "::" ++ T) (Some (lit "shop")) (58 :: T)) by (split; [reflexivity|intros [H|[H|[H|[H|[]]]]]; discriminate]).
  assert (Q2 : qualified (lit "shop:" ++ T) (Some (lit "shop")) T) by (split; [reflexivity|intros [H|[H|[H|[H|[]]]]]; discriminate]).
  unfold type_text. cbn [rf_xsd_ns rf_target_ns file]. rewrite (format_type_own u _ _ _ _ shop_ns Q1 (B _ _ Q1)), (format_type_own u _ _ _ _ shop_ns Q2 (B _ _ Q2)) by (right; reflexivity).
  rewrite pascal_colon. reflexivity.
Qed.
Print Assumptions C50_always_refuted.

(** C51: a validate body accepts a value exactly if all facets allow it, and panics exactly if
    all facets before an unreadable bound allow it. *)
Theorem C51_validate : forall V (read : str -> option V) cmp len, (forall x y, cmp x y <> None) ->
  forall t fs ks x, Forall2 (facet_checks t) fs ks ->
  (run_checks V read cmp len (concat ks) x = Accepted <-> Forall (allowed V read cmp len x) fs) /\
  (run_checks V read cmp len (concat ks) x = Crashed <->
   exists a f b, fs = a ++ f :: b /\ Forall (allowed V read cmp len x) a /\ unreadable V read f).
Proof. exact all_facets. Qed.
Print Assumptions C51_validate.
Definition z_read (s : str) : option Z := match parse_signed (-128) 127 s with Ok z => Some z | _ => None end.
Example C51_ex1 :
  let ks := [bound_check "MinInclusive" "<" ">=" [] (lit "-3"); bound_check "MaxExclusive" ">=" "<" [] (lit "7")] in
  map (fun x => match run_checks Z z_read (fun a b => Some (Z.compare a b)) (fun _ => 0) ks x with Accepted => true | _ => false end) [-4; -3; 6; 7]%Z
  = [false; true; true; false].
Proof. vm_compute. reflexivity. Qed.
(** C51: these are the checks of a tuple; structs and enums check nothing: also not their
    members, nor does a tuple check the facets of its base type. *)
Theorem C51_checks : forall u f t its, file_items u f [ETuple t] its -> exists pre kss,
  its = pre ++ [IValidate (ty_of u f (tu_name t)) (concat kss)] /\
  Forall2 (facet_checks (modified u (ty_of u f (tu_type t)) (tu_mods t))) (map fa_type (tu_facets t)) kss.
Proof. exact checks_of. Qed.
Print Assumptions C51_checks.
Theorem C51_unchecked : forall u f its,
  (forall s, file_items u f [EStruct s] its -> In (IValidate (ty_of u f (st_name s)) []) its) /\
  (forall n, file_items u f [EEnum n] its -> In (IValidate (ty_of u f (en_name n)) []) its).
Proof. exact unchecked. Qed.
Print Assumptions C51_unchecked.
(** C51: a length facet that is no 32-bit number makes the generator panic. *)
Theorem C51_length_panic : forall u f t fa v, sane_ns (rf_target_ns f) -> Forall sane (rf_types f) ->
  In (ETuple t) (rf_types f) -> In fa (tu_facets t) -> length_value (fa_type fa) = Some v -> (forall n, ~ u32_text v n) ->
  generate_rs_file u f = Panic.
Proof. exact length_panic. Qed.
Print Assumptions C51_length_panic.
Example C51_ex2 : generate_rs_file u2 (file [tup "t" "xs:string" [FMaxLength (lit "4294967296")]]) = Panic. Proof. vm_compute. reflexivity. Qed.
(** C51: without a total order it is false: a NaN passes every bound; lengths are bytes: "é",
    one character, is rejected for maxLength 1. *)
Definition f64_one : spec_float := S754_finite false 4503599627370496 (-52).
Theorem C51_always_refuted :
  (run_checks spec_float (fun _ => Some f64_one) SFcompare (fun _ => 0) [bound_check "MinInclusive" "<" ">=" [] (lit "1"); bound_check "MaxInclusive" ">" "<=" [] (lit "1")] S754_nan = Accepted /\
   ~ allowed spec_float (fun _ => Some f64_one) SFcompare (fun _ => 0) S754_nan (FMinInclusive (lit "1"))) /\
  (exists m, run_checks str (fun s => Some s) (fun _ _ => None) (fun s => N.of_nat (byte_len s)) [length_check "MaxLength" ">" "<=" 1] [233] = Rejected m).
Proof.
  split; [split; [vm_compute; reflexivity|]|eexists; vm_compute; reflexivity]. intros (b & [= <-] & [H|H]); discriminate.
Qed.
Print Assumptions C51_always_refuted.

(** C59: the comments of a generated file are, word by word and in order, the documentation of
    its types, their members and their nested types (C47_file: each before what it documents). *)
Theorem C59_comments : forall u f f' s, sane_ns (rf_target_ns f) -> Forall sane (rf_types f) ->
  generate_rs_file u f = Ok (f', s) -> exists ts, lex u s = Some ts /\
  noted ts = concat (map (entity_words (type_text u f)) (rf_types f)).
Proof. exact file_comments. Qed.
Print Assumptions C59_comments.
(** C59: the words that count are those of the lines with more than one byte of text. *)
Theorem C59_words : forall d ps r, pieces d ps -> kept_words ps r -> doc_words (Some d) = concat r.
Proof. exact doc_words_kept. Qed.
Print Assumptions C59_words.
Definition told (n d : string) (e : entity) : entity :=
  EStruct {| st_name := lit n; st_comment := Some (lit d);
             st_fields := [{| fl_name := lit "part"; fl_type := lit "partType"; fl_comment := Some (lit "Its
  only   part."); fl_subtypes := [e]; fl_source := FromElement; fl_mods := [] |}];
             st_groups := []; st_subtypes := [] |}.
Example C59_ex1 : lex u2 (text_of u2 (file [told "Whole" "A whole." (told "partType" "One" (tup "T" "xs:int" []))])) = Some (lexemes u2 (lit "
// A whole.
#[derive(Default, Clone, PartialEq, Debug, YaSerialize, YaDeserialize)]
#[yaserde(prefix = ""shop"", namespace = ""shop: http://shop"")]
pub struct Whole {
  // Its only part.
  #[yaserde(prefix = ""shop"", rename = ""part"")] pub part: whole::PartType,
}
impl Validate for Whole {}
pub mod whole {
  use super::*;
  // One
  #[derive(Default, Clone, PartialEq, Debug, YaSerialize, YaDeserialize)]
  #[yaserde(prefix = ""shop"", namespace = ""shop: http://shop"")]
  pub struct PartType {
    // Its
    // only part.
    #[yaserde(prefix = ""shop"", rename = ""part"")] pub part: part_type::PartType,
  }
  impl Validate for PartType {}
  pub mod part_type {
    use super::*;
    #[derive(Default, Clone, PartialEq, Debug, UtilsTupleIo, UtilsDefaultSerde)]
    pub struct T(pub i32);
    impl Validate for T {}
  }
}")).
Proof. vm_compute. reflexivity. Qed.
(** C59: a line of one character is lost, and so is the documentation of facets and of
    prohibited attributes. *)
Theorem C59_everything_refuted : exists t s g,
  tu_comment t = Some (lit "A" ++ [10] ++ lit "B C") /\ (exists fa, In fa (tu_facets t) /\ fa_comment fa = Some (lit "Upper bound")) /\
  (exists fl : field entity, In fl (st_fields s) /\ fl_comment fl = Some (lit "Not used")) /\
  generate_rs_file u2 (file [ETuple t; EStruct s]) = Ok g /\ exists ts, lex u2 (snd g) = Some ts /\ noted ts = [lit "B"; lit "C"].
Proof.
  set (t := {| tu_name := lit "t"; tu_comment := Some (lit "A" ++ [10] ++ lit "B C"); tu_type := lit "xs:int"; tu_subtypes := @nil entity; tu_mods := [];
               tu_facets := [{| fa_type := FMaxInclusive (lit "7"); fa_comment := Some (lit "Upper bound") |}] |}).
  set (s := {| st_name := lit "s"; st_comment := None; st_fields := [{| fl_name := lit "a"; fl_type := lit "xs:int"; fl_comment := Some (lit "Not used"); fl_subtypes := @nil entity; fl_source := FromAttribute; fl_mods := [MEmpty] |}];
               st_groups := []; st_subtypes := [] |}).
  set (g := match generate_rs_file u2 (file [ETuple t; EStruct s]) with Ok g => g | _ => (file [], []) end). vm_compute in g.
  exists t, s, g. split; [reflexivity|]. split; [eexists; split; [left; reflexivity|reflexivity]|]. split; [eexists; split; [left; reflexivity|reflexivity]|].
  split; [vm_compute; reflexivity|]. exists (lexemes u2 (snd g)). split; vm_compute; reflexivity.
Qed.
Print Assumptions C59_everything_refuted.
