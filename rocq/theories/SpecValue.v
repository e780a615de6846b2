(** Values: which texts XML Schema allows for a simple type and what they mean, and what the
    generated code makes of a text. *)
From Coq Require Import NArith ZArith Bool Ascii String List.
From Verif Require Import Str SpecLex SpecNames SpecBuiltin SpecSerde Xml Names Entity SpecSchema SpecRust SpecGen SpecCheck SpecScope SpecTraits SpecSize SpecFit.
Import ListNotations.
Local Open Scope string_scope.
Local Open Scope list_scope.
Local Open Scope N_scope.

(** ** Simple types, after XML Schema Part 2 *)
(** A simple type; of the item type of a list it is kept whether it has a name. *)
Inductive stype :=
| TBuiltin (l : str)
| TRestriction (base : stype) (facets : list facet_type)
| TList (named : bool) (item : stype)
| TUnion (members : list stype).

(** The simple types of a schema document.  Restrictions name their base. *)
Section Described.
Context (schema : node) (own xsd : option str).
Inductive described : node -> stype -> Prop :=
| de_restriction d c q B fs : only d c -> tag "restriction" c -> has c "base" q -> refers q B ->
    Forall2 facet_of (tagged_children facet_names c) fs -> described d (TRestriction B fs)
| de_list d c q I : only d c -> tag "list" c -> has c "itemType" q -> refers q I -> described d (TList true I)
| de_list_of d c i I : only d c -> tag "list" c -> absent c "itemType" -> only c i -> tag "simpleType" i -> described i I -> described d (TList false I)
| de_union d c qs Ts Us : only d c -> tag "union" c -> member_tokens c qs -> Forall2 refers qs Ts ->
    Forall2 described (tagged_children ["simpleType"] c) Us -> described d (TUnion (Ts ++ Us))
with refers : str -> stype -> Prop :=
| re_builtin q l : qualified q xsd l -> builtin_name l -> refers q (TBuiltin l)
| re_declared q l d T : to_own own xsd q l -> SpecFit.declared schema "simpleType" l d -> described d T -> refers q T.
End Described.

(** Texts that are items separated by XML white space. *)
Definition xml_solid (t : str) : Prop := t <> [] /\ forall c, In c t -> ~ xml_blank c.
Definition xml_blanks (w : str) : Prop := forall c, In c w -> xml_blank c.
Inductive xml_items : str -> list str -> Prop :=
| xi_none w : xml_blanks w -> xml_items w []
| xi_last w t w' : xml_blanks w -> xml_solid t -> xml_blanks w' -> xml_items (w ++ t ++ w') [t]
| xi_more w t b rest ts : xml_blanks w -> xml_solid t -> xml_blank b -> ts <> [] -> xml_items rest ts -> xml_items (w ++ t ++ [b] ++ rest) (t :: ts).

Section Values.
(** The value space of the built-in types: [lexical l s a]: the text [s] of the type [l] means
    [a]; order and length; what patterns and the digit facets mean. *)
Context (A : Type) (lexical : str -> str -> A -> Prop) (order : A -> A -> option comparison) (size : A -> N).
Context (pattern : str -> str -> Prop) (digits : facet_type -> A -> Prop).

Inductive value := Atom (a : A) | Items (l : list value).
Definition length_of (x : value) : N := match x with Atom a => size a | Items l => N.of_nat (List.length l) end.
(** The text [s] with the value [x] satisfies a facet of a restriction; [D]: the texts of the base. *)
Definition bounded_by (D : str -> value -> Prop) (v : str) (x : value) (C : comparison -> Prop) : Prop :=
  exists a b c, x = Atom a /\ D v (Atom b) /\ order a b = Some c /\ C c.
Definition satisfies (D : str -> value -> Prop) (s : str) (x : value) (f : facet_type) : Prop :=
  match f with
  | FMaxExclusive v => bounded_by D v x (fun c => c = Lt)
  | FMaxInclusive v => bounded_by D v x (fun c => c <> Gt)
  | FMinExclusive v => bounded_by D v x (fun c => c = Gt)
  | FMinInclusive v => bounded_by D v x (fun c => c <> Lt)
  | FLength v => exists n, count_text v n /\ length_of x = n
  | FMaxLength v => exists n, count_text v n /\ length_of x <= n
  | FMinLength v => exists n, count_text v n /\ n <= length_of x
  | FPattern v => pattern v s
  | FTotalDigits _ | FFractionDigits _ => forall a, x = Atom a -> digits f a
  | FEnumeration _ | FWhiteSpace _ => True
  end.
Definition enumerations (fs : list facet_type) : list str :=
  List.concat (map (fun f => match f with FEnumeration v => [v] | _ => [] end) fs).

(** [denotes T s x]: the text [s], with white space normalised, means [x] in the type [T].  In a
    union the first type counts that has the text. *)
Fixpoint denotes (T : stype) (s : str) (x : value) : Prop :=
  match T with
  | TBuiltin l => exists a, lexical l s a /\ x = Atom a
  | TRestriction B fs =>
      denotes B s x /\ (forall f, In f fs -> satisfies (denotes B) s x f) /\
      (enumerations fs = [] \/ exists v, In v (enumerations fs) /\ denotes B v x)
  | TList _ E => exists ts xs, xml_items s ts /\ Forall2 (denotes E) ts xs /\ x = Items xs
  | TUnion Ts =>
      (fix first (l : list stype) : Prop :=
         match l with [] => False | U :: r => denotes U s x \/ (forall y, ~ denotes U s y) /\ first r end) Ts
  end.

(** ** Generated code *)
Section Code.
(** The library types: how they read and write texts, compare, and their [len]. *)
Context (u : uni) (P : list (list str * item)).
Context (lib_read : string -> str -> option A) (lib_show : string -> A -> str) (lib_cmp : A -> A -> option comparison) (lib_len : A -> N).
Inductive rval :=
| RLib (t : string) (a : A)
| RNew (v : rval)                 (* a tuple struct *)
| RVec (l : list rval)
| RUnit (text : str)              (* a variant without payload; its text *)
| RCase (v : rval).               (* a variant with payload *)

(** FromStr: [None] is an error.  xsd-macro-utils/src/tuple.rs: a tuple reads its component; a
    tuple of a vector reads the items it can, and skips the others.  Enums have no FromStr. *)
Definition found {B} (l : list (option B)) : list B := List.concat (map (fun o => match o with Some x => [x] | None => [] end) l).
Definition vector (c : list token) : list token := rust u "Vec<" ++ c ++ rust u ">".
Inductive from_str : list str -> list token -> str -> option rval -> Prop :=
| from_library path t s : In t library_types -> from_str path (rust u t) s (option_map (RLib t) (lib_read t s))
| from_alias path t p d m t' s r : names u P path t p (IType d m t') -> from_str p t' s r -> from_str path t s r
| from_tuple path t p d a m c s r : names u P path t p (ITuple d a m c) -> derives a "UtilsTupleIo" -> (forall c', c <> vector c') ->
    from_str p c s r -> from_str path t s (option_map RNew r)
| from_vector path t p d a m c s ts rs : names u P path t p (ITuple d a m (vector c)) -> derives a "UtilsTupleIo" ->
    tokens s ts -> Forall2 (from_str p c) ts rs -> from_str path t s (Some (RNew (RVec (found rs)))).

(** The text yaserde looks for to choose a variant. *)
Definition variant_text (v : variant) (s : str) : Prop :=
  (exists l, In (AYaserde l) (va_attrs v) /\ In ("rename", Some s) l) \/
  (forall l r, In (AYaserde l) (va_attrs v) -> ~ In ("rename", r) l) /\ s = va_name v.
(** YaDeserialize on the text of an element: library types and tuples use FromStr
    (xsd-macro-utils/src/lib.rs, UtilsDefaultSerde); a union takes the first variant that can
    read the text (union.rs); an enumeration the first variant of that text. *)
Inductive reads : list str -> list token -> str -> rval -> Prop :=
| reads_library path t s a : In t library_types -> lib_read t s = Some a -> reads path (rust u t) s (RLib t a)
| reads_alias path t p d m t' s v : names u P path t p (IType d m t') -> reads p t' s v -> reads path t s v
| reads_tuple path t p d a m c s v : names u P path t p (ITuple d a m c) -> derives a "UtilsDefaultSerde" -> from_str path t s (Some v) -> reads path t s v
| reads_union path t p d a m vs pre w post s c v : names u P path t p (IEnum d a m vs) -> derives a "UtilsUnionSerDe" -> vs = pre ++ w :: post ->
    (forall w', In w' pre -> va_name w' = lit "__Unknown__" \/ exists c', va_type w' = Some c' /\ from_str p c' s None) ->
    va_name w <> lit "__Unknown__" -> va_type w = Some c -> from_str p c s (Some v) -> reads path t s (RCase v)
| reads_unit path t p d a m vs pre w post s : names u P path t p (IEnum d a m vs) -> derives a "YaDeserialize" -> ~ derives a "UtilsUnionSerDe" -> vs = pre ++ w :: post ->
    (forall w', In w' pre -> ~ variant_text w' s) -> va_type w = None -> variant_text w s -> reads path t s (RUnit s).

(** Display. *)
Fixpoint shown (v : rval) : str :=
  match v with
  | RLib t a => lib_show t a
  | RNew v => shown v
  | RVec l => separated [32] (map shown l)
  | RUnit s => s
  | RCase v => shown v
  end.

(** Validate: the checks of a tuple (C51); library types have none. *)
Definition value_read (v : rval) (s : str) : option rval := match v with RLib t _ => option_map (RLib t) (lib_read t s) | _ => None end.
Definition value_cmp (v w : rval) : option comparison := match v, w with RLib _ a, RLib _ b => lib_cmp a b | _, _ => None end.
Definition value_len (v : rval) : N := match v with RLib _ a => lib_len a | RVec l => N.of_nat (List.length l) | _ => 0 end.
Inductive accepts : list str -> list token -> rval -> Prop :=
| accepts_library path t v : In t library_types -> accepts path (rust u t) v
| accepts_alias path t p d m t' v : names u P path t p (IType d m t') -> accepts p t' v -> accepts path t v
| accepts_tuple path t p d a m c ks v : names u P path t p (ITuple d a m c) -> In (p, IValidate m ks) P ->
    (forall k op x ty, In k ks -> ck_cond k = CBound op x ty -> ty = c) ->
    run_checks rval (value_read v) value_cmp value_len ks v = Accepted -> accepts path t (RNew v)
| accepts_enum path t p d a m vs v : names u P path t p (IEnum d a m vs) -> In (p, IValidate m []) P -> accepts path t v.
End Code.

(** ** Types the generated code is right about *)
Section Sound.
Context (u : uni) (lib_read : string -> str -> option A) (lib_show : string -> A -> str) (lib_cmp : A -> A -> option comparison) (lib_len : A -> N).
(** The Rust type of a built-in type: one with the same values. *)
Definition library_type (l : str) (t : string) : Prop :=
  exists sp sp', In (l, sp) xsd_builtins /\ sp <> STexts /\ In t library_types /\ In (lit t, sp') rust_types /\ same_space sp sp'.
(** The library reads every text of the built-in type, and writes every value as a text of that
    value, without adding white space. *)
Definition complete (l : str) : Prop :=
  (exists t, library_type l t) /\
  forall t s a, library_type l t -> lexical l s a ->
    lib_read t s = Some a /\ lexical l (lib_show t a) a /\ (solid s -> solid (lib_show t a)).
(** It reads nothing else. *)
Definition exact (l : str) : Prop := forall t s a, library_type l t -> lib_read t s = Some a -> lexical l s a.

Definition checked (f : facet_type) : Prop :=
  match f with
  | FMaxExclusive _ | FMaxInclusive _ | FMinExclusive _ | FMinInclusive _ | FLength _ | FMaxLength _ | FMinLength _ => True
  | _ => False
  end.
Definition measure (f : facet_type) : Prop := match f with FLength _ | FMaxLength _ | FMinLength _ => True | _ => False end.
(** A restriction that becomes an enum. *)
Definition enumerated (fs : list facet_type) : Prop :=
  enumerations fs <> [] /\ forall v, In v (enumerations fs) -> plain_value u v.
(** Types that get a FromStr; types whose values are no lists. *)
Definition parseable (T : stype) : Prop :=
  match T with TBuiltin _ | TList _ _ => True | TRestriction _ fs => ~ enumerated fs | TUnion _ => False end.
Fixpoint atomic (T : stype) : Prop :=
  match T with TBuiltin _ => True | TRestriction B _ => atomic B | TList _ _ | TUnion _ => False end.
(** Types whose FromStr reads only the texts of the type. *)
Fixpoint strict (T : stype) : Prop :=
  match T with TBuiltin l => exact l | TRestriction B fs => strict B /\ fs = [] | TList _ _ | TUnion _ => False end.
Definition one_text (T : stype) : Prop := forall s s' x, denotes T s x -> denotes T s' x -> s = s'.
(** Enumerations of a type whose values have one text each; restrictions of types with FromStr,
    bounds and lengths only directly on built-in types; lists of single values, no bounds or
    lengths on nameless item types; unions of types with FromStr, all but the last strict. *)
Fixpoint regular_simple (T : stype) : Prop :=
  match T with
  | TBuiltin l => complete l
  | TRestriction B fs =>
      enumerated fs /\ one_text B \/
      ~ enumerated fs /\ regular_simple B /\ parseable B /\ ((exists f, In f fs /\ checked f) -> exists l, B = TBuiltin l)
  | TList named E =>
      regular_simple E /\ parseable E /\ atomic E /\
      (named = false -> exists B fs, E = TRestriction B fs /\ forall f, In f fs -> ~ checked f)
  | TUnion Ts =>
      (fix all (l : list stype) : Prop :=
         match l with [] => True | U :: r => regular_simple U /\ parseable U /\ (r <> [] -> strict U) /\ all r end) Ts
  end.
(** Types whose texts the generated code can tell from others: built-in types and their
    restrictions by facets that become checks; bounds only where values can be compared. *)
Definition comparable (l : str) : Prop := forall s s' a b, lexical l s a -> lexical l s' b -> order a b <> None.
Definition guarded (T : stype) : Prop :=
  match T with
  | TBuiltin l => exact l
  | TRestriction (TBuiltin l) fs => exact l /\ forall f, In f fs -> checked f /\ (measure f \/ comparable l)
  | _ => False
  end.
(** Types with lists in them; types without patterns. *)
Fixpoint listy (T : stype) : Prop :=
  match T with
  | TBuiltin _ => False
  | TRestriction B _ => listy B
  | TList _ _ => True
  | TUnion Ts => (fix some (l : list stype) : Prop := match l with [] => False | U :: r => listy U \/ some r end) Ts
  end.
Fixpoint patternless (T : stype) : Prop :=
  match T with
  | TBuiltin _ => True
  | TRestriction B fs => patternless B /\ forall v, ~ In (FPattern v) fs
  | TList _ E => patternless E
  | TUnion Ts => (fix all (l : list stype) : Prop := match l with [] => True | U :: r => patternless U /\ all r end) Ts
  end.
(** The only white space is that of XML. *)
Definition xml_spaced (s : str) : Prop := forall c, In c s -> is_whitespace c = true -> xml_blank c.
(** Rust's length of a value is that of XML Schema (it is for ASCII text), if it matters. *)
Definition alike_in_length (T : stype) (x : value) : Prop :=
  forall B fs f a, T = TRestriction B fs -> In f fs -> measure f -> x = Atom a -> lib_len a = size a.
(** What a user relies on: every text of the type is read, in one way, and accepted; what is
    written for it is a text of the same value; of guarded types no other text is read and
    accepted. *)
Definition handles (P : list (list str * item)) (path : list str) (t : list token) (T : stype) : Prop :=
  (forall s x, denotes T s x -> (listy T -> xml_spaced s) -> alike_in_length T x ->
     exists v, reads u P lib_read path t s v /\ (forall v', reads u P lib_read path t s v' -> v' = v) /\
       accepts u P lib_read lib_cmp lib_len path t v /\
       (patternless T -> exists y, denotes T (shown lib_show v) y /\ ((forall Ts, T <> TUnion Ts) -> y = x))) /\
  (guarded T -> forall s v, (forall B fs x, T = TRestriction B fs -> denotes B s x -> alike_in_length T x) ->
     reads u P lib_read path t s v -> accepts u P lib_read lib_cmp lib_len path t v -> exists x, denotes T s x).
End Sound.
End Values.
