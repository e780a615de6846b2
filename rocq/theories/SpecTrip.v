(** From a text to values and back: instances with their values. *)
From Coq Require Import NArith Bool String List.
From Verif Require Import Str SpecLex SpecNames SpecBuiltin Xml Names Entity SpecSchema SpecRust SpecGen SpecCheck SpecScope SpecTraits SpecSize SpecFit SpecWrite SpecValue.
Import ListNotations.
Local Open Scope string_scope.
Local Open Scope list_scope.
Local Open Scope N_scope.

Section Trip.
Context (A : Type) (lexical : str -> str -> A -> Prop) (order : A -> A -> option comparison) (size : A -> N).
Context (pattern : str -> str -> Prop) (digits : facet_type -> A -> Prop).
Notation denotes := (denotes A lexical order size pattern digits).

(** ** After XML Schema *)
Section Schema.
Context (schema : node) (own xsd : option str).
Definition simple_is (s : sref) (T : stype) : Prop :=
  match s with Named q => refers schema own xsd q T | Within t => described schema own xsd t T end.
(** A text of the type; two texts of the type, of one value (of a union: two texts). *)
Definition allowed (s : sref) (x : str) : Prop := exists T v, simple_is s T /\ denotes T x v.
Definition same_value (s : sref) (x y : str) : Prop :=
  exists T v w, simple_is s T /\ denotes T x v /\ denotes T y w /\ ((forall Ts, T <> TUnion Ts) -> v = w).
(** No attribute of a type, inherited ones included, gets its type from a global attribute. *)
Definition own_attributes (t : node) : Prop :=
  forall s gs r, composed schema own xsd (fun _ => True) t s gs r -> Forall (fun a => present a "type" \/ absent a "ref") r.
End Schema.

(** ** Texts the generated code is right about (C70) *)
Section Code.
Context (u : uni) (lib_read : string -> str -> option A) (lib_show : string -> A -> str) (lib_cmp : A -> A -> option comparison) (lib_len : A -> N).
Definition handled (schema : node) (own xsd : option str) (s : sref) (x : str) : Prop :=
  exists T v, simple_is schema own xsd s T /\ regular_simple A lexical order size pattern digits u lib_read lib_show T /\ patternless T /\
    denotes T x v /\ (listy T -> xml_spaced x) /\ alike_in_length A size lib_len T v.
Context (P : list (list str * item)).
(** A text is read as exactly one value, and the value passes the checks of its type. *)
Definition understood (path : list str) (t : list token) (x : str) : Prop :=
  exists v, reads A u P lib_read path t x v /\ (forall v', reads A u P lib_read path t x v' -> v' = v) /\ accepts A u P lib_read lib_cmp lib_len path t v.
(** The text written for what was read. *)
Definition shown_again (path : list str) (t : list token) (x y : str) : Prop :=
  exists v, reads A u P lib_read path t x v /\ y = shown A lib_show v.
End Code.
End Trip.
