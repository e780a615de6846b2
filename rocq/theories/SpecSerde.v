(** Specification notions for the text serialisers. *)
From Coq Require Import List NArith Bool.
From Verif Require Import Str.
Import ListNotations.

(** [tokens s ts]: [s] is [ts] separated (and optionally surrounded) by white space. *)
Definition blanks (w : str) : Prop := forall c, In c w -> is_whitespace c = true.
Definition solid (t : str) : Prop := t <> [] /\ forall c, In c t -> is_whitespace c = false.
Inductive tokens : str -> list str -> Prop :=
| tok_none w : blanks w -> tokens w []
| tok_last w t w' : blanks w -> solid t -> blanks w' -> tokens (w ++ t ++ w') [t]
| tok_more w t b rest ts : blanks w -> solid t -> is_whitespace b = true -> ts <> [] ->
    tokens rest ts -> tokens (w ++ t ++ [b] ++ rest) (t :: ts).

(** The results of an item parser that are not errors, in order. *)
Inductive parses {A} (f : str -> res A) : list str -> list A -> Prop :=
| parses_nil : parses f [] []
| parses_ok t ts a l : f t = Ok a -> parses f ts l -> parses f (t :: ts) (a :: l)
| parses_err t ts l : f t = Err -> parses f ts l -> parses f (t :: ts) l.

(** No blank (space, tab, line feed, carriage return) at either end. *)
Definition xml_blank (c : N) : Prop := In c [32; 9; 10; 13]%N.
Definition untrimmed (s : str) : Prop :=
  (forall c t, s = c :: t -> ~ xml_blank c) /\ (forall c t, s = t ++ [c] -> ~ xml_blank c).
