(** Specification notions for names, comments and types in generated Rust code. *)
From Coq Require Import NArith ZArith Bool Ascii String List.
From Verif Require Import Str SpecSerde.
Import ListNotations.
Local Open Scope N_scope.

(** ** Characters *)
Definition lower (c : N) : Prop := 97 <= c <= 122.
Definition upper (c : N) : Prop := 65 <= c <= 90.
Definition digit (c : N) : Prop := 48 <= c <= 57.
Definition letter (c : N) : Prop := lower c \/ upper c.
Definition alnum (c : N) : Prop := letter c \/ digit c.
Definition ascii_text (s : str) : Prop := forall c, In c s -> c < 128.

(** The ASCII letters and digits of a text, in order, in lower case. *)
Definition alnumb (c : N) : bool :=
  ((97 <=? c) && (c <=? 122)) || ((65 <=? c) && (c <=? 90)) || ((48 <=? c) && (c <=? 57)).
Definition low (c : N) : N := if (65 <=? c) && (c <=? 90) then c + 32 else c.
Definition letters (s : str) : str := map low (filter alnumb s).

(** ** Rust identifiers (ASCII) *)
(** Keywords and reserved words of Rust 2015-2021. *)
Definition rust_reserved : list str := map lit
  ["as"; "break"; "const"; "continue"; "crate"; "else"; "enum"; "extern"; "false"; "fn";
   "for"; "if"; "impl"; "in"; "let"; "loop"; "match"; "mod"; "move"; "mut"; "pub"; "ref";
   "return"; "self"; "Self"; "static"; "struct"; "super"; "trait"; "true"; "type"; "unsafe";
   "use"; "where"; "while"; "async"; "await"; "dyn"; "abstract"; "become"; "box"; "do";
   "final"; "macro"; "override"; "priv"; "typeof"; "unsized"; "virtual"; "yield"; "try"]%string.
Definition ident_shape (s : str) : Prop :=
  exists c t, s = c :: t /\ (letter c \/ c = 95) /\ (forall x, In x t -> alnum x \/ x = 95) /\
    s <> [95].
Definition rust_ident (s : str) : Prop := ident_shape s /\ ~ In s rust_reserved.

(** Lower-case words joined by single underscores, a leading underscore allowed. *)
Definition snake_shape (s : str) : Prop :=
  (forall c, In c s -> lower c \/ digit c \/ c = 95) /\
  (forall a b, s <> a ++ [95; 95] ++ b) /\ (forall a, s <> a ++ [95]).

(** [local name l]: [l] is the part after the last ':'. *)
Definition local (name l : str) : Prop :=
  ~ In 58 l /\ (name = l \/ exists p, name = p ++ [58] ++ l).
(** [qualified name p l]: [p] is the part before the first ':'. *)
Definition qualified (name : str) (p : option str) (l : str) : Prop :=
  match p with
  | None => name = l /\ ~ In 58 name
  | Some p => name = p ++ [58] ++ l /\ ~ In 58 p
  end.

(** ** Snake case of an ASCII text, position by position *)
(** An underscore belongs before the letter or digit number [i] if a letter or digit comes
    earlier and it either follows another character, or is no lower-case letter and has a
    lower-case neighbour. *)
Definition lowerb (c : N) : bool := (97 <=? c) && (c <=? 122).
Definition sep_before (l : str) (i : nat) : bool :=
  existsb alnumb (firstn i l) &&
  (negb (alnumb (nth (i - 1) l 0)) ||
   (negb (lowerb (nth i l 0)) && (lowerb (nth (i + 1) l 0) || lowerb (nth (i - 1) l 0)))).
Definition snake_at (l : str) (i : nat) : str :=
  let c := nth i l 0 in
  if alnumb c then (if sep_before l i then [95] else []) ++ [low c] else [].
Definition snake_spec (l : str) : str := concat (map (snake_at l) (seq 0 (List.length l))).

(** ** Comments *)
(** One output line: indentation, [//], the words each after a blank. *)
Definition comment_line (indent : nat) (ws : list str) : str :=
  repeat 32 indent ++ lit "//" ++ concat (map (fun w => 32 :: w) ws).
Definition comment_text (indent : nat) (ls : list (list str)) : str :=
  concat (map (fun ws => comment_line indent ws ++ [10]) ls).

(** The pieces of a text between line feeds. *)
Inductive pieces : str -> list str -> Prop :=
| pieces_last s : ~ In 10 s -> pieces s [s]
| pieces_more s rest ps : ~ In 10 s -> pieces rest ps -> pieces (s ++ [10] ++ rest) (s :: ps).

(** A documentation line is dropped if it has no word or just one one-byte word. *)
Definition dropped (ws : list str) : Prop := ws = [] \/ exists c, c < 128 /\ ws = [[c]].
(** The words of the lines that are kept, one list per kept line. *)
Inductive kept_words : list str -> list (list str) -> Prop :=
| kept_nil : kept_words [] []
| kept_skip p ps ws r : tokens p ws -> dropped ws -> kept_words ps r -> kept_words (p :: ps) r
| kept_cons p ps ws r : tokens p ws -> ~ dropped ws -> kept_words ps r ->
    kept_words (p :: ps) (ws :: r).

(** The same as a function: the words of the documentation that are kept. *)
Definition kept_line (ws : list str) : list str :=
  match ws with
  | [[c]] => if c <? 128 then [] else ws
  | _ => ws
  end.
Definition doc_words (doc : option str) : list str :=
  match doc with
  | Some d => concat (map (fun l => kept_line (split_whitespace l)) (split_on 10 d))
  | None => []
  end.

(** Greedy filling of one documentation line: output lines are full or hold one word, and a
    word moves to a new line only if it does not fit. *)
Definition fits (max_len indent : nat) (ws : list str) : Prop :=
  (byte_len (comment_line indent ws) <= max_len)%nat \/ (List.length ws <= 1)%nat.
Inductive filled (max_len indent : nat) : list (list str) -> Prop :=
| filled_one ws : fits max_len indent ws -> filled max_len indent [ws]
| filled_more ws w ws' ls : fits max_len indent ws ->
    (max_len <= byte_len (comment_line indent ws) + byte_len w)%nat ->
    filled max_len indent ((w :: ws') :: ls) -> filled max_len indent (ws :: (w :: ws') :: ls).

(** ** Names on which the conversions are one to one *)
(** Upper-case letter, lower-case letter, letters. *)
Definition canonical_pascal (s : str) : Prop :=
  exists a b t, s = a :: b :: t /\ upper a /\ lower b /\ forall c, In c t -> letter c.
(** Lower-case words joined by single underscores. *)
Definition snake_word (s : str) : Prop :=
  (forall c, In c s -> lower c \/ c = 95) /\ (forall a b, s <> a ++ [95; 95] ++ b) /\
  (forall a, s <> a ++ [95]) /\ (forall b, s <> 95 :: b) /\ s <> [].
