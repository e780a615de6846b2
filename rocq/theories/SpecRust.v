(** Rust source text, as far as generated code goes: tokens, the lexer, items.
    Independent of the generator model. *)
From Coq Require Import NArith ZArith Bool Ascii String List.
From Verif Require Import Str Entity Names.
Import ListNotations.
Local Open Scope list_scope.
Local Open Scope N_scope.

(** ** Tokens
    A word (identifier, keyword or number), a punctuation character, a string literal (its
    text as written between the quotes), or a word of a comment. *)
Inductive token := TWord (s : str) | TPunct (c : N) | TStr (s : str) | TNote (s : str).

(** ** The lexer
    White space separates; [//] starts a comment up to the end of the line.  Comments are kept
    word by word, so that the place of line breaks in them does not matter.  Block comments,
    raw and multi-line string literals and unterminated literals are refused: [None]. *)
Inductive lstate := LNone | LWord (acc : str) | LSlash | LComment (acc : str) | LStr (acc : str) | LEsc (acc : str).
Section Lex.
Context (u : uni).
Definition word_char (c : N) : bool := is_alphanumeric u c || (c =? 95).
Definition start (c : N) : lstate * list token :=
  if word_char c then (LWord [c], [])
  else if is_whitespace c then (LNone, [])
  else if c =? 47 then (LSlash, [])
  else if c =? 34 then (LStr [], [])
  else (LNone, [TPunct c]).
Definition after (t : token) (r : lstate * list token) : lstate * list token := (fst r, t :: snd r).
Definition note (acc : str) : list token := match acc with [] => [] | _ => [TNote (rev acc)] end.
Definition lex_step (st : lstate) (c : N) : option (lstate * list token) :=
  match st with
  | LNone => Some (start c)
  | LWord acc => if word_char c then Some (LWord (c :: acc), []) else Some (after (TWord (rev acc)) (start c))
  | LSlash => if c =? 47 then Some (LComment [], []) else if c =? 42 then None else Some (after (TPunct 47) (start c))
  | LComment acc => if c =? 10 then Some (LNone, note acc)
                    else if is_whitespace c then Some (LComment [], note acc) else Some (LComment (c :: acc), [])
  | LStr acc => if c =? 34 then Some (LNone, [TStr (rev acc)])
                else if c =? 92 then Some (LEsc acc, [])
                else if c =? 10 then None else Some (LStr (c :: acc), [])
  | LEsc acc => if c =? 10 then None else Some (LStr (c :: 92 :: acc), [])
  end.
Fixpoint run (st : lstate) (s : str) : option (lstate * list token) :=
  match s with
  | [] => Some (st, [])
  | c :: s' =>
    match lex_step st c with
    | Some (st', t) => match run st' s' with Some (st'', t') => Some (st'', t ++ t') | None => None end
    | None => None
    end
  end.
Definition flush (st : lstate) : option (list token) :=
  match st with
  | LNone => Some []
  | LComment acc => Some (note acc)
  | LWord acc => Some [TWord (rev acc)]
  | LSlash => Some [TPunct 47]
  | LStr _ | LEsc _ => None
  end.
Definition lex (s : str) : option (list token) :=
  match run LNone s with
  | Some (st, t) => match flush st with Some t' => Some (t ++ t') | None => None end
  | None => None
  end.
(** The tokens of a text; of a fixed fragment. *)
Definition lexemes (s : str) : list token := match lex s with Some t => t | None => [] end.
Definition rust (s : string) : list token := lexemes (lit s).

(** ** Items and how they are written
    Structs, enums, type aliases and their members carry documentation: the words of the
    comment before them. *)
Inductive attr :=
| ADerive (traits : list string)
| AYaserde (args : list (string * option str)).
Record rfield := { rf_doc : list str; rf_attrs : list attr; rf_name : str; rf_type : list token }.
Record variant := { va_doc : list str; va_attrs : list attr; va_name : str; va_type : option (list token) }.

(** The checks of a validate body: leave with an error if the condition holds. *)
Inductive cond :=
| CBound (op : string) (value : str) (ty : list token)   (* self.0 op "value".parse::<ty>().unwrap() *)
| CLen (op : string) (n : N).                            (* self.0.len() op n *)
Record check := { ck_cond : cond; ck_message : str }.

Inductive item :=
| IStruct (doc : list str) (attrs : list attr) (name : list token) (fields : list rfield)
| ITuple (doc : list str) (attrs : list attr) (name : list token) (ty : list token)
| IEnum (doc : list str) (attrs : list attr) (name : list token) (variants : list variant)
| IDefault (name : list token)
| IValidate (name : list token) (checks : list check)
| IMod (name : str) (items : list item)
| IType (doc : list str) (name : list token) (ty : list token)
| INote (words : list str).   (* just a comment *)

Fixpoint separated {A} (sep : list A) (l : list (list A)) : list A :=
  match l with
  | [] => []
  | [x] => x
  | x :: l' => x ++ sep ++ separated sep l'
  end.
(** A name; nothing for the empty name. *)
Definition word (s : str) : list token := match s with [] => [] | _ => [TWord s] end.
Definition attr_tokens (a : attr) : list token :=
  match a with
  | ADerive ts => rust "#[derive(" ++ separated (rust ",") (map rust ts) ++ rust ")]"
  | AYaserde args =>
      rust "#[yaserde(" ++
      separated (rust ",") (map (fun '(k, v) => rust k ++ match v with Some s => rust "=" ++ [TStr s] | None => [] end) args) ++
      rust ")]"
  end.
Definition attrs_tokens (l : list attr) : list token := concat (map attr_tokens l).
Definition notes (ws : list str) : list token := map TNote ws.
Definition field_tokens (f : rfield) : list token :=
  notes (rf_doc f) ++ attrs_tokens (rf_attrs f) ++ rust "pub" ++ word (rf_name f) ++ rust ":" ++ rf_type f ++ rust ",".
Definition variant_tokens (v : variant) : list token :=
  notes (va_doc v) ++ attrs_tokens (va_attrs v) ++ word (va_name v) ++
  match va_type v with Some t => rust "(" ++ t ++ rust ")" | None => [] end ++ rust ",".
Definition check_tokens (k : check) : list token :=
  match ck_cond k with
  | CBound op v ty =>
      rust "if self.0" ++ rust op ++ [TStr v] ++ rust ".parse::<" ++ ty ++ rust ">().unwrap() { return Err(format!(" ++
      [TStr (ck_message k)] ++ rust ", self.0)); }"
  | CLen op n =>
      rust "if self.0.len()" ++ rust op ++ [TWord (dec n)] ++ rust "{ return Err(format!(" ++
      [TStr (ck_message k)] ++ rust ", self.0.len())); }"
  end.
(** A lower bound on the length carries a lint attribute. *)
Definition checked_tokens (k : check) : list token :=
  match ck_cond k with
  | CLen "<" _ => rust "#[allow(clippy::len_zero)]" ++ check_tokens k
  | _ => check_tokens k
  end.
Fixpoint item_tokens (i : item) : list token :=
  match i with
  | IStruct d a n fs =>
      notes d ++ attrs_tokens a ++ rust "pub struct" ++ n ++ rust "{" ++ concat (map field_tokens fs) ++ rust "}"
  | ITuple d a n ty => notes d ++ attrs_tokens a ++ rust "pub struct" ++ n ++ rust "(pub" ++ ty ++ rust ");"
  | IEnum d a n vs =>
      notes d ++ attrs_tokens a ++ rust "pub enum" ++ n ++ rust "{" ++ concat (map variant_tokens vs) ++ rust "}"
  | IDefault n =>
      rust "impl Default for" ++ n ++ rust "{ fn default() ->" ++ n ++
      rust "{ Self::__Unknown__(" ++ [TStr (lit "No valid variants")] ++ rust ".into()) } }"
  | IValidate n [] => rust "impl Validate for" ++ n ++ rust "{}"
  | IValidate n ks =>
      rust "impl Validate for" ++ n ++ rust "{ fn validate(&self) -> Result<(), String> {" ++
      concat (map checked_tokens ks) ++ rust "Ok(()) } }"
  | IMod n is => rust "pub mod" ++ word n ++ rust "{ use super::*;" ++ concat (map item_tokens is) ++ rust "}"
  | IType d n ty => notes d ++ rust "pub type" ++ n ++ rust "=" ++ ty ++ rust ";"
  | INote ws => notes ws
  end.
End Lex.

(** Text that can stand between quotes, and text that can stand in code. *)
Definition literal (s : str) : Prop := forall c, In c s -> c <> 34 /\ c <> 92 /\ c <> 10.
Definition plain (s : str) : Prop := forall c, In c s -> c <> 34 /\ c <> 47 /\ c <> 10.
