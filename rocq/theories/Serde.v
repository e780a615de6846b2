(** Model of the derived text (de)serialisers: xsd-types/src/utils/yaserde.rs,
    xsd-macro-utils/src/{lib,tuple,union}.rs.

    Events instead of bytes: the writer side appends xml-rs writer events, [channel] gives
    the reader events that xml-rs produces for them with the configuration yaserde's
    Deserializer uses (trim_whitespace, whitespace_to_characters).  Errors of the
    underlying io writer are not modelled; texts are assumed free of carriage returns and
    of characters XML cannot carry (xml-rs would normalise or reject them). *)
From Coq Require Import List NArith Bool Ascii String.
From Verif Require Import Str.
Import ListNotations.
Local Open Scope N_scope.

(** xml-rs writer events used by the code. *)
Inductive wevent := WStart (name : str) | WChars (text : str) | WEnd.
(** xml-rs reader events as far as the code distinguishes them; [RError] is the Err result
    of [peek]. *)
Inductive revent := RStart (name : str) | RChars (text : str) | REnd | ROther | RError.

(** xml-rs white space (XML 1.0 S): space, tab, line feed, carriage return. *)
Definition xml_space (c : N) : bool := (c =? 32) || (c =? 9) || (c =? 10) || (c =? 13).
Fixpoint xml_trim_start (s : str) : str :=
  match s with [] => [] | c :: s' => if xml_space c then xml_trim_start s' else s end.
Definition xml_trim (s : str) : str := rev (xml_trim_start (rev (xml_trim_start s))).

(** What the reader delivers for written events: text is trimmed, and an all-blank text
    gives no event.  (Adjacent texts would be merged; the code never writes two in a row.) *)
Definition channel1 (e : wevent) : list revent :=
  match e with
  | WStart n => [RStart n]
  | WChars t => match xml_trim t with [] => [] | t' => [RChars t'] end
  | WEnd => [REnd]
  end.
Definition channel (es : list wevent) : list revent := flat_map channel1 es.

(** yaserde.rs l.5-30.  [start_name]: writer.get_start_event_name(); [skip]:
    writer.skip_start_end(). *)
Definition serialize {S} (ser_fn : S -> str) (default_name : str) (start_name : option str)
    (skip : bool) (self : S) : list wevent :=
  let name := match start_name with Some n => n | None => default_name end in
  ((if skip then [] else [WStart name]) ++ [WChars (ser_fn self)]
   ++ (if skip then [] else [WEnd]))%list.

(** yaserde.rs l.32-47; also returns the events left in the reader ([peek] does not
    consume). *)
Definition deserialize {S} (de_fn : str -> res S) (es : list revent) : res S * list revent :=
  match es with
  | RStart _ :: rest =>
    match rest with
    | RChars text :: _ => (de_fn text, rest)
    | _ => (de_fn [], rest)
    end
  | _ => (Err, es)
  end.

(** lib.rs l.16-63 (UtilsDefaultSerde): the pair for a type with Display and FromStr. *)
Definition default_serialize {S} (display : S -> str) (struct_name : str) :=
  serialize display struct_name.
Definition default_deserialize {S} (from_str : str -> res S) := deserialize from_str.

(** tuple.rs l.24 (String field) *)
Definition tuple_string_from_str (s : str) : res str := Ok s.
(** tuple.rs l.25-27 (simple or struct field) *)
Definition tuple_simple_from_str {A} (from_str : str -> res A) (s : str) : res A :=
  bind (from_str s) (fun a => Ok a).

(** tuple.rs l.28-33 (Vec field): filter_map over split_whitespace.  A panic of the item
    parser unwinds through [collect]. *)
Fixpoint filter_map_ok {A} (f : str -> res A) (ts : list str) : res (list A) :=
  match ts with
  | [] => Ok []
  | t :: ts' =>
    match f t with
    | Panic => Panic
    | Ok a => bind (filter_map_ok f ts') (fun l => Ok (a :: l))
    | Err => filter_map_ok f ts'
    end
  end.
Definition tuple_vec_from_str {A} (from_str : str -> res A) (s : str) : res (list A) :=
  filter_map_ok from_str (split_whitespace s).

(** tuple.rs l.57-67 *)
Definition tuple_vec_display {A} (display : A -> str) (l : list A) : str :=
  match l with
  | [] => []
  | v :: rest => (display v ++ flat_map (fun x => lit " " ++ display x) rest)%list
  end.

(** union.rs: the variants without [__Unknown__] in declaration order, each with the parser
    and the display of its payload type.  The payload types are embedded in one type [V]. *)
Record member (V : Type) := { m_parse : str -> res V; m_display : V -> str }.
Arguments m_parse {V} _ _.
Arguments m_display {V} _ _.

(** A union value: variant number and payload, or the unknown text. *)
Inductive uvalue (V : Type) := Known (i : nat) (v : V) | Unknown (s : str).
Arguments Known {V} i v.
Arguments Unknown {V} s.

(** union.rs l.69-74 *)
Definition union_text {V} (ms : list (member V)) (u : uvalue V) : str :=
  match u with
  | Known i v => match nth_error ms i with Some m => m_display m v | None => [] end
  | Unknown _ => []
  end.

(** union.rs l.52-61, 96-99: [i] is the number of variants already tried. *)
Fixpoint union_parse {V} (i : nat) (ms : list (member V)) (s : str) : res (uvalue V) :=
  match ms with
  | [] => Ok (Unknown s)
  | m :: ms' =>
    match m_parse m s with
    | Ok v => Ok (Known i v)
    | Err => union_parse (S i) ms' s
    | Panic => Panic
    end
  end.

Definition union_serialize {V} (ms : list (member V)) (struct_name : str) :=
  serialize (union_text ms) struct_name.
Definition union_deserialize {V} (ms : list (member V)) := deserialize (union_parse 0 ms).
