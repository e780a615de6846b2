(** Model of xsd-types/src/utils/xml_eq.rs: the comparison of XML texts the library's tests
    rely on. *)
From Coq Require Import NArith ZArith Bool Ascii String List.
From Verif Require Import Str.
Import ListNotations.

(** xml-rs, [xml::reader::XmlEvent]; the fields that matter for equality.  Names are given
    with prefix and name space. *)
Record owned_name := { on_local : str; on_ns : option str; on_prefix : option str }.
Inductive event :=
| StartDocument (encoding : str) (standalone : option bool)
| EndDocument
| ProcessingInstruction (name : str) (data : option str)
| StartElement (name : owned_name) (attributes : list (owned_name * str)) (namespace : list (str * str))
| EndElement (name : owned_name)
| CData (s : str)
| Comment (s : str)
| Characters (s : str)
| Whitespace (s : str).
(** [Result<XmlEvent, Error>]; an error is its position and message *)
Inductive item := Event (e : event) | Failure (position : N * N) (message : str).

(** #[derive(PartialEq)] of these types *)
Definition item_eq_dec (a b : item) : {a = b} + {a <> b}.
Proof. repeat (decide equality). Defined.

(** xml-rs, [Events::next]: the iterator ends after the end of the document or an error.
    [raw] is what successive calls of [EventReader::next] return. *)
Fixpoint iterate (raw : list item) : list item :=
  match raw with
  | [] => []
  | Event EndDocument :: _ => [Event EndDocument]
  | Failure p m :: _ => [Failure p m]
  | x :: raw' => x :: iterate raw'
  end.

(** xml_eq.rs l.9-13 *)
Definition is_whitespace (x : item) : bool := match x with Event (Whitespace _) => true | _ => false end.
Definition without_whitespaces (raw : list item) : list item := filter (fun x => negb (is_whitespace x)) (iterate raw).

(** xml_eq.rs l.3-7; std: [Iterator::zip] stops with the shorter one *)
Fixpoint all_eq (l : list (item * item)) : res unit :=
  match l with
  | [] => Ok tt
  | (a, e) :: l' => if item_eq_dec a e then all_eq l' else Panic
  end.
Definition assert_xml_eq (actual expected : list item) : res unit :=
  all_eq (combine (without_whitespaces actual) (without_whitespaces expected)).
