(** XML documents as the code sees them through roxmltree: local tag names, un-namespaced
    attributes, the namespaces in scope, children.  Text is what roxmltree delivers (entity
    references resolved); comments and processing instructions are [Other]. *)
From Coq Require Import List NArith Bool.
From Verif Require Import Str.
Import ListNotations.

(** roxmltree::Namespace: prefix ([None] for the default namespace) and URI. *)
Record namespace := { ns_name : option str; ns_uri : str }.

Inductive node :=
| Elem (tag : str) (attrs : list (str * str)) (nss : list namespace) (children : list node)
| Text (s : str)
| Other.

(** Node::tag_name().name(): empty for non-elements *)
Definition tag_name (n : node) : str := match n with Elem t _ _ _ => t | _ => [] end.
Definition is_element (n : node) : bool := match n with Elem _ _ _ _ => true | _ => false end.
Definition children (n : node) : list node := match n with Elem _ _ _ c => c | _ => [] end.
Definition namespaces (n : node) : list namespace := match n with Elem _ _ ns _ => ns | _ => [] end.

Fixpoint assoc {A} (k : str) (l : list (str * A)) : option A :=
  match l with
  | [] => None
  | (k', v) :: l' => if str_eqb k k' then Some v else assoc k l'
  end.

(** Node::attribute(name) for an un-namespaced name *)
Definition attribute (n : node) (name : str) : option str :=
  match n with Elem _ a _ _ => assoc name a | _ => None end.

(** Node::text(): a text node's own text, otherwise the text of the first child if that is
    a text node. *)
Definition text (n : node) : option str :=
  match n with
  | Text s => Some s
  | Elem _ _ _ (Text s :: _) => Some s
  | _ => None
  end.
