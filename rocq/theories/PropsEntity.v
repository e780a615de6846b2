(** Property theorems C80: names and comments of entities, and what is read of XML nodes. *)
From Coq Require Import NArith Bool Ascii String List.
From Verif Require Import Str StrFacts Xml Names Entity.
Import ListNotations.
Local Open Scope string_scope.
Local Open Scope list_scope.

(** The documentation an entity has. *)
Definition comment_of (e : entity) : option str :=
  match e with
  | EStruct s => st_comment s | EField f => fl_comment f | ETuple t => tu_comment t | EEnum x => en_comment x
  | ECase c => ec_comment c | EAlias a => al_comment a | EImport i => im_comment i
  end.
Definition kind_of (e : entity) : nat :=
  match e with EStruct _ => 0 | EField _ => 1 | ETuple _ => 2 | EEnum _ => 3 | ECase _ => 4 | EAlias _ => 5 | EImport _ => 6 end.

(** C80: renaming an entity changes its name and nothing else: naming it back gives the entity
    there was before. *)
Theorem C80_names : forall n e,
  entity_name (set_name n e) = n /\ set_name (entity_name e) (set_name n e) = e /\
  comment_of (set_name n e) = comment_of e /\ kind_of (set_name n e) = kind_of e.
Proof. intros n [[]|[]|[]|[]|[]|[]|[]]; repeat split. Qed.
Print Assumptions C80_names.
Theorem C80_comments : forall c e,
  comment_of (set_comment c e) = c /\ set_comment (comment_of e) (set_comment c e) = e /\
  entity_name (set_comment c e) = entity_name e /\ kind_of (set_comment c e) = kind_of e.
Proof. intros n [[]|[]|[]|[]|[]|[]|[]]; repeat split. Qed.
Print Assumptions C80_comments.
(** The name is that of the variant. *)
Theorem C80_variants : 
  (forall s, entity_name (EStruct s) = st_name s) /\ (forall f, entity_name (EField f) = fl_name f) /\
  (forall t, entity_name (ETuple t) = tu_name t) /\ (forall x, entity_name (EEnum x) = en_name x) /\ (forall c, entity_name (ECase c) = ec_name c) /\
  (forall a, entity_name (EAlias a) = al_name a) /\ (forall i, entity_name (EImport i) = im_name i).
Proof. repeat split. Qed.
Print Assumptions C80_variants.
Example C80_ex1 : let f := {| fl_name := lit "a"; fl_type := lit "xs:int"; fl_comment := Some (lit "size"); fl_subtypes := []; fl_source := FromElement; fl_mods := [MOption] |} in
  set_name (lit "b") (set_comment None (EField f)) =
  EField {| fl_name := lit "b"; fl_type := lit "xs:int"; fl_comment := None; fl_subtypes := []; fl_source := FromElement; fl_mods := [MOption] |}.
Proof. reflexivity. Qed.

(** An attribute is the one of the name; only elements have attributes.  (Well-formed documents
    have no two of one name; of two the first would be taken.) *)
Theorem C80_attributes : forall t attrs nss kids name v,
  attribute (Elem t attrs nss kids) name = Some v <-> exists a b, attrs = a ++ (name, v) :: b /\ ~ In name (map fst a).
Proof.
  intros t attrs nss kids name v. cbn [attribute]. induction attrs as [|[k w] l IH]; cbn [assoc].
  - split; [discriminate|]. intros ([|] & b & X & _); discriminate.
  - destruct (str_eqb name k) eqn:E.
    + apply str_eqb_eq in E. subst k. split; [intros [= ->]; exists [], l; auto|]. intros ([|x a] & b & X & N); cbn in X; [congruence|]. injection X as <- _. destruct N. left. auto.
    + rewrite IH. apply str_eqb_neq in E. split.
      * intros (a & b & -> & N). exists ((k, w) :: a), b. split; auto. intros [X|X]; [apply E; auto|auto].
      * intros ([|x a] & b & X & N); cbn in X; [congruence|]. injection X as <- ->. exists a, b. split; auto. intros I. apply N. right. auto.
Qed.
Print Assumptions C80_attributes.
Theorem C80_nodes : forall n,
  (is_element n = true <-> exists t a ns c, n = Elem t a ns c) /\
  (forall t a ns c, n = Elem t a ns c -> tag_name n = t /\ children n = c /\ namespaces n = ns) /\
  (is_element n = false -> tag_name n = [] /\ children n = [] /\ namespaces n = [] /\ forall k, attribute n k = None) /\
  (forall s, text n = Some s <-> n = Text s \/ exists c, children n = Text s :: c).
Proof.
  intros n. split; [|split; [|split]].
  - destruct n; split; try discriminate; eauto; intros (? & ? & ? & ? & X); discriminate.
  - intros t a ns c ->. auto.
  - destruct n; [discriminate| |]; auto.
  - intros s. destruct n as [t a ns [|[| |] c]| |]; cbn; split;
      try discriminate; try (intros [X|(c' & X)]; try discriminate; congruence); try (intros [= ->]; eauto).
Qed.
Print Assumptions C80_nodes.
Example C80_ex2 : let n := Elem (lit "element") [(lit "name", lit "a"); (lit "type", lit "xs:int")] [] [Text (lit "x"); Other; Text (lit "y")] in
  attribute n (lit "type") = Some (lit "xs:int") /\ attribute n (lit "ref") = None /\ text n = Some (lit "x") /\ tag_name (Text (lit "x")) = [].
Proof. vm_compute. auto. Qed.
