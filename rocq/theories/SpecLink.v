(** Specification of base type and attribute group resolution, on the entities of a file. *)
From Coq Require Import NArith ZArith Bool Ascii String List.
From Verif Require Import Str SpecLex SpecNames Xml Names Entity SpecSchema.
Import ListNotations.
Local Open Scope string_scope.
Local Open Scope list_scope.

(** The struct at a position; all top-level entities, attribute groups last. *)
Definition struct_at (l : list entity) (i : nat) (s : strukt entity) : Prop := nth_error l i = Some (EStruct s).
Definition top_level (f : rs_file) : list entity := rf_types f ++ rf_groups f.

(** A qualified name refers to the last top-level struct with its local name; or to none. *)
Definition refers (l : list entity) (q : str) (j : nat) : Prop :=
  exists k s, local q k /\ struct_at l j s /\ st_name s = k /\
    forall j' s', struct_at l j' s' -> st_name s' = k -> (j' <= j)%nat.
Definition dangling (l : list entity) (q : str) : Prop :=
  forall k j s, local q k -> struct_at l j s -> st_name s <> k.

(** The placeholder of a base type. *)
Definition placeholder (f : field entity) : Prop := fl_name f = lit "__base__".
Definition placeholders (fs : list (field entity)) : list (field entity) :=
  filter (fun f => str_eqb (fl_name f) (lit "__base__")) fs.
Definition proper (fs : list (field entity)) : list (field entity) :=
  filter (fun f => negb (str_eqb (fl_name f) (lit "__base__"))) fs.
(** The fields of [gs] whose name is not declared in [fs]. *)
Definition not_redeclared (fs gs : list (field entity)) : list (field entity) :=
  filter (fun g => negb (existsb (fun f => str_eqb (fl_name f) (fl_name g)) fs)) gs.

(** A field up to its nested types. *)
Definition same_field (R : entity -> entity -> Prop) (f g : field entity) : Prop :=
  fl_name g = fl_name f /\ fl_type g = fl_type f /\ fl_comment g = fl_comment f /\
  fl_source g = fl_source f /\ fl_mods g = fl_mods f /\ Forall2 R (fl_subtypes f) (fl_subtypes g).
(** A struct up to its fields. *)
Definition same_struct (s t : strukt entity) : Prop :=
  st_name t = st_name s /\ st_comment t = st_comment s /\ st_groups t = st_groups s /\
  st_subtypes t = st_subtypes s.

(** [assembled src own out]: the own fields without placeholders, then the fields each base
    contributes, except redeclared ones. *)
Definition assembled (src : str -> list (field entity) -> Prop) (own out : list (field entity)) : Prop :=
  exists cs, Forall2 (fun b c => src (fl_type b) c) (placeholders own) cs /\
    out = proper own ++ not_redeclared own (List.concat cs).

(** A nested type is completed by completing the types nested in its fields and then
    assembling its fields; what is not a struct stays. *)
Inductive completed (src : str -> list (field entity) -> Prop) : entity -> entity -> Prop :=
| completed_struct s t own :
    same_struct s t -> Forall2 (same_field (completed src)) (st_fields s) own ->
    assembled src own (st_fields t) -> completed src (EStruct s) (EStruct t)
| completed_other e : (forall s, e <> EStruct s) -> completed src e e.

(** What a name stands for while the type at position [i] is resolved: earlier types are
    complete, later ones are as written, the type itself contributes nothing new. *)
Definition snapshot (l0 l1 : list entity) (i : nat) (q : str) (c : list (field entity)) : Prop :=
  (dangling l0 q /\ c = []) \/
  exists j, refers l0 q j /\
    ((j < i)%nat /\ (exists s, struct_at l1 j s /\ c = st_fields s) \/
     (i < j)%nat /\ (exists s, struct_at l0 j s /\ c = st_fields s)).
Definition snapshot_or_self (l0 l1 : list entity) (i : nat) (self : list (field entity)) (q : str) (c : list (field entity)) : Prop :=
  snapshot l0 l1 i q c \/ refers l0 q i /\ c = self.

(** The resolved struct [t] of the struct [s] at position [i]. *)
Definition resolved (l0 l1 : list entity) (i : nat) (s t : strukt entity) : Prop :=
  exists own out gs,
    same_struct s t /\
    Forall2 (same_field (completed (snapshot l0 l1 i))) (st_fields s) own /\
    assembled (snapshot_or_self l0 l1 i []) own out /\
    Forall2 (fun a g => snapshot_or_self l0 l1 i out (al_original a) g) (st_groups s) gs /\
    st_fields t = out ++ List.concat gs.

(** The structs nested in a field through anonymous types. *)
Inductive nested_in : field entity -> strukt entity -> Prop :=
| nested_here f d : In (EStruct d) (fl_subtypes f) -> nested_in f d
| nested_deep f d g d' : In (EStruct d) (fl_subtypes f) -> In g (st_fields d) -> nested_in g d' -> nested_in f d'.
(** The struct itself or one nested in its fields. *)
Definition within (s d : strukt entity) : Prop := d = s \/ exists f, In f (st_fields s) /\ nested_in f d.

(** All bases of the types are declared before (or unknown); group references name groups
    (or nothing). *)
Definition bases_first (f : rs_file) : Prop :=
  forall i s d b j, struct_at (rf_types f) i s -> within s d -> In b (st_fields d) -> placeholder b ->
    refers (top_level f) (fl_type b) j -> (j < i)%nat.
Definition groups_found (f : rs_file) : Prop :=
  forall i s a j, struct_at (rf_types f) i s -> In a (st_groups s) -> refers (top_level f) (al_original a) j ->
    (List.length (rf_types f) <= j)%nat.

(** One derivation step, and ancestors, among the top-level types. *)
Definition derives (f : rs_file) (i j : nat) : Prop :=
  exists s b, struct_at (rf_types f) i s /\ In b (st_fields s) /\ placeholder b /\ refers (top_level f) (fl_type b) j.
Inductive ancestor (f : rs_file) : nat -> nat -> Prop :=
| ancestor_step i j : derives f i j -> ancestor f i j
| ancestor_trans i j k : derives f i j -> ancestor f j k -> ancestor f i k.
(** A field a type writes itself, directly or through an attribute group. *)
Definition writes (f : rs_file) (i : nat) (g : field entity) : Prop :=
  ~ placeholder g /\ exists s, struct_at (rf_types f) i s /\ (In g (st_fields s) \/
     exists a j t, In a (st_groups s) /\ refers (top_level f) (al_original a) j /\ struct_at (top_level f) j t /\ In g (st_fields t)).
(** A copy, up to the completion of nested types. *)
Definition copy (g g' : field entity) : Prop :=
  fl_name g' = fl_name g /\ fl_type g' = fl_type g /\ fl_comment g' = fl_comment g /\ fl_source g' = fl_source g /\ fl_mods g' = fl_mods g.

(** What a name stands for in the finished file. *)
Definition finished (l0 l1 : list entity) (q : str) (c : list (field entity)) : Prop :=
  dangling l0 q /\ c = [] \/ exists j t, refers l0 q j /\ struct_at l1 j t /\ c = st_fields t.

(** No attribute group contributes a placeholder or a nested type. *)
Definition plain_groups (f : rs_file) : Prop :=
  forall s g, In (EStruct s) (rf_groups f) -> In g (st_fields s) -> ~ placeholder g /\ fl_subtypes g = [].

(** No struct, at any depth, lists types beside its fields; aliases list none. *)
Inductive flat : entity -> Prop :=
| flat_struct s : st_subtypes s = [] -> Forall (fun f => Forall flat (fl_subtypes f)) (st_fields s) ->
    Forall (fun a => al_subtypes a = []) (st_groups s) -> flat (EStruct s)
| flat_field f : Forall flat (fl_subtypes f) -> flat (EField f)
| flat_tuple t : Forall flat (tu_subtypes t) -> flat (ETuple t)
| flat_enum e : Forall flat (en_subtypes e) -> flat (EEnum e)
| flat_case c : flat (ECase c)
| flat_alias a : al_subtypes a = [] -> flat (EAlias a)
| flat_import i : flat (EImport i).
