(** Model of xsd-parser/src/parser/mod.rs ([parse]) and of the base type and attribute group
    resolution in types.rs (l.26-98).

    The file is one list of entities, the types followed by the attribute groups.  A [&Struct]
    in the map is the position of a top-level struct in this list; its [fields] RefCell is that
    entry.  The only cells the map reaches are those of top-level structs: the parser leaves
    [Struct::subtypes] empty (theorem C42_no_struct_subtypes), so [get_types_map] has one entry
    and the loops over [self.subtypes] do nothing.  While the fields of the struct at position
    [i] are mutably borrowed ([iter_mut], l.39), [borrowed] is [Some i] and a lookup of this
    position panics (BorrowError).  Cells of nested structs are reachable only from their owner. *)
From Coq Require Import NArith Bool Ascii String List.
From Verif Require Import Str Xml Names Entity Parser.
Import ListNotations.
Local Open Scope list_scope.

(** [type_name.split(':').last().unwrap()] (types.rs l.47, 72) *)
Definition key_of (s : str) : str := last_segment 58 s.

(** The map (mod.rs l.49-58, types.rs l.27-36): [insert] replaces, so the latest entry comes
    first here. *)
Fixpoint types_map_from (i : nat) (l : list entity) (m : list (str * nat)) : list (str * nat) :=
  match l with
  | [] => m
  | e :: l' =>
    types_map_from (S i) l' (match e with EStruct s => (st_name s, i) :: m | _ => m end)
  end.
Definition types_map (l : list entity) : list (str * nat) := types_map_from 0 l [].

(** [types.get(&key).map(|s| s.fields.borrow().clone()).unwrap_or_default()] (types.rs l.48, 73) *)
Definition get_fields (m : list (str * nat)) (borrowed : option nat) (l : list entity) (ty : str)
    : res (list (field entity)) :=
  match assoc (key_of ty) m with
  | None => Ok []
  | Some j =>
    if match borrowed with Some i => Nat.eqb i j | None => false end then Panic
    else match nth_error l j with
         | Some (EStruct s) => Ok (st_fields s)
         | _ => Ok []
         end
  end.

Section M.
Context {A B : Type} (f : A -> res B).
(** [for_each] over values that are updated in place *)
Fixpoint rtraverse (l : list A) : res (list B) :=
  match l with
  | [] => Ok []
  | x :: l' => bind (f x) (fun y => bind (rtraverse l') (fun r => Ok (y :: r)))
  end.
End M.

Definition is_base (f : field entity) : bool := str_eqb (fl_name f) base_tag.
Definition named_in (fs : list (field entity)) (f : field entity) : bool :=
  existsb (fun g => str_eqb (fl_name g) (fl_name f)) fs.

(** types.rs l.41-59: [fs] are the fields with their nested types already resolved *)
Definition inherit (get : str -> res (list (field entity))) (fs : list (field entity))
    : res (list (field entity)) :=
  bind (rtraverse (fun f => get (fl_type f)) (filter is_base fs)) (fun ls =>
    Ok (filter (fun f => negb (is_base f)) (fs ++ filter (fun f => negb (named_in fs f)) (concat ls)))).

(** [RsEntity::Struct(st) => st.extend_base(types)] for a nested type (types.rs l.38-65, 91-97) *)
Fixpoint extend_nested (get : str -> res (list (field entity))) (e : entity) {struct e} : res entity :=
  match e with
  | EStruct {| st_name := nm; st_comment := c; st_fields := fs; st_groups := gs; st_subtypes := su |} =>
    bind (rtraverse (fun f =>
            match f with
            | {| fl_name := n; fl_type := t; fl_comment := c; fl_subtypes := ss; fl_source := so; fl_mods := ms |} =>
              bind (rtraverse (extend_nested get) ss) (fun ss' =>
                Ok {| fl_name := n; fl_type := t; fl_comment := c; fl_subtypes := ss'; fl_source := so; fl_mods := ms |})
            end) fs) (fun own =>
      bind (inherit get own) (fun fs' =>
        Ok (EStruct {| st_name := nm; st_comment := c; st_fields := fs'; st_groups := gs; st_subtypes := su |})))
  | _ => Ok e
  end.

(** StructField::extend_base (types.rs l.91-97) *)
Definition extend_field (get : str -> res (list (field entity))) (f : field entity) : res (field entity) :=
  bind (rtraverse (extend_nested get) (fl_subtypes f)) (fun ss =>
    Ok {| fl_name := fl_name f; fl_type := fl_type f; fl_comment := fl_comment f; fl_subtypes := ss;
          fl_source := fl_source f; fl_mods := fl_mods f |}).

Fixpoint update {A} (i : nat) (x : A) (l : list A) : list A :=
  match l, i with
  | [], _ => []
  | _ :: l', O => x :: l'
  | y :: l', S i' => y :: update i' x l'
  end.

(** Struct::extend_base (types.rs l.38-65) on the struct at position [i] *)
Definition extend_base (m : list (str * nat)) (i : nat) (l : list entity) : res (list entity) :=
  match nth_error l i with
  | Some (EStruct s) =>
    bind (rtraverse (extend_field (get_fields m (Some i) l)) (st_fields s)) (fun own =>
      let l1 := update i (EStruct (st_set_fields own s)) l in
      bind (inherit (get_fields m None l1) own) (fun fs =>
        Ok (update i (EStruct (st_set_fields fs s)) l1)))
  | _ => Ok l
  end.

(** Struct::extend_attribute_group (types.rs l.67-78) *)
Definition extend_attribute_group (m : list (str * nat)) (i : nat) (l : list entity) : res (list entity) :=
  match nth_error l i with
  | Some (EStruct s) =>
    bind (rtraverse (fun a => get_fields m None l (al_original a)) (st_groups s)) (fun ls =>
      Ok (update i (EStruct (st_set_fields (st_fields s ++ concat ls) s)) l))
  | _ => Ok l
  end.

(** mod.rs l.59-64: the loop over the [k] types from position [i] on *)
Fixpoint link_loop (m : list (str * nat)) (i k : nat) (l : list entity) : res (list entity) :=
  match k with
  | O => Ok l
  | S k' => bind (extend_base m i l) (fun l =>
              bind (extend_attribute_group m i l) (fun l => link_loop m (S i) k' l))
  end.

(** mod.rs l.49-66 *)
Definition link (f : rs_file) : res rs_file :=
  let l := rf_types f ++ rf_groups f in
  let n := List.length (rf_types f) in
  bind (link_loop (types_map l) 0 n l) (fun l' =>
    Ok {| rf_types := firstn n l'; rf_groups := skipn n l';
          rf_target_ns := rf_target_ns f; rf_xsd_ns := rf_xsd_ns f |}).

(** mod.rs l.39-66: [roots] are the children of the document node *)
Definition parse (u : uni) (roots : list node) : res rs_file :=
  bind (expect (last_opt (filter is_element roots))) (fun schema =>
    bind (parse_schema u schema []) link).
