(** What validate bodies do, and what the facets of XML Schema Part 2 allow.
    A value type is given by how its texts are read, by Rust's [partial_cmp] and by [len]. *)
From Coq Require Import NArith ZArith Bool Ascii String List.
From Verif Require Import Str SpecLex Names Entity SpecRust SpecGen.
Import ListNotations.
Local Open Scope string_scope.
Local Open Scope list_scope.

Section Check.
Context (V : Type) (read : str -> option V) (cmp : V -> V -> option comparison) (len : V -> N).

(** Rust's comparison operators in terms of partial_cmp. *)
Definition holds (op : string) (o : option comparison) : bool :=
  match o with
  | Some Lt => if string_dec op "<" then true else if string_dec op "<=" then true else if string_dec op "!=" then true else false
  | Some Eq => if string_dec op "<=" then true else if string_dec op ">=" then true else false
  | Some Gt => if string_dec op ">" then true else if string_dec op ">=" then true else if string_dec op "!=" then true else false
  | None => if string_dec op "!=" then true else false
  end.
(** The condition of a check on the value [x]; [None]: the unwrap panics. *)
Definition condition (c : cond) (x : V) : option bool :=
  match c with
  | CBound op v _ => match read v with Some b => Some (holds op (cmp x b)) | None => None end
  | CLen op n => Some (holds op (Some (N.compare (len x) n)))
  end.
Inductive verdict := Accepted | Rejected (message : str) | Crashed.
(** Running a validate body. *)
Fixpoint run_checks (ks : list check) (x : V) : verdict :=
  match ks with
  | [] => Accepted
  | k :: ks' =>
    match condition (ck_cond k) x with
    | Some true => Rejected (ck_message k)
    | Some false => run_checks ks' x
    | None => Crashed
    end
  end.

(** What a facet allows. *)
Definition bounded (v : str) (P : option comparison -> Prop) (x : V) : Prop := exists b, read v = Some b /\ P (cmp x b).
Definition allowed (x : V) (f : facet_type) : Prop :=
  match f with
  | FMaxExclusive v => bounded v (fun c => c = Some Lt) x
  | FMaxInclusive v => bounded v (fun c => c = Some Lt \/ c = Some Eq) x
  | FMinExclusive v => bounded v (fun c => c = Some Gt) x
  | FMinInclusive v => bounded v (fun c => c = Some Gt \/ c = Some Eq) x
  | FLength v => exists n, u32_text v n /\ len x = n
  | FMaxLength v => exists n, u32_text v n /\ (len x <= n)%N
  | FMinLength v => exists n, u32_text v n /\ (n <= len x)%N
  | FEnumeration _ | FFractionDigits _ | FPattern _ | FTotalDigits _ | FWhiteSpace _ => True
  end.
(** A bound that is no text of the value type. *)
Definition unreadable (f : facet_type) : Prop :=
  match f with
  | FMaxExclusive v | FMaxInclusive v | FMinExclusive v | FMinInclusive v => read v = None
  | _ => False
  end.
End Check.
