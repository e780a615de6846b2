(** What the command line tools are expected to do with a directory. *)
From Coq Require Import List NArith ZArith Bool Ascii String.
From Verif Require Import Str Cli.
Import ListNotations.
Local Open Scope N_scope.

(** [holds x rel y]: [y] is at [rel] in [x] (last component first). *)
Inductive holds : input -> path -> input -> Prop :=
| holds_here x : holds x [] x
| holds_inside es name x rel y : In (name, x) es -> holds x rel y -> holds (InDir es) (rel ++ [name]) y.

(** The name of the output: the part after the last '.', if there is one and it is not at the
    start, is replaced by "rs". *)
Inductive output_name : str -> str -> Prop :=
| output_extension stem ext : stem <> [] -> ~ In 46 ext -> output_name (stem ++ lit "." ++ ext) (stem ++ lit ".rs")
| output_none name : ~ In 46 name -> output_name name (name ++ lit ".rs")
| output_hidden ext : ~ In 46 ext -> output_name (lit "." ++ ext) (lit "." ++ ext ++ lit ".rs").

(** The names in each directory are distinct, and no file is to be written in place of a directory. *)
Definition sound_tree (x : input) : Prop :=
  forall rel es, holds x rel (InDir es) ->
    NoDup (map fst es) /\ forall n1 t n2 es2, In (n1, InFile t) es -> In (n2, InDir es2) es -> ~ output_name n1 n2.
(** Different files of a directory have different output names. *)
Definition distinct_outputs (x : input) : Prop :=
  forall rel n1 t1 n2 t2 o, holds x (n1 :: rel) (InFile t1) -> holds x (n2 :: rel) (InFile t2) ->
    output_name n1 o -> output_name n2 o -> n1 = n2.

(** The output can be put at [out]: every directory above it exists or can be created (what is
    above a directory is one), nothing is in it. *)
Definition free (d : disk) (out : path) : Prop :=
  d [] = Some Directory /\ (forall a b, out = a ++ b -> d b = None \/ d b = Some Directory) /\
  (forall a b n, out = a ++ n :: b -> d (n :: b) = Some Directory -> d b = Some Directory) /\
  forall q, q <> [] -> d (q ++ out) = None.

Definition converts (convert : str -> res str) (x : input) : Prop :=
  forall rel t, holds x rel (InFile t) -> exists s c, t = Some s /\ convert s = Ok c.

(** Places: of a directory, of the output of a file. *)
Definition directory_place (x : input) (out q : path) : Prop := exists rel es, holds x rel (InDir es) /\ q = rel ++ out.
Definition file_place (x : input) (out : path) (name : str) (t : option str) (q : path) : Prop :=
  exists rel o, holds x (name :: rel) (InFile t) /\ output_name name o /\ q = o :: rel ++ out.
