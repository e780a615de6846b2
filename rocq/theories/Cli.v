(** Model of xsd-parser-cli/src/main.rs and wsdl-parser-cli/src/main.rs: which files are
    written (line numbers are those of xsd-parser-cli; the other tool has the same functions).  The input is a tree; directories are read in the order of their list of entries,
    so statements for every tree hold for every order.  The input does not change during a run
    (the output is written elsewhere); there are no links, and input/output errors are the
    modelled ones: unreadable files, missing directories, directories in place of files and
    files in place of directories. *)
From Coq Require Import List NArith ZArith Bool Ascii String.
From Verif Require Import Str Xml Entity Parser Link Gen.
Import ListNotations.
Local Open Scope N_scope.

(** A path is the list of its components, last component first; [[]] is the root. *)
Definition path := list str.
Fixpoint path_eqb (p q : path) : bool :=
  match p, q with
  | [], [] => true
  | a :: p', b :: q' => str_eqb a b && path_eqb p' q'
  | _, _ => false
  end.
Inductive object := Directory | File (text : str).
Definition disk := path -> option object.
Definition put (d : disk) (p : path) (o : object) : disk := fun q => if path_eqb q p then Some o else d q.

(** [None]: [load_file] fails (main.rs l.71-76), also for text that is not UTF-8 *)
Inductive input := InFile (text : option str) | InDir (entries : list (str * input)).

(** std: [Path::with_extension("rs")] of a file name: what follows the last '.' is replaced,
    unless this '.' is the first character *)
Fixpoint last_dot (s : str) : option (str * str) :=
  match s with
  | [] => None
  | c :: s' => match last_dot s' with
               | Some (a, b) => Some (c :: a, b)
               | None => if c =? chr "." then Some ([], s') else None
               end
  end.
Definition rs_name (name : str) : str :=
  (match last_dot name with
   | Some ((_ :: _) as stem, _) => stem
   | _ => name
   end ++ lit ".rs")%list.

(** std: [fs::create_dir_all] *)
Fixpoint create_dir_all (p : path) (d : disk) : disk * res unit :=
  match d p with
  | Some Directory => (d, Ok tt)
  | Some (File _) => (d, Err)
  | None => match p with
            | [] => (d, Err)
            | _ :: parent => match create_dir_all parent d with
                             | (d', Ok _) => (put d' p Directory, Ok tt)
                             | r => r
                             end
            end
  end.

(** main.rs l.78-81 (wsdl: l.87-92): create or truncate, then write *)
Definition write_to_file (p : path) (text : str) (d : disk) : disk * res unit :=
  match p with
  | [] => (d, Err)
  | _ :: dir => match d dir, d p with
                | Some Directory, Some Directory => (d, Err)
                | Some Directory, _ => (put d p (File text), Ok tt)
                | _, _ => (d, Err)
                end
  end.

(** main.rs l.58-69 with an output file; [convert] parses and generates *)
Definition process_single_file (convert : str -> res str) (text : option str) (p : path) (d : disk) : disk * res unit :=
  match text with
  | None => (d, Err)
  | Some t => match convert t with
              | Ok code => write_to_file p code d
              | Err => (d, Err)
              | Panic => (d, Panic)
              end
  end.

(** main.rs l.45-54: the loop over the entries *)
Definition entries_loop (step : str -> input -> disk -> disk * res unit) :=
  fix go (es : list (str * input)) (d : disk) : disk * res unit :=
    match es with
    | [] => (d, Ok tt)
    | (name, x) :: es' => match step name x d with
                          | (d', Ok _) => go es' d'
                          | r => r
                          end
    end.
(** main.rs l.42-44 *)
Definition in_dir (step : str -> input -> disk -> disk * res unit) (es : list (str * input)) (out : path) (d : disk) : disk * res unit :=
  match (match d out with Some _ => (d, Ok tt) | None => create_dir_all out d end) with
  | (d', Ok _) => entries_loop step es d'
  | r => r
  end.
(** main.rs l.47-53 *)
Fixpoint process_entry (convert : str -> res str) (out : path) (name : str) (x : input) (d : disk) : disk * res unit :=
  match x with
  | InFile text => process_single_file convert text (rs_name name :: out) d
  | InDir es => in_dir (fun n y d => process_entry convert (name :: out) n y d) es (name :: out) d
  end.
(** main.rs l.41-56 *)
Definition process_dir (convert : str -> res str) (es : list (str * input)) (out : path) (d : disk) : disk * res unit :=
  in_dir (process_entry convert out) es out d.

(** main.rs l.26-39: [None] is a missing input ([unwrap] of its metadata); the second component
    is what is printed *)
Definition run (convert : str -> res str) (default_out : path) (x : option input) (out : option path) (d : disk)
    : disk * str * res unit :=
  match x with
  | None => (d, [], Panic)
  | Some (InDir es) =>
    let '(d', r) := process_dir convert es (match out with Some p => p | None => default_out end) d in (d', [], r)
  | Some (InFile text) =>
    match out with
    | Some p => let '(d', r) := process_single_file convert text p d in (d', [], r)
    | None => match text with
              | None => (d, [], Err)
              | Some t => match convert t with
                          | Ok code => (d, code ++ [10], Ok tt)
                          | Err => (d, [], Err)
                          | Panic => (d, [], Panic)
                          end
              end
    end
  end%list.

(** main.rs l.60-62: what is written for the text of a schema; [xml] is the reading of the text
    by roxmltree *)
Definition xsd_convert (u : uni) (xml : str -> res (list node)) (text : str) : res str :=
  bind (xml text) (fun roots => bind (parse u roots) (fun f => rmap snd (generate_rs_file u f))).
