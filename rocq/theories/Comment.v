(** Model of the documentation formatter: xsd-parser/src/generator/utils.rs l.3-19,
    default.rs l.11-18 (wsdl-parser/src/generator/mod.rs l.53-78 is the same code). *)
From Coq Require Import List Arith NArith Bool Ascii String.
From Verif Require Import Str.
Import ListNotations.

(** [" ".repeat(n)] *)
Definition spaces (n : nat) : str := repeat 32%N n.

(** utils.rs l.8-17: the loop over the words; [acc] is [splitted], [cur]
    is [current_line_length]. *)
Fixpoint comment_loop (max_len indent : nat) (ws : list str) (acc : str) (cur : nat) : str :=
  match ws with
  | [] => acc
  | w :: ws' =>
    let len := byte_len w in
    if (cur + len <? max_len)%nat then
      comment_loop max_len indent ws' (acc ++ lit " " ++ w) (cur + (1 + len))
    else
      comment_loop max_len indent ws' (acc ++ [10%N] ++ spaces indent ++ lit "// " ++ w)
        (indent + 3 + len)
  end%list.

(** utils.rs l.3-19 *)
Definition split_comment_line (s : str) (max_len indent : nat) : str :=
  (comment_loop max_len indent (split_whitespace s) (spaces indent ++ lit "//") (indent + 2)
   ++ [10%N])%list.

(** default.rs l.11-18 *)
Definition format_comment (doc : option str) (max_len indent : nat) : str :=
  let d := match doc with Some d => d | None => [] end in
  fold_left (fun x y => x ++ y)%list
    (map (fun s => split_comment_line s max_len indent)
      (filter (fun s => 1 <? byte_len s)%nat (map trim (lines d)))) [].
