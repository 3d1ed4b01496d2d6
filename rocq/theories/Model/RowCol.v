(** Row/column computation — crates/jarl-core/src/utils.rs:29-104. *)
From Verif Require Import Model.Text.

(** utils.rs:33-35 [find_new_lines_from_content]: byte offsets of the newlines; [p] is the byte
    offset of [t] in the whole content. *)
Fixpoint new_lines_from (p : nat) (t : text) : list nat :=
  match t with
  | [] => []
  | c :: r => if N.eqb c nl then p :: new_lines_from (p + u8len c) r else new_lines_from (p + u8len c) r
  end.
Definition find_new_lines_from_content (t : text) : list nat := new_lines_from 0 t.

(** utils.rs:38-49 [find_new_lines]: the newlines of the text of the first child node of the root, i.e.
    of the list of expressions.  That node's text is a prefix [body] of the file: the trivia (line
    breaks, comments) after the last expression belongs to the end-of-file token. *)
Definition find_new_lines (body : text) : list nat := new_lines_from 0 body.

(** utils.rs:66-86 [find_row_col]; [None] = arithmetic underflow ([start - last_new_line - 1]). *)
Definition find_row_col (start : nat) (nls : list nat) : option (nat * nat) :=
  let before := filter (fun x => x <=? start) nls in
  let last := List.last before 0 in
  let row := length before + 1 in
  if last =? 0 then Some (row, start)
  else if last + 1 <=? start then Some (row, start - last - 1) else None.
