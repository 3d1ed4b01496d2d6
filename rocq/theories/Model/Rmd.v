(** R Markdown and Quarto files: crates/jarl-core/src/rmd/extraction.rs and [get_checks_rmd],
    crates/jarl-core/src/check.rs:224-355. *)
From Verif Require Import Model.Text Model.Base Model.Rules Model.Directive Model.Driver Model.Suppress
  Model.Document Model.SuppressEdit.

Definition backquote : char := 96%N.
Definition is_tab_or_space (c : char) : bool := N.eqb c 32 || N.eqb c 9.
Fixpoint drop_while (f : char -> bool) (t : text) : text :=
  match t with [] => [] | c :: r => if f c then drop_while f r else t end.
(** [OPEN_FENCE], rmd/extraction.rs:12-13: `^[ \t]*(`{3,})\{[rR][^}]*\}`; gives group 1.  The
    groups cannot overlap, so matching each part greedily is the regex match. *)
Definition open_fence (line : text) : option text :=
  let t := drop_while is_tab_or_space line in
  let fence := take_while (N.eqb backquote) t in
  if 3 <=? length fence then
    match drop_while (N.eqb backquote) t with
    | b :: r :: rest =>
        if N.eqb b 123 && (N.eqb r 114 || N.eqb r 82) && existsb (N.eqb 125) rest then Some fence else None
    | _ => None
    end
  else None.

(** [RCodeChunk], rmd/extraction.rs:16-23 *)
Record raw := Raw { r_start : nat; r_code : text }.
(** The loop of [extract_r_chunks], rmd/extraction.rs:38-64: [off] is [byte_offset]. *)
Fixpoint extract_lines (off : nat) (current : option (text * text * nat)) (ls : list text) : list raw :=
  match ls with
  | [] => []
  | l :: r =>
      match current with
      | Some (fence, code, start) =>
          if teqb (trim l) fence then Raw start code :: extract_lines (off + blen l) None r
          else extract_lines (off + blen l) (Some (fence, code ++ l, start)) r
      | None =>
          match open_fence l with
          | Some fence => extract_lines (off + blen l) (Some (fence, [], off + blen l)) r
          | None => extract_lines (off + blen l) None r
          end
      end
  end.
Definition extract_r_chunks (content : text) : list raw := extract_lines 0 None (split_incl content).

(** [get_checks_rmd], check.rs:224-355: [parse] gives the tree of a chunk and the diagnostics of
    the lints on it, or [None] for a syntax error. *)
Definition analysed (parse : text -> option (node * list diag * list diag)) (c : raw) : option chunk :=
  match parse (r_code c) with
  | Some (n, exprs, unreachable) => Some (Chunk (r_start c) (r_code c) n exprs unreachable)
  | None => None
  end.
Definition get_checks_rmd (enabled : rule -> bool) (parse : text -> option (node * list diag * list diag))
  (content : text) : option (list diag) :=
  rmd_checks enabled (map (analysed parse) (extract_r_chunks content)).

(** [create_suppression_edit_in_rmd], suppression_edit.rs:425-453: the point for a diagnostic;
    [chain] gives the nodes above a position of a chunk (see [compute_insert_point]).  [Some None]:
    no chunk contains the diagnostic. *)
Fixpoint rmd_insert_point (chain : raw -> nat -> option (list anc)) (start : nat) (cs : list raw) : option (option point) :=
  match cs with
  | [] => Some None
  | c :: r =>
      if (r_start c <=? start) && (start <=? r_start c + blen (r_code c)) then
        match compute_insert_point (r_code c) (chain c (start - r_start c)) (start - r_start c) with
        | Some p => Some (Some (Point (r_start c + pt_offset p) (pt_indent p) (pt_newline p)))
        | None => None
        end
      else rmd_insert_point chain start r
  end.

(** [add_jarl_ignore_comments] on one file, commands/check.rs:271-399: [edits] are the edits of the
    diagnostics. *)
Definition add_jarl_ignore (reason : text) (edits : text -> list edit) (content : text) : res text :=
  if existsb (fun c => N.eqb c 10 || N.eqb c 13) reason then RErr
  else match edits content with
       | [] => ROk content
       | es => match add_comments reason es content with Some out => ROk out | None => RPanic end
       end.
