(** The actions the editor offers for what is reported: crates/jarl-lsp/src/server.rs:413-665, with
    the tests whether a comment is there already.
    Simplifications: titles, kinds and the diagnostics attached to an action are left out; the
    ancestors of the reported node are given (as in Model/SuppressEdit.v). *)
From Verif Require Import Model.Text Model.Base Model.Rules Model.Fix Model.Driver Model.SuppressEdit Model.Rmd Model.Lsp.

(** [parse_existing_suppression], suppression_edit.rs:379-410, without the indentation:
    [Some None] for a comment without rules, [Some (Some names)] for one with rules. *)
Definition parse_existing (line : text) : option (option (list text)) :=
  match strip_prefix (lit "# jarl-ignore") (trim line) with
  | None => None
  | Some r =>
      match trim_start r with
      | [] => Some None
      | after =>
          match find_char 58%N after with
          | None => None
          | Some (names, _) =>
              match filter (fun n => match n with [] => false | _ => true end) (map trim (split_on 44%N names)) with
              | [] => None
              | l => Some (Some l)
              end
          end
      end
  end.
(** server.rs:542-559: whether the line above (the [line] of the point in the whole file) has a
    comment with the rule already. *)
Definition already_ignored (content rule_name : text) (line : nat) (newline : bool) : bool :=
  (0 <? line) && negb newline &&
  match nth_error (lines content) (line - 1) with
  | None => false
  | Some prev => match parse_existing prev with Some (Some names) => mem rule_name names | _ => false end
  end.
(** [diagnostic_to_jarl_ignore_rule_action], server.rs:505-603, R files. *)
Definition ignore_rule_action (content rule_name : text) (chain : option (list anc)) (start : nat) : res (option tedit) :=
  match compute_insert_point content chain start with
  | None => RPanic
  | Some pt =>
      rbind (point_line content pt) (fun line =>
        if already_ignored content rule_name line (pt_newline pt) then ROk None
        else rbind (suppress_edit content rule_name pt line) (fun te => ROk (Some te)))
  end.
(** [diagnostic_to_jarl_ignore_rule_action], documents: [create_suppression_edit_in_rmd]
    (suppression_edit.rs:412-450) moves the offset of the point to the file, not its line. *)
Fixpoint ignore_rule_action_rmd (content rule_name : text) (chain : raw -> nat -> option (list anc))
  (start : nat) (cs : list raw) : res (option tedit) :=
  match cs with
  | [] => ROk None
  | c :: r =>
      if (r_start c <=? start) && (start <=? r_start c + blen (r_code c)) then
        match compute_insert_point (r_code c) (chain c (start - r_start c)) (start - r_start c) with
        | None => RPanic
        | Some pt =>
            rbind (point_line (r_code c) pt) (fun line =>
              if already_ignored content rule_name line (pt_newline pt) then ROk None
              else rbind (suppress_edit content rule_name (Point (r_start c + pt_offset pt) (pt_indent pt) (pt_newline pt)) line)
                     (fun te => ROk (Some te)))
        end
      else ignore_rule_action_rmd content rule_name chain start r
  end.
(** [diagnostic_to_jarl_ignore_chunk_action], server.rs:605-665, documents: the first chunk with
    the report in it, unless one of two texts is found anywhere in the code of the chunk. *)
Definition ignore_chunk_action (content rule_name : text) (start : nat) : res (option tedit) :=
  match find (fun c => (r_start c <=? start) && (start <=? r_start c + blen (r_code c))) (extract_r_chunks content) with
  | None => ROk None
  | Some c =>
      if contains (lit "jarl-ignore-chunk " ++ rule_name) (r_code c) || contains (lit "- " ++ rule_name ++ lit ":") (r_code c)
      then ROk None
      else rbind (chunk_action content rule_name c) (fun te => ROk (Some te))
  end.

(** The actions for one report, server.rs:428-443. *)
Inductive action := AFix (te : tedit) | AIgnore (te : tedit) | AChunk (te : tedit).
Definition one {A} (f : tedit -> A) (o : option tedit) : list A := match o with Some te => [f te] | None => [] end.
Definition actions_for (content : text) (enc : encoding) (rmd : bool) (chain : diag -> option (list anc))
  (chunk_chain : raw -> nat -> option (list anc)) (d : diag) : res (list action) :=
  rbind (code_action d content enc) (fun a =>
  rbind (if rmd then ignore_rule_action_rmd content (d_rule d) chunk_chain (d_start d) (extract_r_chunks content)
         else ignore_rule_action content (d_rule d) (chain d) (d_start d)) (fun b =>
  rbind (if rmd then ignore_chunk_action content (d_rule d) (d_start d) else ROk None) (fun c =>
    ROk (one AFix a ++ one AIgnore b ++ one AChunk c)))).
(** [generate_code_actions], server.rs:413-447; the ranges of all diagnostics are computed first
    ([lint_document]), and an error there makes the list empty. *)
Fixpoint code_actions_from (content : text) (enc : encoding) (rmd : bool) (chain : diag -> option (list anc))
  (chunk_chain : raw -> nat -> option (list anc)) (requested : pos * pos) (ds : list (diag * (pos * pos))) : res (list action) :=
  match ds with
  | [] => ROk []
  | (d, rg) :: r =>
      rbind (if ranges_overlap rg requested then actions_for content enc rmd chain chunk_chain d else ROk []) (fun l =>
      rbind (code_actions_from content enc rmd chain chunk_chain requested r) (fun l' => ROk (l ++ l')))
  end.
Fixpoint with_ranges (content : text) (enc : encoding) (ds : list diag) : res (list (diag * (pos * pos))) :=
  match ds with
  | [] => ROk []
  | d :: r =>
      rbind (lsp_range (d_start d) (d_end d) content enc) (fun rg =>
      rbind (with_ranges content enc r) (fun l => ROk ((d, rg) :: l)))
  end.
Definition code_actions (content : text) (enc : encoding) (rmd : bool) (chain : diag -> option (list anc))
  (chunk_chain : raw -> nat -> option (list anc)) (requested : pos * pos) (ds : list diag) : res (list action) :=
  match with_ranges content enc ds with
  | ROk l => code_actions_from content enc rmd chain chunk_chain requested l
  | RErr => ROk []
  | RPanic => RPanic
  end.
