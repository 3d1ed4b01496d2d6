(** Insertion of suppression comments: crates/jarl-core/src/suppression_edit.rs and
    [add_jarl_ignore_comments], crates/jarl/src/commands/check.rs:271-422.  [None] is a panic
    where noted. *)
From Verif Require Import Model.Text Model.Base Model.Rules.

(** One comment line, suppression_edit.rs:50-57 *)
Definition comment_line (rule_name explanation indent : text) : text :=
  indent ++ lit "# jarl-ignore " ++ rule_name ++ lit ": " ++ explanation ++ [nl].
(** [format_suppression_comments], suppression_edit.rs:36-67 *)
Definition format_suppression_comments (rules : list text) (explanation indent : text)
  (needs_leading_newline : bool) : text :=
  (if needs_leading_newline then [nl] else [])
  ++ concat (map (fun r => comment_line r explanation indent) rules)
  ++ (if needs_leading_newline then indent else []).

(** Text of the current line before the offset: [source[..offset]] after its last newline. *)
Definition line_prefix (before : text) : text :=
  rev (match find_char nl (rev before) with Some (a, _) => a | None => rev before end).

(** [is_on_own_line], suppression_edit.rs:277-290 (slicing panics off a boundary) *)
Definition is_on_own_line (src : text) (off : nat) : option bool :=
  if off =? 0 then Some true
  else match bsplit off src with
       | None => None
       | Some (before, _) => Some (forallb is_ws (line_prefix before))
       end.

Fixpoint take_while (f : char -> bool) (t : text) : text :=
  match t with [] => [] | c :: r => if f c then c :: take_while f r else [] end.

Record point := Point { pt_offset : nat; pt_indent : text; pt_newline : bool }.
(** [find_line_start_and_indent], suppression_edit.rs:360-377 *)
Definition find_line_start_and_indent (src : text) (off : nat) : option (nat * text) :=
  match bsplit off src with
  | None => None
  | Some (before, _) =>
      let start := off - blen (line_prefix before) in
      match bsplit start src with
      | None => None
      | Some (_, line) => Some (start, take_while (fun c => is_ws c && negb (N.eqb c nl)) line)
      end
  end.
(** [compute_inline_indent], suppression_edit.rs:329-338: one space per byte. *)
Definition compute_inline_indent (src : text) (off : nat) : option text :=
  match bsplit off src with
  | None => None
  | Some (before, _) => Some (repeat 32%N (blen (line_prefix before)))
  end.
Definition line_start_point (src : text) (off : nat) : option point :=
  match find_line_start_and_indent src off with
  | None => None
  | Some (o, i) => Some (Point o i false)
  end.
Definition inline_point (src : text) (off : nat) : option point :=
  match compute_inline_indent src off with
  | None => None
  | Some i => Some (Point off i true)
  end.

(** The nodes from the smallest one covering the diagnostic up to the root: is it a meaningful
    expression, a control-flow statement, and where it starts. *)
Record anc := Anc { a_meaningful : bool; a_control : bool; a_start : nat }.
(** The loop of [compute_suppression_insert_point], suppression_edit.rs:176-274.  The [line]
    field is not modelled (not used for the edit). *)
Fixpoint insert_point (src : text) (chain : list anc) (last first_own : option nat) (diag_start : nat)
  : option point :=
  match chain with
  | [] =>
      match first_own with
      | Some e => line_start_point src e
      | None =>
          match last with
          | Some e => inline_point src e
          | None => line_start_point src diag_start
          end
      end
  | a :: r =>
      if a_meaningful a then
        match is_on_own_line src (a_start a) with
        | None => None
        | Some own =>
            if a_control a then
              match last with
              | Some e =>
                  match is_on_own_line src e with
                  | None => None
                  | Some true => line_start_point src e
                  | Some false => inline_point src e
                  end
              | None =>
                  if own then line_start_point src (a_start a)
                  else insert_point src r last first_own diag_start
              end
            else
              insert_point src r (Some (a_start a))
                (match first_own with
                 | Some _ => first_own
                 | None => if own then Some (a_start a) else None
                 end) diag_start
        end
      else insert_point src r last first_own diag_start
  end.
(** [compute_suppression_insert_point]: [chain = None] when the source does not parse. *)
Definition compute_insert_point (src : text) (chain : option (list anc)) (diag_start : nat) : option point :=
  match chain with
  | None => line_start_point src diag_start
  | Some ch => insert_point src ch None None diag_start
  end.

(** ** The edits of one file, check.rs:317-375 *)
Record edit := Edit { e_offset : nat; e_indent : text; e_newline : bool; e_rule : text }.
Record merged := Merged { g_offset : nat; g_indent : text; g_newline : bool; g_rules : list text }.

(** [sort_by(|a, b| a.0.cmp(&b.0))]: stable insertion sort. *)
Fixpoint insert_edit (e : edit) (l : list edit) : list edit :=
  match l with
  | [] => [e]
  | x :: r => if e_offset e <=? e_offset x then e :: l else x :: insert_edit e r
  end.
Definition sort_edits (l : list edit) : list edit := fold_right insert_edit [] l.

(** The merge loop, check.rs:349-363.  [acc] is the vector, last element first. *)
Definition merge_step (acc : list merged) (e : edit) : list merged :=
  match acc with
  | g :: r =>
      if g_offset g =? e_offset e then
        (if mem (e_rule e) (g_rules g) then acc
         else Merged (g_offset g) (g_indent g) (g_newline g) (g_rules g ++ [e_rule e]) :: r)
      else Merged (e_offset e) (e_indent e) (e_newline e) [e_rule e] :: acc
  | [] => [Merged (e_offset e) (e_indent e) (e_newline e) [e_rule e]]
  end.
(** The merged edits in descending order of offset (check.rs:366: they are distinct and
    ascending before, so sorting reverses them, cf. [merged_sorted]). *)
Definition merge_edits (l : list edit) : list merged := fold_left merge_step (sort_edits l) [].

(** [String::insert_str]: panics off a boundary. *)
Definition insert_str (off : nat) (new t : text) : option text :=
  match bsplit off t with None => None | Some (a, b) => Some (a ++ new ++ b) end.
(** check.rs:369-375 *)
Fixpoint apply_merged (reason : text) (gs : list merged) (t : text) : option text :=
  match gs with
  | [] => Some t
  | g :: r =>
      match insert_str (g_offset g) (format_suppression_comments (g_rules g) reason (g_indent g) (g_newline g)) t with
      | None => None
      | Some t => apply_merged reason r t
      end
  end.
Definition add_comments (reason : text) (es : list edit) (t : text) : option text :=
  apply_merged reason (merge_edits es) t.
