(** Document-level checks: crates/jarl-core/src/analyze/document.rs, and the per-file parts of
    crates/jarl-core/src/check.rs.  The lints themselves are inputs (lists of diagnostics). *)
From Verif Require Import Model.Text Model.Rules Model.Directive Model.Fix Model.Driver Model.Suppress.

(** The [create_diagnostic] functions of lints/comments/*/*.rs: name and range, no fix. *)
Definition comment_diag (r : rule) (c : range) : diag := mk_diag (rule_name r) (fst c) (snd c) empty_fix.

(** [if checker.is_rule_enabled(rule) { for d in .. { report } }] *)
Definition when_enabled (enabled : rule -> bool) (r : rule) (ds : list diag) : list diag :=
  if enabled r then ds else [].

(** [check_document], analyze/document.rs:18-153.  [exprs]: diagnostics already reported by
    [check_expression]; [unreachable], [dups], [unused]: diagnostics of those three rules. *)
Definition document_diags (enabled : rule -> bool) (m : manager)
  (exprs unreachable dups unused : list diag) : list diag :=
  exprs
  ++ when_enabled enabled R_UnreachableCode unreachable
  ++ when_enabled enabled R_BlanketSuppression (map (comment_diag R_BlanketSuppression) (m_blanket m))
  ++ when_enabled enabled R_InvalidChunkSuppression (map (comment_diag R_InvalidChunkSuppression) (m_invalid_chunk m))
  ++ when_enabled enabled R_UnexplainedSuppression (map (comment_diag R_UnexplainedSuppression) (m_unexplained m))
  ++ when_enabled enabled R_MisplacedFileSuppression (map (comment_diag R_MisplacedFileSuppression) (m_misplaced_file m))
  ++ when_enabled enabled R_MisplacedSuppression (map (comment_diag R_MisplacedSuppression) (m_misplaced m))
  ++ when_enabled enabled R_MisnamedSuppression (map (comment_diag R_MisnamedSuppression) (m_misnamed m))
  ++ when_enabled enabled R_UnmatchedRangeSuppression
       (map (comment_diag R_UnmatchedRangeSuppression) (m_unmatched_start m)
        ++ map (comment_diag R_UnmatchedRangeSuppression) (m_unmatched_end m))
  ++ when_enabled enabled R_DuplicatedFunctionDefinition dups
  ++ when_enabled enabled R_UnusedFunction unused.
Definition check_document (enabled : rule -> bool) (m : manager)
  (exprs unreachable dups unused : list diag) : list diag :=
  let '(m, kept) := filter_diagnostics m (document_diags enabled m exprs unreachable dups unused) in
  kept ++ when_enabled enabled R_OutdatedSuppression (map (comment_diag R_OutdatedSuppression) (get_unused m)).

(** ** Rmd and Qmd files *)
(** A chunk after extraction and parsing, check.rs:232-283: [None] when the chunk has a syntax
    error, otherwise the tree, its code and what the lints report on it. *)
Record chunk := Chunk { ch_start : nat; ch_code : text; ch_tree : node;
  ch_exprs : list diag; ch_unreachable : list diag }.

Definition move_files (index : nat) (m : manager) : manager :=
  if 0 <? index then
    Man (m_regions m) [] (m_chunks m) (m_nodes m) (m_any m) (m_blanket m) (m_invalid_chunk m)
      (m_unmatched_start m) (m_unmatched_end m) (m_unexplained m)
      (m_misplaced_file m ++ map w_comment (m_files m)) (m_misplaced m) (m_misnamed m) (m_used m)
  else m.
Definition shift (off : nat) (r : range) : range := (fst r + off, snd r + off).
(** The map of check.rs:308-314: no fix, range moved by the start of the chunk. *)
Definition remap (off : nat) (d : diag) : diag := mk_diag (d_rule d) (d_start d + off) (d_end d + off) empty_fix.

(** Pass 1, check.rs:246-283: the managers (with the index of the chunk), the file-level rules
    and their comment ranges. *)
Fixpoint rmd_managers (index : nat) (cs : list (option chunk)) : option (list (chunk * manager)) :=
  match cs with
  | [] => Some []
  | None :: r => rmd_managers (S index) r
  | Some c :: r =>
      obind (from_node (ch_tree c) (ch_code c)) (fun m =>
      obind (rmd_managers (S index) r) (fun ms => Some ((c, move_files index m) :: ms)))
  end.
Definition file_suppressions (ms : list (chunk * manager)) : list (range * rule) :=
  flat_map (fun cm => map (fun s => (shift (ch_start (fst cm)) (w_comment s), w_rule s)) (m_files (snd cm))) ms.
Definition suppressed_rules (ms : list (chunk * manager)) : list rule := map snd (file_suppressions ms).
Definition mem_rule (r : rule) (l : list rule) : bool := existsb (rule_eqb r) l.
Definition diag_rule_in (l : list rule) (d : diag) : bool :=
  match from_name (d_rule d) with Some r => mem_rule r l | None => false end.

(** Pass 2, check.rs:286-316 *)
Definition chunk_diags (enabled : rule -> bool) (cm : chunk * manager) : list diag :=
  map (remap (ch_start (fst cm)))
    (check_document enabled (snd cm) (ch_exprs (fst cm)) (ch_unreachable (fst cm)) [] []).

(** check.rs:318-355, without the computation of locations *)
Definition rmd_checks (enabled : rule -> bool) (cs : list (option chunk)) : option (list diag) :=
  obind (rmd_managers 0 cs) (fun ms =>
    let all := flat_map (chunk_diags enabled) ms in
    let fs := file_suppressions ms in
    let violated :=
      flat_map (fun d => match from_name (d_rule d) with
                         | Some r => if mem_rule r (suppressed_rules ms) then [r] else []
                         | None => [] end)
        (filter (fun d => negb (teqb (d_rule d) (rule_name R_OutdatedSuppression))) all) in
    let used := map fst (filter (fun e => mem_rule (snd e) violated) fs) in
    let all :=
      filter (fun d => negb (teqb (d_rule d) (rule_name R_OutdatedSuppression) &&
                             existsb (range_eqb (d_range d)) used)) all in
    Some (filter (fun d => negb (diag_rule_in (suppressed_rules ms) d)) all)).
