(** What a run over one document reports, stated on comments. *)
From Verif Require Import Model.Text Model.Rules Model.Directive Model.Driver Model.Suppress Model.Document
  Spec.SuppressSpec.

(** The diagnostics of the enabled rules, for a linter given rule by rule. *)
Definition lints_of (lint : rule -> list diag) (enabled : rule -> bool) : list diag :=
  flat_map lint (filter enabled all_rules).

(** The rule under which each kind of problem with a comment is reported. *)
Inductive problem (m : manager) (c : range) : rule -> Prop :=
| P_blanket : In c (m_blanket m) -> problem m c R_BlanketSuppression
| P_chunk : In c (m_invalid_chunk m) -> problem m c R_InvalidChunkSuppression
| P_start : In c (m_unmatched_start m) -> problem m c R_UnmatchedRangeSuppression
| P_end : In c (m_unmatched_end m) -> problem m c R_UnmatchedRangeSuppression
| P_unexplained : In c (m_unexplained m) -> problem m c R_UnexplainedSuppression
| P_file : In c (m_misplaced_file m) -> problem m c R_MisplacedFileSuppression
| P_misplaced : In c (m_misplaced m) -> problem m c R_MisplacedSuppression
| P_misnamed : In c (m_misnamed m) -> problem m c R_MisnamedSuppression.

(** Only blanks and comments. *)
Fixpoint split_lines (t : text) : list text :=
  match t with
  | [] => [[]]
  | c :: r => if N.eqb c nl then [] :: split_lines r
              else match split_lines r with l :: ls => (c :: l) :: ls | [] => [[c]] end
  end.
Definition blank_or_comment (l : text) : bool :=
  match trim_start l with [] => true | c :: _ => N.eqb c 35 end.
Definition no_code (t : text) : Prop := forallb blank_or_comment (split_lines t) = true.
