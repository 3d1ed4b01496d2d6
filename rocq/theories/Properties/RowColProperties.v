(** C07: row and column of a diagnostic. *)
From Verif Require Import Model.Text Model.RowCol Spec.RowColSpec Proofs.RowColProofs.

(** Rmd/Qmd files (newlines of the whole content).  [a] is the text before the diagnostic.
    Excluded: a position on a newline character, and texts whose only newline before the
    position is their first byte (see C07_first_line_empty_refuted). *)
Theorem C07_row_col_partial : forall a b,
  (forall r, b <> nl :: r) -> ~ only_newline_at_0 a ->
  find_row_col (blen a) (find_new_lines_from_content (a ++ b)) = Some (true_row a, true_col a).
Proof. exact find_row_col_ok. Qed.
Print Assumptions C07_row_col_partial.

(** R files, for positions inside the text of the list of expressions. *)
Theorem C07_row_col_in_body_partial : forall body tail a b,
  body = a ++ b -> (forall r, b <> nl :: r) -> ~ only_newline_at_0 a ->
  bsplit (blen a) (body ++ tail) = Some (a, b ++ tail) /\
  find_row_col (blen a) (find_new_lines body) = Some (true_row a, true_col a).
Proof. exact find_row_col_body. Qed.
Print Assumptions C07_row_col_in_body_partial.

Example C07_hypotheses_met :
  let a := lit "x <- 1" ++ nl :: lit "  " in let b := lit "any(is.na(x))" in
  (forall r, b <> nl :: r) /\ ~ only_newline_at_0 a /\ true_row a = 2 /\ true_col a = 2.
Proof.
  split; [discriminate|]. split; [|vm_compute; auto].
  intros (r & H & _). vm_compute in H. discriminate.
Qed.

(** Wrong column on line 2 of a file whose first line is empty. *)
Theorem C07_first_line_empty_refuted :
  exists a b, (forall r, b <> nl :: r) /\
    find_row_col (blen a) (find_new_lines_from_content (a ++ b)) <> Some (true_row a, true_col a).
Proof. exact first_line_empty_refuted. Qed.
Print Assumptions C07_first_line_empty_refuted.

(** Wrong row for a diagnostic located in the comments after the last expression of an R file. *)
Theorem C07_trailing_comment_refuted :
  exists body tail a b, body ++ tail = a ++ b /\ (forall r, b <> nl :: r) /\ ~ only_newline_at_0 a /\
    find_row_col (blen a) (find_new_lines body) <> Some (true_row a, true_col a).
Proof. exact trailing_comment_refuted. Qed.
Print Assumptions C07_trailing_comment_refuted.
