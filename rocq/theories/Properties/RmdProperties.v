(** C14, C15, C26 (command level), C47: R Markdown and Quarto documents. *)
From Coq Require Import Sorted.
From Verif Require Import Model.Text Model.Base Model.Rules Model.Directive Model.Fix Model.Driver Model.Suppress
  Model.Document Model.SuppressEdit Model.Rmd Spec.DirectiveSpec Spec.SuppressSpec Spec.SuppressEditSpec Spec.RmdSpec
  Proofs.TextProofs Proofs.SuppressProofs Proofs.SuppressWitness Proofs.RmdProofs.
Import ListNotations.

(** C14: each chunk is the text between an opening line and the next line made of the same fence. *)
Theorem C14_chunks_are_slices : forall content c, In c (extract_r_chunks content) ->
  exists f pre o cl post, content = pre ++ o ++ r_code c ++ cl ++ post /\ r_start c = blen (pre ++ o) /\
    opening_line f o /\ closing_line f cl /\
    Forall (fun l => ~ closing_line f l) (split_incl (r_code c)) /\
    In o (split_incl content) /\ In cl (split_incl content).
Proof. exact chunk_slice. Qed.
Print Assumptions C14_chunks_are_slices.
Theorem C14_chunks_disjoint_in_order : forall content,
  StronglySorted (fun a b => r_start a + blen (r_code a) < r_start b) (extract_r_chunks content).
Proof. exact chunks_disjoint. Qed.
Print Assumptions C14_chunks_disjoint_in_order.
(** The extraction is exactly the line-by-line reading of the document: nothing is missed. *)
Theorem C14_extraction_exact : forall content cs, extract_r_chunks content = cs <-> reads 0 (split_incl content) cs.
Proof. intros content cs. exact (extract_exact 0 (split_incl content) cs). Qed.
Print Assumptions C14_extraction_exact.
(** A chunk of another language whose name begins with [r] is taken for R. *)
Theorem C14_other_engine_refuted : exists content c o cl e, In c (extract_r_chunks content) /\
  content = o ++ r_code c ++ cl /\ r_start c = blen o /\ engine o e /\ e <> lit "r" /\ e <> lit "R".
Proof. exact other_engine_refuted. Qed.
Print Assumptions C14_other_engine_refuted.

(** C15: what is reported for an Rmd file: the diagnostics of its chunks, moved, except those of
    rules with a file-level comment in the first chunk and except outdated reports on a file-level
    comment whose rule is violated in some chunk. *)
Theorem C15_rmd_exact : forall enabled parse content out d, parse_ok parse -> get_checks_rmd enabled parse content = Some out ->
  (In d out <->
    (exists i, chunk_reports enabled parse content i d) /\
    (forall r c, d_rule d = rule_name r -> ~ file_comment parse content r c) /\
    ~ (d_rule d = rule_name R_OutdatedSuppression /\ exists r, file_comment parse content r (d_start d, d_end d) /\
       r <> R_OutdatedSuppression /\ exists i d', chunk_reports enabled parse content i d' /\ d_rule d' = rule_name r)).
Proof. exact rmd_exact. Qed.
Print Assumptions C15_rmd_exact.
(** The range in the file has the text of the range in the chunk, and there is no fix. *)
Theorem C15_same_text_no_fix : forall enabled parse content i d, chunk_reports enabled parse content i d ->
  exists c d0, nth_error (extract_r_chunks content) i = Some c /\ d_rule d = d_rule d0 /\ d_fix d = empty_fix /\
    forall t, bslice (d_start d0) (d_end d0) (r_code c) = Some t -> bslice (d_start d) (d_end d) content = Some t.
Proof. exact chunk_reports_text. Qed.
Print Assumptions C15_same_text_no_fix.
Theorem C15_later_file_comments_misplaced : forall i code tree m v r, in_source code tree -> from_node tree code = Some m -> 0 < i ->
  In v (visits code tree true 0) -> says v KFile r -> v_role v = Plain true ->
  In (v_range v) (m_misplaced_file (move_files i m)) /\ m_files (move_files i m) = [].
Proof. exact later_file_comment. Qed.
Print Assumptions C15_later_file_comments_misplaced.

(** A document with two R chunks: the file-level comment of the first hides the diagnostic of the
    second, and is not reported as outdated. *)
Definition fence_line := lit "```" ++ [nl].
Definition chunk0_code := lit "# jarl-ignore-file any_is_na: legacy" ++ [nl] ++ lit "x" ++ [nl].
Definition chunk1_code := lit "any(is.na(y)); T" ++ [nl].
Definition doc := lit "# T" ++ [233%N; nl] ++ lit "```{r}" ++ [nl] ++ chunk0_code ++ fence_line ++
  lit "text" ++ [nl] ++ lit "````{R, echo=FALSE}" ++ [nl] ++ chunk1_code ++ lit "````" ++ [nl].
Definition chunk0_tree : node :=
  Node (0, blen chunk0_code) false [] [] []
    [Node (0, blen chunk0_code) false [] [] []
      [leaf (lit "# jarl-ignore-file any_is_na: legacy" ++ [nl]) (lit "x") [after [] (lit "# jarl-ignore-file any_is_na: legacy")]]].
Definition chunk1_tree : node := Node (0, blen chunk1_code) false [] [] [] [].
Definition doc_parse (code : text) : option (node * list diag * list diag) :=
  if teqb code chunk0_code then Some (chunk0_tree, [], [])
  else if teqb code chunk1_code then
    Some (chunk1_tree, [diag_at R_AnyIsNa [] (lit "any(is.na(y))"); diag_at R_TrueFalseSymbol (lit "any(is.na(y)); ") (lit "T")], [])
  else None.
Example C15_hypotheses_met : parse_ok doc_parse /\ length (extract_r_chunks doc) = 2 /\
  get_checks_rmd (fun _ => true) doc_parse doc = Some [mk_diag (rule_name R_TrueFalseSymbol) 96 97 empty_fix] /\
  bslice 96 97 doc = Some (lit "T").
Proof.
  split.
  - intros code tree e u. unfold doc_parse. destruct (teqb code chunk0_code) eqn:E0.
    + intros [= <- _ _]. apply teqb_eq in E0. subst code. apply in_source_b_ok. vm_compute. reflexivity.
    + destruct (teqb code chunk1_code) eqn:E1; [|discriminate]. intros [= <- _ _]. constructor.
  - vm_compute. repeat split; reflexivity.
Qed.

(** C26: a reason with a line break is refused before anything is written; otherwise the file gets
    the insertions described by [C26_only_insertions]. *)
Theorem C26_line_break_rejected : forall reason edits t, In nl reason \/ In 13%N reason -> add_jarl_ignore reason edits t = RErr.
Proof. exact line_break_rejected. Qed.
Print Assumptions C26_line_break_rejected.
Theorem C26_accepted_reason : forall reason edits t out, add_jarl_ignore reason edits t = ROk out ->
  ~ In nl reason /\ ~ In 13%N reason /\ (out = t \/ add_comments reason (edits t) t = Some out).
Proof. exact line_break_free. Qed.
Print Assumptions C26_accepted_reason.

(** C47: in an Rmd file, comments are inserted in the chunk of the diagnostic. *)
Theorem C47_rmd_comment_inside_chunk : forall chain content start pt,
  (forall c p ch, chain c p = Some ch -> Forall (fun a => boundary (r_code c) (a_start a)) ch) ->
  (forall c, In c (extract_r_chunks content) -> r_start c <= start <= r_start c + blen (r_code c) -> boundary (r_code c) (start - r_start c)) ->
  rmd_insert_point chain start (extract_r_chunks content) = Some (Some pt) ->
  exists c, In c (extract_r_chunks content) /\ r_start c <= start <= r_start c + blen (r_code c) /\
    r_start c <= pt_offset pt <= r_start c + blen (r_code c) /\ boundary content (pt_offset pt).
Proof. exact rmd_insert_inside. Qed.
Print Assumptions C47_rmd_comment_inside_chunk.
Theorem C47_rmd_comment_found : forall chain content start c,
  (forall c p ch, chain c p = Some ch -> Forall (fun a => boundary (r_code c) (a_start a)) ch) ->
  (forall c, In c (extract_r_chunks content) -> r_start c <= start <= r_start c + blen (r_code c) -> boundary (r_code c) (start - r_start c)) ->
  In c (extract_r_chunks content) -> r_start c <= start <= r_start c + blen (r_code c) ->
  exists pt, rmd_insert_point chain start (extract_r_chunks content) = Some (Some pt).
Proof. exact rmd_insert_total. Qed.
Print Assumptions C47_rmd_comment_found.
Example C47_hypotheses_met :
  rmd_insert_point (fun _ _ => Some [Anc true false 0]) 96 (extract_r_chunks doc) = Some (Some (Point 81 [] false)).
Proof. vm_compute. reflexivity. Qed.
