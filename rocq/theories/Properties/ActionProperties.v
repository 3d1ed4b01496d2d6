(** C102: the actions the editor offers for what it reports. *)
From Verif Require Import Model.Text Model.Base Model.Rules Model.Fix Model.Driver Model.SuppressEdit Model.Rmd Model.Lsp Model.Actions
  Spec.DirectiveSpec Spec.LspSpec Spec.SuppressEditSpec Spec.ActionSpec Spec.DescriptionSpec Model.Directive
  Proofs.TextProofs Proofs.LspDiag Proofs.LspWitness Proofs.ActionProofs.
From Verif Require Import Model.Driver.

(** In an R file: the comment of C49 is offered, unless the line above the place of the comment
    already names the rule in a [# jarl-ignore] comment. *)
Theorem C102_comment_offered : forall content r chain start, boundary content start ->
  (forall ch, chain = Some ch -> Forall (fun a => boundary content (a_start a)) ch) ->
  exists pt, compute_insert_point content chain start = Some pt /\
    ((pt_newline pt = false /\ (exists prev, line_above content (pt_offset pt) prev /\ names_rule r prev) /\
      ignore_rule_action content (rule_name r) chain start = ROk None) \/
     (~ (pt_newline pt = false /\ exists prev, line_above content (pt_offset pt) prev /\ names_rule r prev) /\
      exists te, suppress_action content (rule_name r) chain start = ROk te /\
        ignore_rule_action content (rule_name r) chain start = ROk (Some te))).
Proof. exact ignore_rule_ok. Qed.
Print Assumptions C102_comment_offered.
(** The comment jarl writes is recognised. *)
Theorem C102_own_comment : forall r indent reason, blank indent ->
  names_rule r (indent ++ lit "# jarl-ignore " ++ rule_name r ++ lit ": " ++ reason).
Proof. exact own_comment_named. Qed.
Print Assumptions C102_own_comment.
(** But a comment without a reason, which silences nothing, also hides the action. *)
Theorem C102_no_reason_refuted : exists content prev chain start, boundary content start /\
  Forall (fun a => boundary content (a_start a)) chain /\ line_above content start prev /\
  parse_comment_directive prev = Some PMissing /\
  ignore_rule_action content (rule_name R_AnyIsNa) (Some chain) start = ROk None.
Proof.
  exists (lit "# jarl-ignore any_is_na:" ++ [nl] ++ lit "any(is.na(x))" ++ [nl]), (lit "# jarl-ignore any_is_na:"), [Anc true false 25], 25.
  assert (B : boundary (lit "# jarl-ignore any_is_na:" ++ [nl] ++ lit "any(is.na(x))" ++ [nl]) 25).
  { exists (lit "# jarl-ignore any_is_na:" ++ [nl]), (lit "any(is.na(x))" ++ [nl]). split; reflexivity. }
  split; auto. split; [now repeat constructor|]. split.
  - exists [], (lit "any(is.na(x))" ++ [nl]). split; [reflexivity|]. split; [reflexivity|]. split; [vm_compute; intuition discriminate|now left].
  - split; vm_compute; reflexivity.
Qed.
Print Assumptions C102_no_reason_refuted.
(** In documents: the action for a chunk is withheld exactly when one of two texts is in its code. *)
Theorem C102_chunk_offered : forall content r start,
  (ignore_chunk_action content r start = ROk None <->
   forall c, chunk_of content start c -> found_in (r_code c) (lit "jarl-ignore-chunk " ++ r) \/ found_in (r_code c) (lit "- " ++ r ++ lit ":")) /\
  (forall te, ignore_chunk_action content r start = ROk (Some te) ->
     exists c, chunk_of content start c /\ chunk_action content r c = ROk te) /\
  exists o, ignore_chunk_action content r start = ROk o.
Proof. exact ignore_chunk_ok. Qed.
Print Assumptions C102_chunk_offered.
(** So the comment for another rule hides it when that rule's name begins with the name of this one. *)
Theorem C102_chunk_prefix_refuted : exists content start c first second, extract_r_chunks content = [c] /\ chunk_of content start c /\
  lines (r_code c) = [first; second] /\ parse_comment_directive first = Some (PValid (Dir KChunk R_Seq2)) /\ parse_comment_directive second = None /\
  ignore_chunk_action content (rule_name R_Seq) start = ROk None.
Proof.
  exists seq_rmd, 42. eexists. exists (lit "#| jarl-ignore-chunk seq2: fine"), (lit "for (i in 1:length(x)) f(i)").
  split; [vm_compute; reflexivity|]. split.
  - exists [], []. split; [vm_compute; reflexivity|]. split; [vm_compute; lia|]. intros c' [].
  - split; [vm_compute; reflexivity|]. split; [vm_compute; reflexivity|]. split; vm_compute; reflexivity.
Qed.
Print Assumptions C102_chunk_prefix_refuted.
(** In documents, the comment for the rule: offered for the chunk with the report, at the place found in
    this chunk, unless a line of the document names the rule: the one whose number (from the start of
    the document) is that of the line above this place in the chunk. *)
Theorem C102_document_comment_partial : forall content r chain start,
  ((forall c, ~ chunk_of content start c) ->
   ignore_rule_action_rmd content (rule_name r) chain start (extract_r_chunks content) = ROk None) /\
  forall c pt line, chunk_of content start c ->
    compute_insert_point (r_code c) (chain c (start - r_start c)) (start - r_start c) = Some pt ->
    point_line (r_code c) pt = ROk line ->
    let there := pt_newline pt = false /\
      exists n prev ls, line = S n /\ text_lines content ls /\ nth_error ls n = Some prev /\ names_rule r prev in
    (ignore_rule_action_rmd content (rule_name r) chain start (extract_r_chunks content) = ROk None <-> there) /\
    forall te, ignore_rule_action_rmd content (rule_name r) chain start (extract_r_chunks content) = ROk (Some te) <->
      ~ there /\ suppress_edit content (rule_name r) (Point (r_start c + pt_offset pt) (pt_indent pt) (pt_newline pt)) line = ROk te.
Proof.
  intros content r chain start. split; [apply rmd_comment_ok|]. intros c pt line. apply rmd_comment_spec.
Qed.
Print Assumptions C102_document_comment_partial.
(** In documents, a line of the document is looked at in place of the line of the chunk: the
    comment above the code is not seen. *)
Theorem C102_document_line_refuted : exists content chain start te prev, boundary content start /\
  (forall c p ch, In c (extract_r_chunks content) -> chain c p = Some ch -> Forall (fun a => boundary (r_code c) (a_start a)) ch) /\
  line_above content start prev /\ names_rule R_AnyIsNa prev /\
  ignore_rule_action_rmd content (rule_name R_AnyIsNa) chain start (extract_r_chunks content) = ROk (Some te).
Proof.
  exists commented_rmd, (fun _ _ => Some [Anc true false 25]), 32. eexists. exists (lit "# jarl-ignore any_is_na:").
  split. { exists (fence ++ lit "{r}" ++ [nl] ++ lit "# jarl-ignore any_is_na:" ++ [nl]), (lit "any(is.na(x))" ++ [nl] ++ fence ++ [nl]). split; reflexivity. }
  split. { intros c p ch [ <- |[]] [= <-]. constructor; [|constructor]. cbn [a_start r_code].
    exists (lit "# jarl-ignore any_is_na:" ++ [nl]), (lit "any(is.na(x))" ++ [nl]). split; reflexivity. }
  split. { exists (fence ++ lit "{r}" ++ [nl]), (lit "any(is.na(x))" ++ [nl] ++ fence ++ [nl]). split; [reflexivity|]. split; [reflexivity|].
    split; [vm_compute; intuition discriminate|]. right. exists (fence ++ lit "{r}"). reflexivity. }
  split. { exists [], (lit " any_is_na"), []. split; [reflexivity|]. split; [reflexivity|]. split; [vm_compute; intuition discriminate|].
    exists [], (lit " "), [], []. repeat split; auto. }
  vm_compute. reflexivity.
Qed.
Print Assumptions C102_document_line_refuted.
(** The whole list. *)
Theorem C102_offered : forall content enc rmd chain chunk_chain requested ds l,
  code_actions content enc rmd chain chunk_chain requested ds = ROk l ->
  (forall d, In d ds -> exists rg, lsp_range (d_start d) (d_end d) content enc = ROk rg /\ pos_le (fst rg) (snd rg) = true) ->
  pos_le (fst requested) (snd requested) = true ->
  forall a, In a l <-> exists d rg, In d ds /\ lsp_range (d_start d) (d_end d) content enc = ROk rg /\ touch rg requested /\
    offered content enc rmd chain chunk_chain d a.
Proof. exact code_actions_in. Qed.
Print Assumptions C102_offered.
(** A report that does not fit the text (past its end) empties the list. *)
Theorem C102_unplaced : forall content enc rmd chain chunk_chain requested ds,
  (forall d, In d ds -> lsp_range (d_start d) (d_end d) content enc <> RPanic) ->
  (exists d, In d ds /\ lsp_range (d_start d) (d_end d) content enc = RErr) ->
  code_actions content enc rmd chain chunk_chain requested ds = ROk [].
Proof. exact code_actions_unplaced. Qed.
Print Assumptions C102_unplaced.
Example C102_unplaced_met : lsp_range 0 3 (lit "ab") UTF16 = RErr.
Proof. vm_compute. reflexivity. Qed.
(** In an R file a list is always given. *)
Theorem C102_always_a_list : forall content enc chunk_chain requested ds chain,
  (forall d, In d ds -> exists a m b, content = a ++ m ++ b /\ blen a = d_start d /\ blen (a ++ m) = d_end d) ->
  (forall d, In d ds -> boundary content (f_start (d_fix d)) /\ boundary content (f_end (d_fix d)) /\ f_start (d_fix d) <= f_end (d_fix d)) ->
  (forall d ch, In d ds -> chain d = Some ch -> Forall (fun a => boundary content (a_start a)) ch) ->
  (forall d, In d ds -> exists r, d_rule d = rule_name r) ->
  exists l, code_actions content enc false chain chunk_chain requested ds = ROk l.
Proof. exact code_actions_total. Qed.
Print Assumptions C102_always_a_list.
Example C102_concrete : let d := mk_diag (rule_name R_AnyIsNa) 7 20 (mk_fix (lit "anyNA(x)") 7 20 false) in
  code_actions (lit "x <- 1" ++ [nl] ++ lit "any(is.na(x))") UTF16 false (fun _ => Some [Anc true false 7]) (fun _ _ => None) ((1, 0), (1, 2)) [d]
    = ROk [AFix (TEdit (1, 0) (1, 13) (lit "anyNA(x)")); AIgnore (TEdit (1, 0) (1, 0) (lit "# jarl-ignore any_is_na: <reason>" ++ [nl]))] /\
  code_actions (lit "x <- 1" ++ [nl] ++ lit "any(is.na(x))") UTF16 false (fun _ => Some [Anc true false 7]) (fun _ _ => None) ((0, 0), (0, 2)) [d] = ROk [].
Proof. vm_compute. auto. Qed.
Example C102_listed_concrete : names_rule R_Seq (lit "  # jarl-ignore any_is_na, seq : because") /\
  ignore_rule_action (lit "# jarl-ignore any_is_na, seq : because" ++ [nl] ++ lit "seq(x)") (rule_name R_Seq) (Some [Anc true false 39]) 39 = ROk None.
Proof.
  split; [|vm_compute; reflexivity]. exists (lit "  "), (lit " any_is_na, seq "), (lit " because"). split; [reflexivity|]. split; [reflexivity|].
  split; [vm_compute; intuition discriminate|]. exists (lit " any_is_na,"), (lit " "), (lit " "), []. split; [reflexivity|].
  split; [reflexivity|]. split; [reflexivity|]. split; [right; exists (lit " any_is_na"); reflexivity|now left].
Qed.
Example C102_chunk_concrete : exists te, ignore_chunk_action commented_rmd (rule_name R_AnyIsNa) 32 = ROk (Some te).
Proof. eexists. vm_compute. reflexivity. Qed.
