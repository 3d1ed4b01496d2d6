(** C08-C13, C26, C27, C42-C47: suppression comments. *)
From Coq Require Import Sorted.
From Verif Require Import Model.Text Model.Base Model.Rules Model.Directive Model.Driver Model.Suppress
  Model.Document Model.SuppressEdit Spec.DirectiveSpec Spec.SuppressSpec Spec.DocumentSpec Spec.SuppressEditSpec
  Proofs.TextProofs Proofs.DirectiveProofs Proofs.SuppressProofs Proofs.SuppressFilter Proofs.SuppressMain
  Proofs.SuppressOrder Proofs.SuppressWitness Proofs.DocumentProofs Proofs.SuppressEditProofs.
Import ListNotations.

(** ** C08: the grammar of directives.  A comment is a valid directive for [r] iff it has the
    documented shape, with a non-blank reason except for [jarl-ignore-end]. *)
Theorem C08_valid_iff_grammar : forall t k r, parse_comment_directive t = Some (PValid (Dir k r)) <->
  exists arg, directive_text k arg t /\ (if match k with KEnd => true | _ => false end then rule_only r arg else rule_and_reason r arg).
Proof. exact parse_valid. Qed.
Print Assumptions C08_valid_iff_grammar.
Theorem C08_unexplained_iff_grammar : forall t, parse_comment_directive t = Some PMissing <->
  exists k r arg, k <> KEnd /\ directive_text k arg t /\ rule_no_reason r arg.
Proof. exact parse_missing. Qed.
Print Assumptions C08_unexplained_iff_grammar.
Theorem C08_misnamed_iff_grammar : forall t, parse_comment_directive t = Some PMisnamed <->
  exists k arg, directive_text k arg t /\ unknown_rule arg.
Proof. exact parse_misnamed. Qed.
Print Assumptions C08_misnamed_iff_grammar.
Theorem C08_blanket_iff_grammar : forall t, parse_comment_directive t = Some PBlanket <-> blanket_text t.
Proof. exact parse_blanket. Qed.
Print Assumptions C08_blanket_iff_grammar.
(** C08: Quarto arrays. *)
Theorem C08_array_header_iff_grammar : forall t, is_array_header t = true <-> header_text t.
Proof. exact header_iff. Qed.
Print Assumptions C08_array_header_iff_grammar.
Example C08_hypotheses_met :
  parse_comment_directive (lit "  #jarl-ignore-start  any_is_na : why: not") = Some (PValid (Dir KStart R_AnyIsNa)) /\
  parse_comment_directive (lit "#| jarl-ignore-chunk any_is_na: x") = Some (PValid (Dir KChunk R_AnyIsNa)) /\
  parse_comment_directive (lit "# jarl-ignore-end any_is_na") = Some (PValid (Dir KEnd R_AnyIsNa)) /\
  parse_comment_directive (lit "# jarl-ignore any_is_na:  ") = Some PMissing /\
  parse_comment_directive (lit "# jarl-ignore any_isna: x") = Some PMisnamed /\
  parse_comment_directive (lit "# jarl-ignore: x") = Some PBlanket /\
  parse_comment_directive (lit "# jarl-ignored x: y") = None /\
  is_array_header (lit " #| jarl-ignore-chunk: ") = true.
Proof. vm_compute. repeat split; reflexivity. Qed.

(** ** C09: what is reported after filtering is, in order, what no comment covers. *)
Theorem C09_suppression_exact : forall src n m, in_source src n -> from_node n src = Some m ->
  forall ds m' out, filter_diagnostics m ds = (m', out) ->
  exists keep, (forall d, keep d = true <-> ~ covered (visits src n true 0) d) /\ out = filter keep ds.
Proof. exact filter_exact. Qed.
Print Assumptions C09_suppression_exact.

(** ** C10: the comments reported as outdated are those that got no credit for any diagnostic. *)
Theorem C10_outdated_exact : forall src n m, in_source src n -> from_node n src = Some m ->
  forall ds m' out c, filter_diagnostics m ds = (m', out) ->
  (In c (get_unused m') <-> in_effect m c /\ forall d, In d ds -> ~ credited m d c).
Proof. exact outdated_exact. Qed.
Print Assumptions C10_outdated_exact.
Theorem C10_useless_reported : forall src n m, in_source src n -> from_node n src = Some m ->
  forall ds m' out c, filter_diagnostics m ds = (m', out) -> in_effect m c ->
  (forall d v, In d ds -> v_range v = c -> ~ covers (visits src n true 0) d v) -> In c (get_unused m').
Proof. exact outdated_useless. Qed.
Print Assumptions C10_useless_reported.
Theorem C10_needed_not_reported : forall src n m, in_source src n -> from_node n src = Some m ->
  forall ds m' out d v, filter_diagnostics m ds = (m', out) -> In d ds -> covers (visits src n true 0) d v ->
  (forall v', covers (visits src n true 0) d v' -> v_range v' = v_range v) -> ~ In (v_range v) (get_unused m').
Proof. exact outdated_needed. Qed.
Print Assumptions C10_needed_not_reported.
(** Dropping all suppressions reported as outdated brings no diagnostic back. *)
Theorem C10_outdated_can_be_removed : forall src n m, in_source src n -> from_node n src = Some m ->
  forall ds m' out, filter_diagnostics m ds = (m', out) ->
  snd (filter_diagnostics (without (get_unused m') m) ds) = out.
Proof. exact outdated_removable. Qed.
Print Assumptions C10_outdated_can_be_removed.

(** ** C11: regions. *)
Theorem C11_regions_exact : forall src n m, in_source src n -> from_node n src = Some m ->
  forall x, In x (m_regions m) <->
    exists r s e, region (visits src n true 0) r s e /\ x = RSup (region_range s e) r (v_range s).
Proof. exact regions_exact. Qed.
Print Assumptions C11_regions_exact.
Theorem C11_start_without_end_reported : forall src n m, in_source src n -> from_node n src = Some m ->
  forall c, In c (m_unmatched_start m) <->
    exists r level s, opened (visits src n true 0) r level s /\ v_range s = c.
Proof. exact unmatched_start_exact. Qed.
Print Assumptions C11_start_without_end_reported.
Theorem C11_end_without_start_reported : forall src n m, in_source src n -> from_node n src = Some m ->
  forall c, In c (m_unmatched_end m) <->
    exists r e l1 l2, visits src n true 0 = l1 ++ e :: l2 /\ says e KEnd r /\ v_range e = c /\
      forall s, ~ opened l1 r (v_level e) s.
Proof. exact unmatched_end_exact. Qed.
Print Assumptions C11_end_without_start_reported.
(** In source order the end comment of a region comes after its start comment, if no start or end
    comment trails an expression. *)
Theorem C11_end_after_start_partial : forall src n r s e, in_order n -> brackets_lead n ->
  region (visits src n true 0) r s e ->
  snd (v_range s) <= fst (v_range e) /\ fst (v_range s) <= snd (v_range s) /\ fst (v_range e) <= snd (v_range e).
Proof. exact region_in_order. Qed.
Print Assumptions C11_end_after_start_partial.
(** C11: "next" is next in the order of the traversal: a start comment inside a call followed by an
    end comment at the end of the file, all at the top brace level, do not match. *)
Theorem C11_source_order_refuted : exists src n m r a b l, in_source src n /\ in_order n /\ from_node n src = Some m /\
  source_order n = a :: b :: l /\
  parse_comment_directive (c_text a) = Some (PValid (Dir KStart r)) /\
  parse_comment_directive (c_text b) = Some (PValid (Dir KEnd r)) /\
  (forall v, In v (visits src n true 0) -> v_level v = 0 /\ exists top, v_role v = Plain top) /\
  m_regions m = [] /\ In (c_range a) (m_unmatched_start m) /\ In (c_range b) (m_unmatched_end m).
Proof. exact source_order_refuted. Qed.
Print Assumptions C11_source_order_refuted.

(** ** C12: every directive is reported, in effect, closes a region or heads a list of items,
    unless another start comment of the same rule follows before the end comment. *)
Theorem C12_directives_accounted_partial : forall src n m, in_source src n -> from_node n src = Some m ->
  forall v, In v (visits src n true 0) -> directive_comment v -> ~ overwritten (visits src n true 0) v ->
  reported m (v_range v) \/ in_effect m (v_range v) \/ closes (visits src n true 0) v \/ heads_items v.
Proof. exact accounted. Qed.
Print Assumptions C12_directives_accounted_partial.
Theorem C12_duplicate_start_refuted : exists src n m v,
  in_source src n /\ in_order n /\ brackets_lead n /\ from_node n src = Some m /\
  In v (visits src n true 0) /\ directive_comment v /\
  ~ reported m (v_range v) /\ ~ in_effect m (v_range v) /\ ~ closes (visits src n true 0) v /\ ~ heads_items v.
Proof. exact duplicate_start_lost. Qed.
Print Assumptions C12_duplicate_start_refuted.
(** Each kind of problem is reported under its rule when that rule is enabled, unless a comment
    suppresses the report itself. *)
Theorem C12_problems_reported : forall src n m enabled exprs unreachable dups unused c r,
  in_source src n -> from_node n src = Some m -> problem m c r -> enabled r = true ->
  In (about_comment r c) (check_document enabled m exprs unreachable dups unused) \/
  covered (visits src n true 0) (about_comment r c).
Proof. exact problem_reported. Qed.
Print Assumptions C12_problems_reported.

(** ** C13: the fast path. *)
Theorem C13_fast_path_same : forall src n, in_source src n -> from_node n src = from_node_slow n src.
Proof. exact fast_path_ok. Qed.
Print Assumptions C13_fast_path_same.

(** A file with a file-level suppression, a region and an annotated expression meets the
    hypotheses; the last diagnostic survives. *)
Example C09_C13_hypotheses_met :
  in_source file1 tree1 /\ in_order tree1 /\ brackets_lead tree1 /\
  exists m, from_node tree1 file1 = Some m /\
    snd (filter_diagnostics m diags1) = [diag_at R_AnyIsNa (p6 ++ lit "T" ++ [nl]) (lit "any(is.na(z))")] /\
    get_unused (fst (filter_diagnostics m diags1)) = [] /\ length (m_regions m) = 1 /\ length (m_files m) = 1 /\ length (m_nodes m) = 1.
Proof.
  split; [exact tree1_source|]. split; [apply tree1_order|]. split; [apply tree1_order|].
  eexists. split; [vm_compute; reflexivity|]. vm_compute. repeat split; reflexivity.
Qed.

(** ** C42: suppression comments and crashes.  Reading the comments panics exactly when a region
    would end before it starts. *)
Theorem C42_crash_exactly_on_inverted_region : forall src n, in_source src n ->
  (from_node n src = None <-> exists r s e, region (visits src n true 0) r s e /\ snd (v_range e) < fst (v_range s)).
Proof. exact from_node_none. Qed.
Print Assumptions C42_crash_exactly_on_inverted_region.
Theorem C42_no_crash_partial : forall src n, in_source src n -> in_order n -> brackets_lead n -> from_node n src <> None.
Proof. exact no_crash. Qed.
Print Assumptions C42_no_crash_partial.
(** An end comment inside a call and a start comment as last line of the file. *)
Theorem C42_trailing_start_crashes_refuted : exists src n, in_source src n /\ in_order n /\ from_node n src = None.
Proof. exact trailing_start_crashes. Qed.
Print Assumptions C42_trailing_start_crashes_refuted.

(** ** C43: a file-level suppression counts only before any code. *)
Theorem C43_file_suppressions_at_top : forall src n m, in_source src n -> from_node n src = Some m ->
  forall d, (exists v r, In v (visits src n true 0) /\ says v KFile r /\ v_role v = Plain true /\ d_rule d = rule_name r) ->
  forall ds m' out, filter_diagnostics m ds = (m', out) -> ~ In d out.
Proof.
  intros src n m Hs Hm d (v & r & Hv & Hsay & Hr & Hd) ds m' out Hf Hin.
  destruct (filter_exact src n m Hs Hm ds m' out Hf) as (keep & Hk & ->).
  apply filter_In in Hin. destruct Hin as (_ & Hin). apply Hk in Hin. apply Hin. exists v. eapply by_file; eauto.
Qed.
Print Assumptions C43_file_suppressions_at_top.
Theorem C43_file_suppression_after_code_refuted : exists src n m a b s,
  in_source src n /\ from_node n src = Some m /\ In s (m_files m) /\
  src = a ++ b /\ blen a = fst (w_comment s) /\ ~ no_code a.
Proof. exact file_after_code_refuted. Qed.
Print Assumptions C43_file_suppression_after_code_refuted.

(** ** C44: the document-level result, and outdated suppressions of rules that were not run. *)
Theorem C44_document_exact : forall src n m enabled exprs unreachable dups unused,
  in_source src n -> from_node n src = Some m ->
  exists keep m', (forall d, keep d = true <-> ~ covered (visits src n true 0) d) /\
    check_document enabled m exprs unreachable dups unused =
      filter keep (document_diags enabled m exprs unreachable dups unused)
      ++ (if enabled R_OutdatedSuppression then map (about_comment R_OutdatedSuppression) (get_unused m') else []) /\
    forall c, In c (get_unused m') <-> in_effect m c /\
      forall d, In d (document_diags enabled m exprs unreachable dups unused) -> ~ credited m d c.
Proof. exact document_exact. Qed.
Print Assumptions C44_document_exact.
Theorem C44_outdated_for_disabled_rule_refuted : exists src n m lint enabled c,
  in_source src n /\ from_node n src = Some m /\
  (forall r d, In d (lint r) -> d_rule d = rule_name r) /\
  In (about_comment R_OutdatedSuppression c) (check_document enabled m (lints_of lint enabled) [] [] []) /\
  ~ In (about_comment R_OutdatedSuppression c) (check_document (fun _ => true) m (lints_of lint (fun _ => true)) [] [] []) /\
  (exists d, In d (check_document (fun _ => true) (without [c] m) (lints_of lint (fun _ => true)) [] [] []) /\ In d (lint R_AnyIsNa)).
Proof. exact outdated_disabled_refuted. Qed.
Print Assumptions C44_outdated_for_disabled_rule_refuted.

(** ** C45: forgetting the rule name. *)
Theorem C45_blanket_reported_partial : forall k w tail, k = KIgnore \/ k = KChunk -> blank w ->
  tail = [] \/ (exists x, tail = lit ":" ++ x) \/ (exists x, tail = lit " :" ++ x) ->
  parse_comment_directive (w ++ lit "# " ++ keyword k ++ tail) = Some PBlanket.
Proof. exact forgotten_rule_blanket. Qed.
Print Assumptions C45_blanket_reported_partial.
Theorem C45_file_start_end_silent_refuted : forall k, k = KFile \/ k = KStart \/ k = KEnd ->
  parse_comment_directive (lit "# " ++ keyword k) = None /\
  parse_comment_directive (lit "# " ++ keyword k ++ lit ": a reason") = None.
Proof. exact forgotten_rule_refuted. Qed.
Print Assumptions C45_file_start_end_silent_refuted.

(** ** C26: --add-jarl-ignore only inserts blocks of comments: one block per place, in it one
    comment for each requested rule. *)
Theorem C26_only_insertions : forall reason es t out, add_comments reason es t = Some out ->
  exists gs, woven 0 (map (block reason) gs) t out /\
    StronglySorted (fun g h => g_offset g < g_offset h) gs /\
    (forall o r, (exists g, In g gs /\ g_offset g = o /\ In r (g_rules g)) <-> exists e, In e es /\ e_offset e = o /\ e_rule e = r) /\
    Forall (fun g => NoDup (g_rules g) /\ exists e, In e es /\ e_offset e = g_offset g /\ e_indent e = g_indent g /\ e_newline e = g_newline g) gs.
Proof. exact add_comments_exact. Qed.
Print Assumptions C26_only_insertions.
Theorem C26_never_panics : forall reason es t, Forall (fun e => boundary t (e_offset e)) es ->
  exists out, add_comments reason es t = Some out.
Proof. exact add_comments_total. Qed.
Print Assumptions C26_never_panics.
Theorem C26_block_is_comment_lines : forall rules reason indent, ~ In nl reason -> ~ In nl indent ->
  split_incl (format_suppression_comments (map rule_name rules) reason indent false)
  = map (fun r => indent ++ lit "# jarl-ignore " ++ rule_name r ++ lit ": " ++ reason ++ [nl]) rules.
Proof. exact format_lines. Qed.
Print Assumptions C26_block_is_comment_lines.
Example C26_hypotheses_met :
  let es := [Edit 9 [] false (lit "any_is_na"); Edit 0 [] false (lit "any_is_na"); Edit 9 [] false (lit "equals_na")] in
  let t := lit "foo(bar) " ++ lit "x" in
  Forall (fun e => boundary t (e_offset e)) es /\
  add_comments (lit "ok") es t = Some (lit "# jarl-ignore any_is_na: ok" ++ [nl] ++ lit "foo(bar) " ++
    lit "# jarl-ignore any_is_na: ok" ++ [nl] ++ lit "# jarl-ignore equals_na: ok" ++ [nl] ++ lit "x").
Proof.
  cbv zeta. split; [|vm_compute; reflexivity].
  repeat constructor; [exists (lit "foo(bar) "), (lit "x")|exists [], (lit "foo(bar) x")|exists (lit "foo(bar) "), (lit "x")]; split; reflexivity.
Qed.

(** ** C27: jarl understands the comments it writes. *)
Theorem C27_comment_roundtrip : forall r reason, ~ blank reason ->
  parse_comment_directive (lit "# jarl-ignore " ++ rule_name r ++ lit ": " ++ reason) = Some (PValid (Dir KIgnore r)).
Proof. exact comment_roundtrip. Qed.
Print Assumptions C27_comment_roundtrip.
(** A blank reason is accepted on the command line but the comment is then "unexplained". *)
Theorem C27_blank_reason_refuted : exists r reason, ~ In nl reason /\ reason <> [] /\
  parse_comment_directive (lit "# jarl-ignore " ++ rule_name r ++ lit ": " ++ reason) = Some PMissing.
Proof. exact blank_reason_refuted. Qed.
Print Assumptions C27_blank_reason_refuted.
Example C27_hypotheses_met : ~ blank (lit "false positive: see #12").
Proof. unfold blank. vm_compute. discriminate. Qed.

(** ** C46: where a comment is inserted: above the line of an enclosing expression that starts its
    line, or on a new line in front of an enclosing expression; only if no enclosing expression
    qualifies, at the start of the diagnostic's line. *)
Theorem C46_insertion_point_placed : forall src chain diag_start, boundary src diag_start ->
  (forall ch, chain = Some ch -> Forall (fun a => boundary src (a_start a)) ch) ->
  exists pt, compute_insert_point src chain diag_start = Some pt /\
    placed src (match chain with Some ch => map a_start ch | None => [] end) diag_start pt /\
    boundary src (pt_offset pt) /\ blank (pt_indent pt) /\ ~ In nl (pt_indent pt).
Proof. exact insert_point_placed. Qed.
Print Assumptions C46_insertion_point_placed.
(** The start of the line can be inside a string that began on an earlier line. *)
Theorem C46_inside_string_refuted : exists src a b chain pt a' b',
  src = a ++ b /\ ~ in_string (lex_after a) /\
  Forall (fun x => boundary src (a_start x)) chain /\
  compute_insert_point src (Some chain) (blen a) = Some pt /\
  src = a' ++ b' /\ blen a' = pt_offset pt /\ in_string (lex_after a').
Proof. exact string_refuted. Qed.
Print Assumptions C46_inside_string_refuted.
