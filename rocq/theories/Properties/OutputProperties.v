(** C92–C94: what is printed can be read back.  Vocabulary in Spec/OutputSpec.v. *)
From Verif Require Import Model.Text Model.Base Model.Rules Model.Output Spec.OutputSpec.
From Verif Require Import Proofs.TextProofs Proofs.RulesProofs Proofs.OutputProofs Proofs.TerminalProofs.

(** ** C92 *)
(** GitHub reads the output as one command per diagnostic, in order, each an annotation with the rule,
    file, line, column and message of the diagnostic.  Missing: file names with commas, double colons,
    percent codes or line breaks and messages with percent codes or line breaks, where this is false. *)
Theorem C92_annotations_partial : forall ds, Forall fit_for_github ds ->
  exists cs, map github_reads (output_lines (print_github ds)) = map Some cs /\ Forall2 annotates cs ds.
Proof. exact github_output. Qed.
Print Assumptions C92_annotations_partial.
(** The file [R/a,b.R] is read as [R/a], and [R/50%25.R] as [R/50%.R]. *)
Theorem C92_file_name_refuted : exists d d' c c',
  p_file d = lit "R/a,b.R" /\ github_reads (github_line d) = Some c /\ property c (lit "file") = Some (lit "R/a") /\
  p_file d' = lit "R/50%25.R" /\ github_reads (github_line d') = Some c' /\ property c' (lit "file") = Some (lit "R/50%.R").
Proof.
  exists (mk_printed (lit "R/a,b.R") (lit "any_is_na") 4 4 (lit "`any(is.na(...))` is inefficient.") (Some (lit "Use `anyNA(...)` instead."))),
         (mk_printed (lit "R/50%25.R") (lit "any_is_na") 4 4 (lit "`any(is.na(...))` is inefficient.") (Some (lit "Use `anyNA(...)` instead."))).
  eexists _, _. split; [reflexivity|]. split; [vm_compute; reflexivity|]. split; [vm_compute; reflexivity|].
  split; [reflexivity|]. split; vm_compute; reflexivity.
Qed.
Print Assumptions C92_file_name_refuted.
(** The report of [list(`a%0A` = 1, `a%0A` = 2)] is shown with a line break in the name of the argument;
    that of an argument whose name contains a line break is cut there. *)
Theorem C92_message_refuted :
  (exists d c, p_rule d = lit "duplicated_arguments" /\ ~ In 10%N (says d) /\
     github_reads (github_line d) = Some c /\ In 10%N (cm_data c)) /\
  (exists d c, p_rule d = lit "duplicated_arguments" /\
     map github_reads (output_lines (print_github [d])) = [Some c; None] /\
     ~ occurs (says d) (cm_data c)).
Proof.
  split.
  - exists (mk_printed (lit "a.R") (lit "duplicated_arguments") 1 0
      (lit "Avoid duplicated arguments in function calls. Duplicated argument(s): " ++ [34%N] ++ lit "`a%0A`" ++ [34%N] ++ lit ".") None).
    eexists. split; [reflexivity|]. split; [vm_compute; intuition discriminate|]. split; [vm_compute; reflexivity|].
    cbn [cm_data]. repeat (try (left; reflexivity); right).
  - exists (mk_printed (lit "a.R") (lit "duplicated_arguments") 1 0
      (lit "Avoid duplicated arguments in function calls. Duplicated argument(s): " ++ [34%N] ++ lit "`a" ++ [nl] ++ lit "`" ++ [34%N] ++ lit ".") None).
    eexists. split; [reflexivity|]. split; [vm_compute; reflexivity|]. apply not_occurs. vm_compute. reflexivity.
Qed.
Print Assumptions C92_message_refuted.
Example C92_hypotheses_met :
  let d := mk_printed (lit "demos/foo.R") (lit "coalesce") 4 4 (lit "This can be simplified.") (Some (lit "Use `x %||% y` instead.")) in
  fit_for_github d /\
  github_line d = lit "::warning title=Jarl (coalesce),file=demos/foo.R,line=4,col=5::demos/foo.R:4:5 [coalesce] This can be simplified. Use `x %||% y` instead.".
Proof.
  cbv zeta. split; [|vm_compute; reflexivity].
  assert (P : forall s t, contains_text s t = false -> ~ occurs s t) by exact not_occurs.
  split; [vm_compute; intuition discriminate|]. split.
  { intros s I. apply P. cbn [map fst property_codes In] in I. repeat (destruct I as [<-|I]; [vm_compute; reflexivity|]). destruct I. }
  split; [vm_compute; intuition discriminate|]. split; [apply P; vm_compute; reflexivity|].
  split; [vm_compute; intuition discriminate|]. split.
  { intros s I. apply P. cbn [map fst data_codes In] in I. repeat (destruct I as [<-|I]; [vm_compute; reflexivity|]). destruct I. }
  exists R_Coalesce. reflexivity.
Qed.

(** ** C93 *)
(** The concise format prints one line per diagnostic, in order. *)
Theorem C93_one_line_each_partial : forall relative no_color ds,
  (forall d, In d ds -> one_line (relative (p_file d)) /\ one_line (says d) /\ exists r, p_rule d = rule_name r) ->
  output_lines (print_concise relative no_color ds) = map (concise_line relative no_color) ds.
Proof.
  intros relative nc ds H. apply output_lines_map. intros d I. destruct (H d I) as (A & M & r & R). now apply (concise_one _ _ _ r).
Qed.
Print Assumptions C93_one_line_each_partial.
(** What a line says. *)
Theorem C93_line : forall relative d, concise_line relative true d =
  relative (p_file d) ++ lit " [" ++ decimal (p_row d) ++ lit ":" ++ decimal (p_col d + 1) ++ lit "] " ++ p_rule d ++ lit " " ++ says d.
Proof. intros. unfold concise_line. now rewrite message_says. Qed.
Print Assumptions C93_line.
(** A line tells which file, row, column, rule and message it is about.  Missing: paths that contain a space
    followed by an opening bracket. *)
Theorem C93_unambiguous_partial : forall relative no_color d d' r r',
  p_rule d = rule_name r -> p_rule d' = rule_name r' ->
  ~ occurs (lit " [") (relative (p_file d)) -> ~ occurs (lit " [") (relative (p_file d')) ->
  concise_line relative no_color d = concise_line relative no_color d' ->
  relative (p_file d) = relative (p_file d') /\ p_row d = p_row d' /\ p_col d = p_col d' /\
  p_rule d = p_rule d' /\ says d = says d'.
Proof. intros relative nc d d' r r' R R' A A'. now apply (concise_inj relative nc d d' r r'). Qed.
Print Assumptions C93_unambiguous_partial.
(** An argument name with a line break makes two lines of one report. *)
Theorem C93_line_break_refuted : exists d, p_rule d = lit "duplicated_arguments" /\
  length (output_lines (print_concise (fun f => f) true [d])) = 2.
Proof.
  exists (mk_printed (lit "a.R") (lit "duplicated_arguments") 1 0
      (lit "Avoid duplicated arguments in function calls. Duplicated argument(s): " ++ [34%N] ++ lit "`a" ++ [nl] ++ lit "`" ++ [34%N] ++ lit ".") None).
  split; [reflexivity|]. vm_compute. reflexivity.
Qed.
Print Assumptions C93_line_break_refuted.
Example C93_example : concise_line (fun f => f) true
    (mk_printed (lit "R/a.R") (lit "coalesce") 12 0 (lit "This can be simplified.") None) = lit "R/a.R [12:1] coalesce This can be simplified." /\
  ~ occurs (lit " [") (lit "R/a.R").
Proof. split; [vm_compute; reflexivity|]. apply not_occurs. vm_compute. reflexivity. Qed.

(** ** C94 *)
(** The summary tells the numbers it was made from (C52 says which they are), and says that all checks
    passed exactly when there is nothing to report. *)
Theorem C94_summary_tells_the_counts : forall hint e t s u t' s' u', 0 < t ->
  summary_lines hint e (t, s, u) = summary_lines hint e (t', s', u') -> t = t' /\ s = s' /\ u = u'.
Proof. exact summary_inj. Qed.
Print Assumptions C94_summary_tells_the_counts.
Theorem C94_all_checks_passed : forall hint e t s u,
  In (lit "All checks passed!") (summary_lines hint e (t, s, u)) <-> t = 0 /\ e = false.
Proof. exact all_checks_passed. Qed.
Print Assumptions C94_all_checks_passed.
Theorem C94_statistics_line : forall e e', statistics_line e = statistics_line e' -> e = e'.
Proof. exact statistics_inj. Qed.
Print Assumptions C94_statistics_line.
Example C94_example :
  skipn 2 (summary_lines 15 false (17, 3, 2)) =
    [lit "Found 17 errors."; lit "3 fixable with the `--fix` option (2 hidden fixes can be enabled with the `--unsafe-fixes` option).";
     lit "More than 15 errors reported, use `--statistics` to get the count by rule."] /\
  skipn 2 (summary_lines 15 true (1, 0, 1)) = [lit "Found 1 error."; lit "1 fix is available with the `--fix --unsafe-fixes` option."] /\
  statistics_line (lit "any_is_na", (12, true)) = lit "   12 [*] any_is_na".
Proof. repeat split; vm_compute; reflexivity. Qed.

(** The sections are announced by their title between horizontal lines. *)
Theorem C94_header : forall title, header_of title (section_header title).
Proof. exact header_shape. Qed.
Print Assumptions C94_header.
(** All headers of plain titles have the same width, *)
Theorem C94_header_width : forall title, Forall (fun c => (c < 128)%N) title -> length title <= 43 ->
  length (section_header title) = 49.
Proof. exact header_width. Qed.
Print Assumptions C94_header_width.
(** but not the 57 characters that are documented. *)
Theorem C94_header_width_refuted : length (section_header (lit "Summary")) <> 57.
Proof. vm_compute. discriminate. Qed.
Print Assumptions C94_header_width_refuted.

(** ** C98 *)
(** With links, a terminal shows the name of the rule as a link to its page and nothing else as a link. *)
Theorem C98_links_partial : forall relative d r, p_rule d = rule_name r ->
  no_escape (relative (p_file d)) -> no_escape (says d) ->
  on_screen (concise_line relative false d) =
    linked None (relative (p_file d) ++ lit " [" ++ decimal (p_row d) ++ lit ":" ++ decimal (p_col d + 1) ++ lit "] ") ++
    linked (Some (rule_page (p_rule d))) (p_rule d) ++ linked None (lit " " ++ says d).
Proof. intros. eapply concise_linked; eauto. Qed.
Print Assumptions C98_links_partial.
(** The characters shown are those printed when NO_COLOR is set, which contain no link. *)
Theorem C98_same_characters_partial : forall relative d r, p_rule d = rule_name r ->
  no_escape (relative (p_file d)) -> no_escape (says d) ->
  map fst (on_screen (concise_line relative false d)) = concise_line relative true d /\
  on_screen (concise_line relative true d) = linked None (concise_line relative true d).
Proof. intros relative d r R F M. split; [eapply concise_same; eauto|eapply concise_unlinked; eauto]. Qed.
Print Assumptions C98_same_characters_partial.
(** Escape characters in a name are passed on to the terminal: the file name below makes the rest of the
    line a link, even with NO_COLOR. *)
Theorem C98_escape_refuted : exists d r, p_rule d = rule_name r /\
  on_screen (concise_line (fun f => f) true d) <> linked None (concise_line (fun f => f) true d) /\
  exists c, In (c, Some (lit "http://example.org")) (on_screen (concise_line (fun f => f) true d)).
Proof.
  exists (mk_printed (esc ++ lit "]8;;http://example.org" ++ esc ++ lit "\a.R") (lit "any_is_na") 1 0 (lit "b") None), R_AnyIsNa.
  split; [reflexivity|]. split; [vm_compute; discriminate|]. exists 97%N. vm_compute. left. reflexivity.
Qed.
Print Assumptions C98_escape_refuted.
Example C98_hypotheses_met : let d := mk_printed (lit "R/a.R") (lit "coalesce") 12 0 (lit "This can be simplified.") None in
  no_escape (p_file d) /\ no_escape (says d) /\ p_rule d = rule_name R_Coalesce /\
  nth 14 (on_screen (concise_line (fun f => f) false d)) (0%N, None) = (111%N, Some (lit "https://jarl.etiennebacher.com/rules/coalesce")).
Proof. unfold no_escape. split; [vm_compute; intuition discriminate|]. split; [vm_compute; intuition discriminate|]. split; vm_compute; reflexivity. Qed.
