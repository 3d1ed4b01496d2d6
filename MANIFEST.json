{
 "claims": [
  {
   "property": "C01",
   "status": "partial",
   "theorems": [
    "C01_fix_splice_partial",
    "C01_no_panic_partial",
    "C01_ascii_neutral",
    "C01_fix_splice_refuted",
    "C01_fix_splice_nonascii_refuted",
    "C01_no_panic_refuted"
   ],
   "note": "Proved for ordered, disjoint, byte-neutral fixes; refuted in general: nested fixes are both applied after cumulative shrinking (fix.rs:62 double-counts the shift) and char counts are mixed with byte offsets (fix.rs:35,61)."
  },
  {
   "property": "C02",
   "status": "partial",
   "theorems": [
    "C02_no_overlap_refuted",
    "C02_first_fix_wins_partial"
   ],
   "note": "Refuted: `NA != .5` is rewritten to `!is.na(.0.5`. Positive: a first fix that does not lengthen the text excludes all fixes starting inside it."
  },
  {
   "property": "C03",
   "status": "partial",
   "theorems": [
    "C03_complete_and_progress_partial"
   ],
   "note": "Proved under the same conditions as C01."
  },
  {
   "property": "C04",
   "status": "partial",
   "theorems": [
    "C04_reports_final_content",
    "C04_only_its_file",
    "C04_terminates_partial"
   ],
   "note": "Proved for every linter and number of passes; termination only under a decreasing measure."
  },
  {
   "property": "C05",
   "status": "proved",
   "theorems": [
    "C05_readonly",
    "C05_nothing_to_fix"
   ],
   "note": ""
  },
  {
   "property": "C06",
   "status": "partial",
   "theorems": [
    "C06_gate",
    "C06_whole_command_refuted"
   ],
   "note": "The gate of one check call is exact; the whole command (one call per configuration group) is refuted: fixing the first group makes the repository dirty for the second."
  },
  {
   "property": "C07",
   "status": "partial",
   "theorems": [
    "C07_row_col_partial",
    "C07_row_col_in_body_partial",
    "C07_first_line_empty_refuted",
    "C07_trailing_comment_refuted"
   ],
   "note": "Proved for every text, excluding positions on a newline and texts whose only newline before the position is the first byte. Refuted: that last case gives a wrong column; in an R file, positions after the last expression (trailing comments) get a wrong row because the newlines of the expression list only are counted."
  },
  {
   "property": "C08",
   "status": "proved",
   "theorems": [
    "C08_valid_iff_grammar",
    "C08_unexplained_iff_grammar",
    "C08_misnamed_iff_grammar",
    "C08_blanket_iff_grammar",
    "C08_array_header_iff_grammar"
   ],
   "note": "Exact grammar for all five directive kinds, the four outcomes and the Quarto array header."
  },
  {
   "property": "C09",
   "status": "proved",
   "theorems": [
    "C09_suppression_exact"
   ],
   "note": ""
  },
  {
   "property": "C10",
   "status": "proved",
   "theorems": [
    "C10_outdated_exact",
    "C10_useless_reported",
    "C10_needed_not_reported",
    "C10_outdated_can_be_removed"
   ],
   "note": ""
  },
  {
   "property": "C11",
   "status": "partial",
   "theorems": [
    "C11_regions_exact",
    "C11_start_without_end_reported",
    "C11_end_without_start_reported",
    "C11_end_after_start_partial",
    "C11_source_order_refuted"
   ],
   "note": "Exact in traversal order. Traversal order is not source order: trailing comments of an enclosing expression are visited before comments inside it, so a start inside a call and an end after it (same brace level) do not match."
  },
  {
   "property": "C12",
   "status": "partial",
   "theorems": [
    "C12_directives_accounted_partial",
    "C12_duplicate_start_refuted",
    "C12_problems_reported"
   ],
   "note": "Proved except for a start comment overwritten by a second start comment of the same rule, which is silently lost."
  },
  {
   "property": "C13",
   "status": "proved",
   "theorems": [
    "C13_fast_path_same"
   ],
   "note": ""
  },
  {
   "property": "C14",
   "status": "partial",
   "theorems": [
    "C14_chunks_are_slices",
    "C14_chunks_disjoint_in_order",
    "C14_extraction_exact",
    "C14_other_engine_refuted"
   ],
   "note": "Extraction exact; refuted part: `{rust}`, `{ruby}` etc. are taken for R chunks (OPEN_FENCE has no word boundary after r)."
  },
  {
   "property": "C15",
   "status": "proved",
   "theorems": [
    "C15_rmd_exact",
    "C15_same_text_no_fix",
    "C15_later_file_comments_misplaced"
   ],
   "note": ""
  },
  {
   "property": "C16",
   "status": "proved",
   "theorems": [
    "C16_selection",
    "C16_unknown_is_error",
    "C16_known_is_accepted",
    "C16_order_irrelevant",
    "C16_no_duplicates"
   ],
   "note": ""
  },
  {
   "property": "C17",
   "status": "partial",
   "theorems": [
    "C17_safe_fixes_partial",
    "C17_other_modes",
    "C17_fix_only_refuted"
   ],
   "note": "Proved for --fix without --fix-only, and for the other modes. Refuted for --fix --fix-only: the filter on safe fixes is applied to `rules`, not to `rules_to_apply`, so unsafe fixes are applied."
  },
  {
   "property": "C18",
   "status": "proved",
   "theorems": [
    "C18_fixable",
    "C18_only_fix_dropped"
   ],
   "note": ""
  },
  {
   "property": "C19",
   "status": "proved",
   "theorems": [
    "C19_min_version",
    "C19_project_version",
    "C19_monotone",
    "C19_version_string"
   ],
   "note": ""
  },
  {
   "property": "C20",
   "status": "proved",
   "theorems": [
    "C20_names",
    "C20_groups"
   ],
   "note": ""
  },
  {
   "property": "C21",
   "status": "proved",
   "theorems": [
    "C21_reported_iff_defined_earlier",
    "C21_message_names_the_first",
    "C21_order_independent",
    "C21_files_are_distinct"
   ],
   "note": "Exact characterization of the reports and of the definition named by each, independent of file and package order, for distinct files; distinctness proved from the file collection when no package lies inside the R directory of another."
  },
  {
   "property": "C22",
   "status": "partial",
   "theorems": [
    "C22_no_reference_missed_partial",
    "C22_whole_package_searched_partial",
    "C22_accented_name_refuted",
    "C22_multiline_export_refuted",
    "C22_other_area_refuted",
    "C22_nested_package_refuted"
   ],
   "note": "Proved for ASCII names: a reported function is not referenced in its own area, and for R/ not mentioned elsewhere, not exported on one line, not a hook, not skipped. Refuted for non-ASCII names, multi-line NAMESPACE directives, test helpers used in another area, and packages nested below tests/ of another package (exported function reported). C22_whole_package_searched_partial starts from the files on disk (one package per run)."
  },
  {
   "property": "C23",
   "status": "partial",
   "theorems": [
    "C23_unreachable_never_executes_partial",
    "C23_unreachable_top_level_never_executes_partial",
    "C23_bare_return_refuted",
    "C23_search_exact"
   ],
   "note": "Proved for every body without a bare `return` word (no parentheses), for which it is false: such a word is a variable lookup in R but treated as a return (builder.rs:242)."
  },
  {
   "property": "C24",
   "status": "partial",
   "theorems": [
    "C24_exit_status_partial",
    "C24_exit_number_partial",
    "C24_group_error",
    "C24_invalid_configuration",
    "C24_statistics_refuted",
    "C24_add_ignore_refuted",
    "C24_add_ignore_exit",
    "C24_missing_input_refuted"
   ],
   "note": "Proved when neither --statistics nor --add-jarl-ignore is given and the walk met no error. Refuted otherwise: with --statistics or --add-jarl-ignore a file that fails is not reflected in the exit code, and a nonexistent input (an error of the walk) gives 0. The linter and the walk's entries are inputs of the model. With --add-jarl-ignore the code is 0, or 255 exactly when the reason contains a line break (C24_add_ignore_exit)."
  },
  {
   "property": "C25",
   "status": "partial",
   "theorems": [
    "C25_nearest_configuration",
    "C25_groups_partition",
    "C25_once_partial",
    "C25_overlapping_inputs_refuted"
   ],
   "note": "Nearest configuration and partition proved for all trees and inputs (PathResolver of Air assumed to return the longest prefix; files inside the user's configuration directory excluded). 'Exactly once' proved for inputs none of which contains another; refuted for overlapping inputs (jarl check a a/b.R), where the file is linted and counted twice."
  },
  {
   "property": "C26",
   "status": "proved",
   "theorems": [
    "C26_line_break_rejected",
    "C26_accepted_reason",
    "C26_only_insertions",
    "C26_never_panics",
    "C26_block_is_comment_lines"
   ],
   "note": ""
  },
  {
   "property": "C27",
   "status": "partial",
   "theorems": [
    "C27_comment_roundtrip",
    "C27_blank_reason_refuted"
   ],
   "note": "Proved for non-blank reasons; --add-jarl-ignore accepts a blank reason, whose comment is unexplained."
  },
  {
   "property": "C28",
   "status": "proved",
   "theorems": [
    "C28_statistics_exact"
   ],
   "note": "Hash map iteration order is an arbitrary permutation."
  },
  {
   "property": "C29",
   "status": "partial",
   "theorems": [
    "C29_offset_has_its_position",
    "C29_round_trip",
    "C29_position_accepted_iff",
    "C29_utf8_accepted_iff_partial",
    "C29_no_panic",
    "C29_utf8_inside_character_refuted",
    "C29_utf8_clamping_refuted"
   ],
   "note": "Exact in UTF-16 and UTF-32, and round trip in all three encodings; refuted in UTF-8: a position inside a character is accepted (the edit then panics) and a position past the end of a line is refused instead of clamped. Lines end at \\n only."
  },
  {
   "property": "C30",
   "status": "partial",
   "theorems": [
    "C30_one_change",
    "C30_one_change_utf8",
    "C30_backward_changes_partial",
    "C30_result_unique",
    "C30_sequential_refuted",
    "C30_full_text_refuted"
   ],
   "note": "One ranged change: exact. Several: proved when sent from the end of the text to its beginning (what editors do for simultaneous edits); refuted in general, since all positions are resolved against the document before the notification (`a` then `b` typed gives `ba`), and a change without range (full text) is refused."
  },
  {
   "property": "C31",
   "status": "partial",
   "theorems": [
    "C31_other_documents_untouched",
    "C31_open_sets_text",
    "C31_known_after_open",
    "C31_unknown_after_close",
    "C31_never_opened_unknown",
    "C31_unknown_rejected",
    "C31_follows_the_editor_partial"
   ],
   "note": "Known documents and isolation: exact for every history. Text: equal to the editor's for every history of well-behaved notifications (see C30 for the others)."
  },
  {
   "property": "C32",
   "status": "proved",
   "theorems": [
    "C32_range_covers_text",
    "C32_ranges_ordered",
    "C32_quick_fix_edit",
    "C32_no_fix_no_edit",
    "C32_quick_fixes_offered",
    "C32_conversions_agree"
   ],
   "note": "Exact for ranges on character boundaries (all ranges of the linter)."
  },
  {
   "property": "C33",
   "status": "partial",
   "theorems": [
    "C33_file_pattern_iff",
    "C33_directory_pattern_iff_partial",
    "C33_directory_refuted",
    "C33_nested_pattern_never_matches",
    "C33_excluded_iff"
   ],
   "note": "File patterns: exact glob semantics on the file name. Directory patterns: exact, but the file name counts as a directory (refuted part). Patterns with an inner slash never match."
  },
  {
   "property": "C34",
   "status": "proved",
   "theorems": [
    "C34_negotiated_encoding"
   ],
   "note": "UTF-16 also when it is not in the list, as the protocol prescribes."
  },
  {
   "property": "C35",
   "status": "proved",
   "theorems": [
    "C35_schedule_independent",
    "C35_outcome_unique",
    "C35_run_without_fixes"
   ],
   "note": ""
  },
  {
   "property": "C36",
   "status": "partial",
   "theorems": [
    "C36_fix_only_refuted",
    "C36_fixing_mode_partial"
   ],
   "note": "The claim is false: --fix-only alone does not fix anything. Proved instead: fixing mode is exactly --fix or --unsafe-fixes, and --fix-only drops exactly the rules without a fix."
  },
  {
   "property": "C37",
   "status": "proved",
   "theorems": [
    "C37_description_version"
   ],
   "note": ""
  },
  {
   "property": "C38",
   "status": "partial",
   "theorems": [
    "C38_description_panic_refuted",
    "C38_no_panic_partial"
   ],
   "note": "Refuted by `Depends: R (>=)`, which panics. Proved: no panic when each dependency on R has the form `R (>= v)`."
  },
  {
   "property": "C39",
   "status": "proved",
   "theorems": [
    "C39_rule_options"
   ],
   "note": ""
  },
  {
   "property": "C40",
   "status": "proved",
   "theorems": [
    "C40_code_after_exit_is_reported"
   ],
   "note": ""
  },
  {
   "property": "C41",
   "status": "partial",
   "theorems": [
    "C41_reason_of_dead_branch_refuted",
    "C41_mentioned_statement_exists_partial",
    "C41_mentioned_statement_exists_top_level_partial",
    "C41_report_follows_its_cause_partial",
    "C41_report_follows_its_cause_top_level_partial",
    "C41_after_leaving_if_partial",
    "C41_before_the_next_refuted",
    "C41_never_executed_branch_refuted",
    "C41_terminating_if_refuted"
   ],
   "note": "Proved: where no if has a constant condition, every report begins with the statement right after the one its message mentions, in the same braces (functions and top level); in general the mentioned statement exists. Refuted: with a constant condition the message may mention a next that comes later (C41_before_the_next_refuted), and a dead branch whose sibling returns is reported as following a terminating if/else; without constant condition, code after an if/else whose branches end in break/next, or contain a loop, is said to be in a branch that is never executed."
  },
  {
   "property": "C42",
   "status": "partial",
   "theorems": [
    "C42_crash_exactly_on_inverted_region",
    "C42_no_crash_partial",
    "C42_trailing_start_crashes_refuted"
   ],
   "note": "Exact condition for the panic (TextRange::new with end before start), reachable: an end comment inside a call and a start comment at the end of the file."
  },
  {
   "property": "C43",
   "status": "partial",
   "theorems": [
    "C43_file_suppressions_at_top",
    "C43_file_suppression_after_code_refuted"
   ],
   "note": "Suppression effect proved; refuted: a jarl-ignore-file comment inside a leading `{` (after code) is in effect for the whole file."
  },
  {
   "property": "C44",
   "status": "partial",
   "theorems": [
    "C44_document_exact",
    "C44_outdated_for_disabled_rule_refuted"
   ],
   "note": "Document-level result exact; refuted: a needed suppression is reported outdated when its rule is not selected."
  },
  {
   "property": "C45",
   "status": "partial",
   "theorems": [
    "C45_blanket_reported_partial",
    "C45_file_start_end_silent_refuted"
   ],
   "note": "Proved for jarl-ignore and jarl-ignore-chunk; refuted for -file, -start and -end, which are silently ignored."
  },
  {
   "property": "C46",
   "status": "partial",
   "theorems": [
    "C46_insertion_point_placed",
    "C46_inside_string_refuted"
   ],
   "note": "Placement proved for every tree; refuted: `x <- \"a\\nb\"; T` gets its comment inside the string."
  },
  {
   "property": "C47",
   "status": "proved",
   "theorems": [
    "C47_rmd_comment_inside_chunk",
    "C47_rmd_comment_found"
   ],
   "note": ""
  },
  {
   "property": "C48",
   "status": "partial",
   "theorems": [
    "C48_refused_change_has_no_effect_partial",
    "C48_refused_changes_refuted"
   ],
   "note": "Proved for one change; refuted for several: an out-of-range later change leaves the text half edited with the old line table, and the next notification panics."
  },
  {
   "property": "C49",
   "status": "partial",
   "theorems": [
    "C49_same_as_command_line_partial",
    "C49_chunk_comment",
    "C49_rmd_inline_partial",
    "C49_utf16_column_refuted",
    "C49_rmd_line_refuted"
   ],
   "note": "Proved for comments on their own line (every encoding), for inline comments when the column is the same in bytes, and for the chunk comment. Refuted: inline comments after non-ASCII text in UTF-16 go inside a token; in Rmd files a comment on its own line goes to a line number relative to the chunk, i.e. to the wrong place of the document."
  },
  {
   "property": "C50",
   "status": "partial",
   "theorems": [
    "C50_only_unused_function_is_withheld",
    "C50_per_package_refuted"
   ],
   "note": "Proved with the threshold as the code defines it (total over the run, smallest threshold). Refuted per package: two packages each within their own threshold lose their diagnostics."
  },
  {
   "property": "C51",
   "status": "proved",
   "theorems": [
    "C51_report_order"
   ],
   "note": "For results with one entry per file (see C25 for overlapping inputs). The order of error messages may differ."
  },
  {
   "property": "C52",
   "status": "proved",
   "theorems": [
    "C52_summary_counts"
   ],
   "note": ""
  },
  {
   "property": "C53",
   "status": "partial",
   "theorems": [
    "C53_errors_reported_partial",
    "C53_github_refuted"
   ],
   "note": "Proved for the full, concise and json formats; refuted for github, which prints no error."
  },
  {
   "property": "C54",
   "status": "partial",
   "theorems": [
    "C54_editor_settings",
    "C54_command_line_settings_partial",
    "C54_command_line_settings_refuted"
   ],
   "note": "Editor: proved. Command line: proved when the file has a project configuration or the user's directory has none; refuted otherwise: the user's configuration is found and read but never applied to files outside that directory (given that PathResolver resolves by prefix)."
  },
  {
   "property": "C55",
   "status": "partial",
   "theorems": [
    "C55_area_from_package_partial",
    "C55_location_matters_refuted"
   ],
   "note": "Proved for packages stored outside directories called tests, src or inst; refuted for /src/pkg, where unused test helpers are not reported."
  },
  {
   "property": "C56",
   "status": "proved",
   "theorems": [
    "C56_unused_is_reported",
    "C56_order_independent"
   ],
   "note": "Completeness for ASCII names and distinct files; order independence for all names."
  },
  {
   "property": "C57",
   "status": "partial",
   "theorems": [
    "C57_checked_files",
    "C57_own_patterns_partial",
    "C57_nested_project_refuted",
    "C57_excluded_directory_refuted"
   ],
   "note": "Exact characterization of the files checked (given what the glob matcher does with plain patterns). Refuted as a claim about the configuration of the file: during the walk only the exclude patterns of the first configuration are applied, to all projects, and a directory pattern (dir/) in any other configuration has no effect. Partial: it holds with at most one configuration."
  },
  {
   "property": "C58",
   "status": "partial",
   "theorems": [
    "C58_comparison_negation_partial",
    "C58_comparison_negation_refuted"
   ],
   "note": "Refuted in general: `a + !(x > y)` changes value, `a == !(x > y)` becomes a syntax error, and a line break inside the parentheses splits the statement. Partial: harmless exactly where a comparison may stand (looser neighbours, no stray line break)."
  },
  {
   "property": "C59",
   "status": "partial",
   "theorems": [
    "C59_outer_negation_partial",
    "C59_outer_negation_refuted"
   ],
   "note": "Refuted: the unary operator is not checked (any(-x) becomes !all(x)) and the fix is not parenthesised (any(!x) + a). Partial: harmless for `!` and looser neighbours."
  },
  {
   "property": "C60",
   "status": "partial",
   "theorems": [
    "C60_redundant_ifelse_partial",
    "C60_redundant_ifelse_negated_partial",
    "C60_redundant_ifelse_refuted"
   ],
   "note": "Refuted: the bare condition is not parenthesised (-ifelse(x > y, TRUE, FALSE)), and a numeric condition changes type. Partial: logical condition, in a position where it may stand bare."
  },
  {
   "property": "C61",
   "status": "partial",
   "theorems": [
    "C61_any_is_na_partial",
    "C61_any_duplicated_partial",
    "C61_nested_calls_refuted"
   ],
   "note": "Refuted: `> 0` is not parenthesised, further arguments of any() are dropped, and other packages' any() is rewritten. Partial: the nested and the two piped forms with one argument."
  },
  {
   "property": "C62",
   "status": "partial",
   "theorems": [
    "C62_redundant_equals_partial",
    "C62_redundant_equals_refuted"
   ],
   "note": "Harmless in every position for logical operands; refuted for numeric ones (2 == TRUE is FALSE)."
  },
  {
   "property": "C63",
   "status": "partial",
   "theorems": [
    "C63_coalesce_partial",
    "C63_coalesce_statements",
    "C63_true_false_partial",
    "C63_coalesce_refuted",
    "C63_true_false_refuted"
   ],
   "note": "Refuted: the default is not parenthesised (x %||% a + y), x is evaluated once instead of twice, T <- 5 becomes TRUE <- 5 and for (T in x) becomes a syntax error. Partial otherwise."
  },
  {
   "property": "C64",
   "status": "partial",
   "theorems": [
    "C64_calls_are_one_expression",
    "C64_all_equal_partial",
    "C64_length_test_partial",
    "C64_repeat_partial",
    "C64_not_one_expression_refuted",
    "C64_for_variable_refuted"
   ],
   "note": "Proved for the fifteen rules whose fix is a call; refuted for any_duplicated, length_test, all_equal (isFALSE form) and repeat; partial versions for the last three. Refuted also for true_false_symbol on a loop variable: for (T in x) y is rewritten to for (TRUE in x) y, which is not R."
  },
  {
   "property": "C65",
   "status": "partial",
   "theorems": [
    "C65_documented_rewrites",
    "C65_grepv_false_refuted"
   ],
   "note": "Every documented form is proved to be rewritten as documented (Spec/RDocumented.v lists the forms). Refuted side: grep(p, x, value = FALSE), which the documentation does not show, is rewritten too."
  },
  {
   "property": "C66",
   "status": "partial",
   "theorems": [
    "C66_equals_to_arrow_partial",
    "C66_right_arrow_partial",
    "C66_arrow_to_equals_partial",
    "C66_assignment_refuted"
   ],
   "note": "Refuted: `a = b = c` becomes `a <- b = c`, `f(x <- 1)` becomes a named argument, `while (x <- y)` becomes a syntax error. Partial: harmless where the neighbouring operators allow it."
  },
  {
   "property": "C67",
   "status": "partial",
   "theorems": [
    "C67_unnecessary_nesting_partial",
    "C67_unnecessary_nesting_refuted"
   ],
   "note": "Refuted: with a missing outer condition and a FALSE inner one the original stops with an error and the rewritten program goes on. Partial: when the outer condition is TRUE or FALSE and neither is a string."
  },
  {
   "property": "C68",
   "status": "proved",
   "theorems": [
    "C68_if_always_true"
   ],
   "note": "Assumes |, &, ! on scalars have their usual meaning (plain_logic) and literals are decimal (numerals); literals so small that they round to zero count as nonzero."
  },
  {
   "property": "C69",
   "status": "partial",
   "theorems": [
    "C69_search_exact_partial",
    "C69_rules_independent",
    "C69_statements_independent",
    "C69_search_refuted"
   ],
   "note": "Exact description of what is searched; refuted: the function of a call and what [ ], [[ ]], $ and @ are applied to are skipped. unreachable_code is a parameter of this model (its own model is Model/Cfg.v)."
  },
  {
   "property": "C70",
   "status": "partial",
   "theorems": [
    "C70_refused_exactly",
    "C70_readable_refused_refuted"
   ],
   "note": "Exactly the code that makes a rule fail is characterised (six forms); refuted as stated: each form contains code R can read. Numeric literals are assumed to start like R's (numerals); unreachable_code is assumed not to fail."
  },
  {
   "property": "C71",
   "status": "partial",
   "theorems": [
    "C71_rules_exact",
    "C71_reported_exactly",
    "C71_loop_index_missed_refuted",
    "C71_loop_index_wrong_refuted",
    "C71_assignment_in_body_refuted"
   ],
   "note": "All 55 single-node checks have an exact characterisation (Spec/RFlagged.v); unreachable_code's is Model/Cfg's. Refuted against the documentation: for_loop_index misses operators and counts argument names, implicit_assignment reports a parenthesised body."
  },
  {
   "property": "C72",
   "status": "partial",
   "theorems": [
    "C72_choice_partial",
    "C72_full_call",
    "C72_ifelse_read",
    "C72_apply_read",
    "C72_do_call_read",
    "C72_expect_length_read",
    "C72_expect_s3_class_read",
    "C72_expect_type_read",
    "C72_download_refuted",
    "C72_gsub_refuted",
    "C72_ifelse_refuted",
    "C72_partial_name_refuted",
    "C72_sample_refuted"
   ],
   "note": "R's matching (exact, then partial names, then position) is specified in Spec/RArguments.v. Proved when no earlier formal is named, and for all calls with no more arguments than the rule takes (ifelse, apply, do.call, expect_length, expect_s3_class, expect_type); refuted for download.file, gsub, ifelse(test = x, ..), partial names and sample(size = 3, 1:10)."
  },
  {
   "property": "C73",
   "status": "partial",
   "theorems": [
    "C73_finishes_partial",
    "C73_finishes_refuted"
   ],
   "note": "Refuted: jarl check --fix --select ALL runs for ever on one line with two nested grepl calls that have fixed = f (each pass adds fixed = TRUE to the outer call and skips the inner fix). Partial: finishes when every fix is shorter than what it replaces."
  },
  {
   "property": "C74",
   "status": "partial",
   "theorems": [
    "C74_readable_partial",
    "C74_readable_refuted",
    "C74_comparison_refuted",
    "C74_offsets_refuted"
   ],
   "note": "Refuted with the default rules in three ways: no space next to a keyword, incompatible fixes (a > 0 != y), and fixes applied at wrong offsets because the shift is counted twice. Partial: if jarl reports no error then R can read the result."
  },
  {
   "property": "C75",
   "status": "partial",
   "theorems": [
    "C75_comments_partial",
    "C75_comments_refuted",
    "C75_assignment_refuted"
   ],
   "note": "Refuted: a comment before (or after) the code makes the one inside disappear, and assignment ignores comments altogether. Partial: a fix is offered for code with a comment inside only if a comment also comes right before or right after this code."
  },
  {
   "property": "C76",
   "status": "partial",
   "theorems": [
    "C76_again_partial",
    "C76_again_refuted"
   ],
   "note": "Refuted with the default rules (ifelse(x > y, FALSE, TRUE)). Partial: holds when the last report has no fix left."
  },
  {
   "property": "C77",
   "status": "proved",
   "theorems": [
    "C77_range_is_an_expression"
   ],
   "note": "For all rules but unreachable_code, which reports a part of a function. For assignment, repeat and if_always_true the reported range is a part of the expression in the code; the model gives the range of the expression, which is the range of the fix."
  },
  {
   "property": "C78",
   "status": "partial",
   "theorems": [
    "C78_at_most_once",
    "C78_answered_partial",
    "C78_malformed_refuted",
    "C78_panic_refuted"
   ],
   "note": "Any interleaving of main thread and workers (Model/Server); linter and disk are parameters. Proved: at most one answer, always; exactly one, inevitably, if messages are well formed and the linter does not panic. Refuted: malformed parameters (the error is only logged) and a panic of the linter (C42) leave a request without answer."
  },
  {
   "property": "C79",
   "status": "partial",
   "theorems": [
    "C79_diagnostics_of_a_saved_text",
    "C79_every_save_checked_once",
    "C79_one_worker_in_order_partial",
    "C79_patient_editor_partial",
    "C79_close_clears_partial",
    "C79_overtaken_refuted",
    "C79_closed_refuted",
    "C79_failure_refuted"
   ],
   "note": "Any interleaving of main thread and workers (Model/Server); linter and disk are parameters. Proved: published diagnostics are those of a saved text with that version, one result per save; in order with one worker; right when the editor waits for results. Refuted: with two workers an older result can arrive last; a result can arrive after the file was closed; a text that cannot be parsed leaves the old diagnostics."
  },
  {
   "property": "C80",
   "status": "partial",
   "theorems": [
    "C80_never_blocked_partial",
    "C80_blocked_refuted"
   ],
   "note": "Any interleaving of main thread and workers (Model/Server); linter and disk are parameters. Proved if the linter does not panic. Refuted otherwise: each panic ends a worker, the original task_receiver keeps the channel open, so after 100 more tasks the main thread is blocked for ever in send."
  },
  {
   "property": "C81",
   "status": "proved",
   "theorems": [
    "C81_answer_for_the_requested_text"
   ],
   "note": "Any interleaving of main thread and workers (Model/Server); linter and disk are parameters. An error of the linter gives an empty list of actions."
  },
  {
   "property": "C82",
   "status": "proved",
   "theorems": [
    "C82_shown_at_most_once",
    "C82_shown_when_needed"
   ],
   "note": "Any interleaving of main thread and workers (Model/Server); linter and disk are parameters. "
  },
  {
   "property": "C83",
   "status": "partial",
   "theorems": [
    "C83_shutdown_is_last",
    "C83_exit_code_refuted"
   ],
   "note": "Any interleaving of main thread and workers (Model/Server); linter and disk are parameters. Refuted part: exit without shutdown ends with status 0 (std::process::exit(0))."
  },
  {
   "property": "C84",
   "status": "partial",
   "theorems": [
    "C84_only_the_expression_partial",
    "C84_harmless_in_the_text_partial",
    "C84_one_expression_in_the_text_partial",
    "C84_usual_places",
    "C84_run_together_refuted"
   ],
   "note": "Proved for one fix, if the ends of the new text are cut from their neighbours by R's lexer and its line breaks are inside brackets. Refuted without the first condition: `else!(x > y)` becomes `elsex <= y`. The code of several fixes in one pass is not covered. C84_usual_places gives simple conditions on the neighbouring characters that imply the two cut conditions."
  },
  {
   "property": "C85",
   "status": "proved",
   "theorems": [
    "C85_only_selected",
    "C85_all_reported",
    "C85_fixes_allowed",
    "C85_read_only"
   ],
   "note": "Whole command line -> configuration -> text -> diagnostics. Checks of the whole document and unreachable_code are left out of `all_reported` (they have their own properties); air's lexer and parser are replaced by R's grammar."
  },
  {
   "property": "C86",
   "status": "partial",
   "theorems": [
    "C86_several_fixes",
    "C86_pass_partial",
    "C86_run_partial",
    "C86_comparison_negation",
    "C86_outer_negation",
    "C86_redundant_ifelse",
    "C86_any_is_na",
    "C86_any_duplicated",
    "C86_coalesce",
    "C86_true_false",
    "C86_equals_to_arrow",
    "C86_unnecessary_nesting"
   ],
   "note": "C86_several_fixes is the full statement for disjoint ranges of expressions of the file (any number, any order of nesting around them); C86_pass_partial and C86_run_partial apply it to apply_fixes and to check_path, for fixes that are in order, do not overlap and replace as many bytes as characters (C01_fix_splice_refuted and C01_fix_splice_nonascii_refuted: without this, files are corrupted) and whose neighbouring characters keep them apart (C84_run_together_refuted). The rule theorems show that the fixes of C58 to C63, C66 and C67 are of the kind required, under the conditions of those properties."
  },
  {
   "property": "C87",
   "status": "partial",
   "theorems": [
    "C87_other_files_partial",
    "C87_shown_partial",
    "C87_tests_refuted",
    "C87_version_refuted"
   ],
   "note": "Proved for files in R/ of a package or outside of the checked packages, packages that are not nested, and R versions that are given or not looked up (no checked file beside a DESCRIPTION). False otherwise: C87_tests_refuted (unused_function in tests/ needs a checked R/ file), C87_version_refuted (a script beside DESCRIPTION changes the R version for all files of its group), C22_nested_package_refuted. What is shown may also depend on the number of unused_function findings in the whole run, as documented (C28)."
  },
  {
   "property": "C88",
   "status": "partial",
   "theorems": [
    "C88_editor_agrees_partial",
    "C88_threshold_refuted",
    "C88_tests_refuted",
    "C88_excluded",
    "C88_default_exclude_refuted"
   ],
   "note": "Proved for files in R/ of a package or in no package, under the conditions of C54 (no user configuration, or a project configuration) and C87; editor and command line then fail together and agree except that the editor withholds unused_function by its own count. False otherwise: C88_threshold_refuted (the editor counts over the whole package, the command line over the checked files), C88_tests_refuted, C54_command_line_settings_refuted. Also C88_default_exclude_refuted: without configuration file, the default exclusions (renv/ \u2026) apply on the command line and not in the editor; C88_excluded: a file excluded by its configuration shows nothing."
  },
  {
   "property": "C89",
   "status": "partial",
   "theorems": [
    "C89_fix_adds_nothing_else",
    "C89_no_new_variable",
    "C89_sample_int_refuted"
   ],
   "note": "For every rule with a fix except unreachable_code (whose fix only deletes); Spec/RMention.v lists what each rule may write. sample_int needs its first argument unnamed or an argument called n, and without that it is false: sample(size = 5, 1:x) becomes sample.int(x, 1:x) (C89_sample_int_refuted)."
  },
  {
   "property": "C90",
   "status": "partial",
   "theorems": [
    "C90_fix_keeps_variables_partial",
    "C90_fixed_regex_partial",
    "C90_variables_dropped_refuted"
   ],
   "note": "Proved for 23 rules (Spec/RMention.v, keeping), and for fixed_regex when no `fixed` argument is given and there are at most four arguments. False of 21 other rules (C90_variables_dropped_refuted), e.g. any(is.na(x), y), grep(\"a\", x, value = y), substr(x, 1, y) == \"a\", expect_equal(x, NULL, info = y). Operators followed by a name are assumed to be $ and @."
  },
  {
   "property": "C91",
   "status": "partial",
   "theorems": [
    "C91_names_partial",
    "C91_default_partial",
    "C91_groups",
    "C91_fix_column_partial",
    "C91_class_equals_refuted",
    "C91_default_refuted",
    "C91_names_refuted"
   ],
   "note": "Proved for all 64 rows of docs/rules.qmd: groups and required R versions; names except unused_suppression (documented, an error when used) and outdated_suppression (undocumented); enabled by default except sample_int and unused_function (documented as enabled, off by default); fix column except class_equals (documented unsafe, applied by --fix) and browser and empty_assignment (safe in the program's table, no report carries a fix)."
  },
  {
   "property": "C92",
   "status": "partial",
   "theorems": [
    "C92_annotations_partial",
    "C92_file_name_refuted",
    "C92_message_refuted"
   ],
   "note": "Proved for file names without comma, double colon, percent code and line break, and messages without percent code and line break; refuted for the others (nothing is escaped). How GitHub reads a command is Spec/OutputSpec.v, after the runner's source. Messages are inputs of the model."
  },
  {
   "property": "C93",
   "status": "partial",
   "theorems": [
    "C93_one_line_each_partial",
    "C93_line",
    "C93_unambiguous_partial",
    "C93_line_break_refuted"
   ],
   "note": "Proved for paths and messages without line break, and paths without ' ['; refuted for messages with a line break (argument names). Terminal colours are off in the model; the links printed without NO_COLOR are modelled."
  },
  {
   "property": "C94",
   "status": "partial",
   "theorems": [
    "C94_summary_tells_the_counts",
    "C94_all_checks_passed",
    "C94_statistics_line",
    "C94_header",
    "C94_header_width",
    "C94_header_width_refuted"
   ],
   "note": "The text of the summary and of the statistics; which counts are given is C52 and C28. The header of a section is 49 characters wide, not 57 as documented (the padding is computed from bytes)."
  },
  {
   "property": "C95",
   "status": "partial",
   "theorems": [
    "C95_deprecated_rule",
    "C95_all_warnings",
    "C95_section",
    "C95_printed",
    "C95_spaces_refuted"
   ],
   "note": "Proved for the warnings of check.rs:183-241; whether diagnostics are hidden is C50. Refuted for an entry of a configuration file with spaces around the name: it selects the rule (config.rs trims) without the warning (check.rs:228 does not)."
  },
  {
   "property": "C96",
   "status": "partial",
   "theorems": [
    "C96_json_output",
    "C96_nothing_lost",
    "C96_no_files_refuted"
   ],
   "note": "Proved against a JSON parser written after RFC 8259 (Spec/JsonSpec.v). Refuted when no R file is found: a line of text is printed instead (commands/check.rs:73-80). The printer of serde_json is modelled from its documentation; file names that are not UTF-8 are left out."
  },
  {
   "property": "C97",
   "status": "partial",
   "theorems": [
    "C97_sort_partial",
    "C97_sort_refuted",
    "C97_which_grepl_partial",
    "C97_length_levels_partial",
    "C97_seq_partial",
    "C97_seq2_partial",
    "C97_seq_refuted",
    "C97_class_equals_partial",
    "C97_class_equals_refuted",
    "C97_lengths_partial",
    "C97_lengths_refuted"
   ],
   "note": "Exact for the simple forms given what Spec/RFunctions.v says of order, sort, which, grepl, grep, levels, nlevels, length, seq_along, seq_len, seq, [:], class, inherits, sapply and lengths (all as requirements on the interpretation, met by Spec/RLibrary.v). Missing: named and extra arguments (decreasing, ignore.case, ...), vapply and purrr forms, S4 classes. Refuted without the side conditions: missing values for sort, empty inputs for seq, seq2 and lengths, several classes for class_equals."
  },
  {
   "property": "C98",
   "status": "partial",
   "theorems": [
    "C98_links_partial",
    "C98_same_characters_partial",
    "C98_escape_refuted"
   ],
   "note": "For texts without escape characters; with one in a file name (or in an argument name quoted in a message) the terminal interprets it, also with NO_COLOR. The terminal is Spec/OutputSpec.v, [screen]: only OSC sequences are interpreted."
  },
  {
   "property": "C99",
   "status": "partial",
   "theorems": [
    "C99_same_report_partial",
    "C99_package_rules_refuted"
   ],
   "note": "Proved when duplicated_function_definition and unused_function are off, or for files outside packages. Refuted otherwise: the package analysis is computed before the first pass and its ranges are reused after the text has changed. One group of files (one configuration); the version-control gate is passed."
  },
  {
   "property": "C100",
   "status": "partial",
   "theorems": [
    "C100_unsaved_partial",
    "C100_package_rules_refuted"
   ],
   "note": "Proved when duplicated_function_definition and unused_function are off, or for files outside packages. Refuted otherwise: the package analysis reads the saved file, and its ranges are used in the text of the editor."
  },
  {
   "property": "C101",
   "status": "partial",
   "theorems": [
    "C101_expect_null_partial",
    "C101_expect_true_false_partial",
    "C101_expect_length_partial",
    "C101_expect_named_partial",
    "C101_expect_s3_class_partial",
    "C101_expect_s3_class_refuted",
    "C101_expect_typeof_partial",
    "C101_expect_is_type_partial",
    "C101_expect_is_type_refuted",
    "C101_expect_not_partial",
    "C101_expect_not_refuted",
    "C101_expect_match_partial",
    "C101_expect_match_refuted"
   ],
   "note": "Exact for the unnamed-argument forms, given what Spec/RExpect.v says the expectations judge (requirements on the interpretation, met by Spec/RLibrary.v); failure messages and the value of the call are left out. Missing: named and extra arguments, expect_identical with numbers, objects with attributes. Refuted without the side conditions: a value of class call has no class attribute (the rule says it does not report such cases), two classes, is.language on a symbol, !x on 0, parentheses around an = assignment, several strings for expect_match and expect_no_match."
  },
  {
   "property": "C102",
   "status": "partial",
   "theorems": [
    "C102_comment_offered",
    "C102_own_comment",
    "C102_no_reason_refuted",
    "C102_chunk_offered",
    "C102_chunk_prefix_refuted",
    "C102_document_comment_partial",
    "C102_document_line_refuted",
    "C102_offered",
    "C102_unplaced",
    "C102_always_a_list"
   ],
   "note": "Exact for R files and for the chunk action. Refuted: a comment without a reason, which silences nothing, hides the action (C102_no_reason_refuted); a chunk comment for seq2 hides the chunk action for seq (the test is a substring test); in documents the line above is looked for at the line number of the chunk, so a comment there is not seen."
  },
  {
   "property": "C103",
   "status": "partial",
   "theorems": [
    "C103_given_file_partial",
    "C103_walked_file_partial",
    "C103_names_differ",
    "C103_shown",
    "C103_link_refuted"
   ],
   "note": "Against a model of POSIX pathname resolution (Spec/PathSpec.v). Refuted: a .. that follows a symbolic link is removed with the link, so link/../x.R is read (and fixed) as x.R, another file. Proved when no .. comes after a link. Names that are not Unicode are left out; path-absolutize is modelled from its documentation, for Unix."
  },
  {
   "property": "C104",
   "status": "partial",
   "theorems": [
    "C104_advice_partial",
    "C104_form_partial",
    "C104_nrow_refuted",
    "C104_minus_refuted",
    "C104_class_refuted",
    "C104_one_line_partial",
    "C104_names",
    "C104_repeatable_partial",
    "C104_repeatable_refuted",
    "C104_numbers",
    "C104_construct",
    "C104_undesirable",
    "C104_place_refuted",
    "C104_function",
    "C104_operator",
    "C104_mode",
    "C104_inside",
    "C104_all_equal"
   ],
   "note": "Messages of all 53 node rules are modelled (Model/Messages.v); the forms quoted in them are read with R's lexer and grammar (Spec/AdviceSpec.v). Refuted: the advice for 1:nrow(x) is not R code (one parenthesis too many, seq.rs:81); the message for any(-x) shows any(!x); the advice for class(x) != 'a' is the opposite of the fix; the names in duplicated_arguments come in a random order; an assignment in the condition of a while inside an if is told to be in if(). The 21 rules with a fix whose advice shows code are listed in the specification; rules whose suggestion only names a function (is.na()) are left out of the first theorem, those whose body shows no form out of the second."
  },
  {
   "property": "C105",
   "status": "proved",
   "theorems": [
    "C105_checked",
    "C105_pass",
    "C105_interrupted",
    "C105_several",
    "C105_again"
   ],
   "note": "End to end, for one rule: C105_checked is about the text of the file before and after the command, C105_pass about one pass, C105_interrupted and C105_several about any moment of a run. The grammar is that of Spec/RLex.v and Spec/RGrammar.v; `decimals` says that .5 and 0.5 are the same number for R. Numbers in places the search does not enter (what is before a bracket, a $ or the parenthesis of a call) stay as they are."
  },
  {
   "property": "C106",
   "status": "proved",
   "theorems": [
    "C106_only_reports",
    "C106_several",
    "C106_uses",
    "C106_checked"
   ],
   "note": "C106_only_reports is about any configuration whose rules have no fix; the other two are about true_false_symbol alone, whose fix is computed (TRUE, FALSE) and always dropped. The range reported for a loop over T or F is that of the loop in the model and that of its variable in the code: the theorem says only that it is inside the loop. Places the search does not enter (what is before a bracket, a $ or the parenthesis of a call) are not reported."
  }
 ]
}