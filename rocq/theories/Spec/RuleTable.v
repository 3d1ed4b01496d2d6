(** The documented table of rules.  Generated by tools/gen_table.py from docs/rules.qmd:49-112, the page
    users read; not from the code. *)
From Verif Require Import Model.Text Model.Rules Spec.ConfigSpec.

(** A row: name, groups, column "Has fix", disabled by default, required version of R. *)
Record row := mk_row { w_name : text; w_groups : list category; w_fix : fix_status; w_off : bool; w_version : option r_version }.
Definition documented_rules : list row :=
  [ mk_row (lit "all_equal") [Susp] FixUnsafe false None;
    mk_row (lit "any_duplicated") [Perf] FixSafe false None;
    mk_row (lit "any_is_na") [Perf] FixSafe false None;
    mk_row (lit "assignment") [Read] FixSafe true None;
    mk_row (lit "blanket_suppression") [Comm] FixNone false None;
    mk_row (lit "browser") [Corr] FixNone false None;
    mk_row (lit "class_equals") [Susp] FixUnsafe false None;
    mk_row (lit "coalesce") [Read] FixSafe false (Some (4, 4, 0));
    mk_row (lit "comparison_negation") [Read] FixSafe false None;
    mk_row (lit "download_file") [Susp] FixNone false None;
    mk_row (lit "duplicated_arguments") [Susp] FixNone false None;
    mk_row (lit "duplicated_function_definition") [Corr] FixNone false None;
    mk_row (lit "empty_assignment") [Read] FixNone false None;
    mk_row (lit "equals_na") [Corr] FixSafe false None;
    mk_row (lit "equals_nan") [Corr] FixSafe false None;
    mk_row (lit "equals_null") [Corr] FixSafe false None;
    mk_row (lit "expect_length") [Testthat] FixSafe true None;
    mk_row (lit "expect_match") [Testthat] FixSafe true None;
    mk_row (lit "expect_named") [Testthat] FixSafe true None;
    mk_row (lit "expect_no_match") [Testthat] FixSafe true None;
    mk_row (lit "expect_not") [Testthat] FixSafe true None;
    mk_row (lit "expect_null") [Testthat] FixSafe true None;
    mk_row (lit "expect_s3_class") [Testthat] FixSafe true None;
    mk_row (lit "expect_true_false") [Testthat] FixSafe true None;
    mk_row (lit "expect_type") [Testthat] FixSafe true None;
    mk_row (lit "fixed_regex") [Perf] FixSafe true None;
    mk_row (lit "for_loop_dup_index") [Corr; Susp] FixNone false None;
    mk_row (lit "for_loop_index") [Read] FixNone false None;
    mk_row (lit "grepv") [Read] FixSafe false (Some (4, 5, 0));
    mk_row (lit "if_always_true") [Read; Susp] FixNone false None;
    mk_row (lit "implicit_assignment") [Read] FixNone false None;
    mk_row (lit "internal_function") [Susp] FixNone false None;
    mk_row (lit "invalid_chunk_suppression") [Comm] FixNone false None;
    mk_row (lit "is_numeric") [Read] FixSafe false None;
    mk_row (lit "length_levels") [Read] FixSafe false None;
    mk_row (lit "length_test") [Corr] FixSafe false None;
    mk_row (lit "lengths") [Perf; Read] FixSafe false None;
    mk_row (lit "list2df") [Perf; Read] FixSafe false (Some (4, 0, 0));
    mk_row (lit "matrix_apply") [Perf] FixSafe false None;
    mk_row (lit "misnamed_suppression") [Comm] FixNone false None;
    mk_row (lit "misplaced_file_suppression") [Comm] FixNone false None;
    mk_row (lit "misplaced_suppression") [Comm] FixNone false None;
    mk_row (lit "numeric_leading_zero") [Read] FixSafe false None;
    mk_row (lit "outer_negation") [Perf; Read] FixSafe false None;
    mk_row (lit "redundant_equals") [Read] FixSafe false None;
    mk_row (lit "redundant_ifelse") [Corr; Perf; Read] FixSafe false None;
    mk_row (lit "repeat") [Read] FixSafe false None;
    mk_row (lit "sample_int") [Read] FixSafe false None;
    mk_row (lit "seq") [Susp] FixSafe false None;
    mk_row (lit "seq2") [Susp] FixSafe false None;
    mk_row (lit "sort") [Perf; Read] FixSafe false None;
    mk_row (lit "sprintf") [Corr; Susp] FixSafe false None;
    mk_row (lit "string_boundary") [Perf; Read] FixSafe false None;
    mk_row (lit "system_file") [Read] FixSafe false None;
    mk_row (lit "true_false_symbol") [Read] FixNone false None;
    mk_row (lit "undesirable_function") [Corr] FixNone false None;
    mk_row (lit "unexplained_suppression") [Comm] FixNone false None;
    mk_row (lit "unmatched_range_suppression") [Comm] FixNone false None;
    mk_row (lit "unnecessary_nesting") [Read] FixSafe true None;
    mk_row (lit "unreachable_code") [Read; Susp] FixNone false None;
    mk_row (lit "unused_function") [Corr] FixNone false None;
    mk_row (lit "unused_suppression") [Comm] FixNone false None;
    mk_row (lit "vector_logic") [Perf] FixNone false None;
    mk_row (lit "which_grepl") [Perf; Read] FixSafe false None ].

(** The version required by the table, if any, is at most the version the project is known to require. *)
Definition enough (required known : option r_version) : Prop :=
  match required with None => True | Some m => exists p, known = Some p /\ version_le m p end.
