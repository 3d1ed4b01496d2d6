(** The rule table.  Generated by tools/gen_rules.py from the [declare_rules!] table,
    crates/jarl-core/src/rule_set.rs:221-671; the accessors follow the macro,
    rule_set.rs:88-213. *)
From Verif Require Import Model.Text.

(** rule_set.rs:6-19 *)
Inductive category := Comm | Corr | Susp | Perf | Read | Testthat.
(** rule_set.rs:72-78 *)
Inductive fix_status := FixNone | FixSafe | FixUnsafe.
Definition r_version : Type := nat * nat * nat.

(** [Rule], rule_set.rs:221-671 (variants prefixed by [R_]) *)
Inductive rule :=
| R_AllEqual
| R_AnyDuplicated
| R_AnyIsNa
| R_Assignment
| R_BlanketSuppression
| R_InvalidChunkSuppression
| R_Browser
| R_ClassEquals
| R_ComparisonNegation
| R_Coalesce
| R_DownloadFile
| R_DuplicatedArguments
| R_DuplicatedFunctionDefinition
| R_EmptyAssignment
| R_EqualsNa
| R_EqualsNaN
| R_EqualsNull
| R_ExpectLength
| R_ExpectMatch
| R_ExpectNamed
| R_ExpectNoMatch
| R_ExpectNot
| R_ExpectNull
| R_ExpectS3Class
| R_ExpectTrueFalse
| R_ExpectType
| R_FixedRegex
| R_ForLoopDupIndex
| R_ForLoopIndex
| R_Grepv
| R_IfAlwaysTrue
| R_ImplicitAssignment
| R_InternalFunction
| R_IsNumeric
| R_LengthLevels
| R_LengthTest
| R_Lengths
| R_List2df
| R_MatrixApply
| R_MisplacedFileSuppression
| R_MisplacedSuppression
| R_MisnamedSuppression
| R_NumericLeadingZero
| R_OutdatedSuppression
| R_OuterNegation
| R_RedundantEquals
| R_RedundantIfelse
| R_Repeat
| R_SampleInt
| R_Seq
| R_Seq2
| R_Sort
| R_Sprintf
| R_StringBoundary
| R_SystemFile
| R_TrueFalseSymbol
| R_UndesirableFunction
| R_UnexplainedSuppression
| R_UnmatchedRangeSuppression
| R_UnnecessaryNesting
| R_UnreachableCode
| R_UnusedFunction
| R_VectorLogic
| R_WhichGrepl.

(** [Rule::all], rule_set.rs:197-212: declaration order *)
Definition all_rules : list rule :=
  [ R_AllEqual;
    R_AnyDuplicated;
    R_AnyIsNa;
    R_Assignment;
    R_BlanketSuppression;
    R_InvalidChunkSuppression;
    R_Browser;
    R_ClassEquals;
    R_ComparisonNegation;
    R_Coalesce;
    R_DownloadFile;
    R_DuplicatedArguments;
    R_DuplicatedFunctionDefinition;
    R_EmptyAssignment;
    R_EqualsNa;
    R_EqualsNaN;
    R_EqualsNull;
    R_ExpectLength;
    R_ExpectMatch;
    R_ExpectNamed;
    R_ExpectNoMatch;
    R_ExpectNot;
    R_ExpectNull;
    R_ExpectS3Class;
    R_ExpectTrueFalse;
    R_ExpectType;
    R_FixedRegex;
    R_ForLoopDupIndex;
    R_ForLoopIndex;
    R_Grepv;
    R_IfAlwaysTrue;
    R_ImplicitAssignment;
    R_InternalFunction;
    R_IsNumeric;
    R_LengthLevels;
    R_LengthTest;
    R_Lengths;
    R_List2df;
    R_MatrixApply;
    R_MisplacedFileSuppression;
    R_MisplacedSuppression;
    R_MisnamedSuppression;
    R_NumericLeadingZero;
    R_OutdatedSuppression;
    R_OuterNegation;
    R_RedundantEquals;
    R_RedundantIfelse;
    R_Repeat;
    R_SampleInt;
    R_Seq;
    R_Seq2;
    R_Sort;
    R_Sprintf;
    R_StringBoundary;
    R_SystemFile;
    R_TrueFalseSymbol;
    R_UndesirableFunction;
    R_UnexplainedSuppression;
    R_UnmatchedRangeSuppression;
    R_UnnecessaryNesting;
    R_UnreachableCode;
    R_UnusedFunction;
    R_VectorLogic;
    R_WhichGrepl ].

(** [Rule::name], rule_set.rs:117-121 *)
Definition rule_name (r : rule) : text :=
  match r with
  | R_AllEqual => lit "all_equal"
  | R_AnyDuplicated => lit "any_duplicated"
  | R_AnyIsNa => lit "any_is_na"
  | R_Assignment => lit "assignment"
  | R_BlanketSuppression => lit "blanket_suppression"
  | R_InvalidChunkSuppression => lit "invalid_chunk_suppression"
  | R_Browser => lit "browser"
  | R_ClassEquals => lit "class_equals"
  | R_ComparisonNegation => lit "comparison_negation"
  | R_Coalesce => lit "coalesce"
  | R_DownloadFile => lit "download_file"
  | R_DuplicatedArguments => lit "duplicated_arguments"
  | R_DuplicatedFunctionDefinition => lit "duplicated_function_definition"
  | R_EmptyAssignment => lit "empty_assignment"
  | R_EqualsNa => lit "equals_na"
  | R_EqualsNaN => lit "equals_nan"
  | R_EqualsNull => lit "equals_null"
  | R_ExpectLength => lit "expect_length"
  | R_ExpectMatch => lit "expect_match"
  | R_ExpectNamed => lit "expect_named"
  | R_ExpectNoMatch => lit "expect_no_match"
  | R_ExpectNot => lit "expect_not"
  | R_ExpectNull => lit "expect_null"
  | R_ExpectS3Class => lit "expect_s3_class"
  | R_ExpectTrueFalse => lit "expect_true_false"
  | R_ExpectType => lit "expect_type"
  | R_FixedRegex => lit "fixed_regex"
  | R_ForLoopDupIndex => lit "for_loop_dup_index"
  | R_ForLoopIndex => lit "for_loop_index"
  | R_Grepv => lit "grepv"
  | R_IfAlwaysTrue => lit "if_always_true"
  | R_ImplicitAssignment => lit "implicit_assignment"
  | R_InternalFunction => lit "internal_function"
  | R_IsNumeric => lit "is_numeric"
  | R_LengthLevels => lit "length_levels"
  | R_LengthTest => lit "length_test"
  | R_Lengths => lit "lengths"
  | R_List2df => lit "list2df"
  | R_MatrixApply => lit "matrix_apply"
  | R_MisplacedFileSuppression => lit "misplaced_file_suppression"
  | R_MisplacedSuppression => lit "misplaced_suppression"
  | R_MisnamedSuppression => lit "misnamed_suppression"
  | R_NumericLeadingZero => lit "numeric_leading_zero"
  | R_OutdatedSuppression => lit "outdated_suppression"
  | R_OuterNegation => lit "outer_negation"
  | R_RedundantEquals => lit "redundant_equals"
  | R_RedundantIfelse => lit "redundant_ifelse"
  | R_Repeat => lit "repeat"
  | R_SampleInt => lit "sample_int"
  | R_Seq => lit "seq"
  | R_Seq2 => lit "seq2"
  | R_Sort => lit "sort"
  | R_Sprintf => lit "sprintf"
  | R_StringBoundary => lit "string_boundary"
  | R_SystemFile => lit "system_file"
  | R_TrueFalseSymbol => lit "true_false_symbol"
  | R_UndesirableFunction => lit "undesirable_function"
  | R_UnexplainedSuppression => lit "unexplained_suppression"
  | R_UnmatchedRangeSuppression => lit "unmatched_range_suppression"
  | R_UnnecessaryNesting => lit "unnecessary_nesting"
  | R_UnreachableCode => lit "unreachable_code"
  | R_UnusedFunction => lit "unused_function"
  | R_VectorLogic => lit "vector_logic"
  | R_WhichGrepl => lit "which_grepl"
  end.

(** [Rule::categories], rule_set.rs:124-128 *)
Definition rule_categories (r : rule) : list category :=
  match r with
  | R_AllEqual => [Susp]
  | R_AnyDuplicated => [Perf]
  | R_AnyIsNa => [Perf]
  | R_Assignment => [Read]
  | R_BlanketSuppression => [Comm]
  | R_InvalidChunkSuppression => [Comm]
  | R_Browser => [Corr]
  | R_ClassEquals => [Susp]
  | R_ComparisonNegation => [Read]
  | R_Coalesce => [Read]
  | R_DownloadFile => [Susp]
  | R_DuplicatedArguments => [Susp]
  | R_DuplicatedFunctionDefinition => [Corr]
  | R_EmptyAssignment => [Read]
  | R_EqualsNa => [Corr]
  | R_EqualsNaN => [Corr]
  | R_EqualsNull => [Corr]
  | R_ExpectLength => [Testthat]
  | R_ExpectMatch => [Testthat]
  | R_ExpectNamed => [Testthat]
  | R_ExpectNoMatch => [Testthat]
  | R_ExpectNot => [Testthat]
  | R_ExpectNull => [Testthat]
  | R_ExpectS3Class => [Testthat]
  | R_ExpectTrueFalse => [Testthat]
  | R_ExpectType => [Testthat]
  | R_FixedRegex => [Perf]
  | R_ForLoopDupIndex => [Corr; Susp]
  | R_ForLoopIndex => [Read]
  | R_Grepv => [Read]
  | R_IfAlwaysTrue => [Read; Susp]
  | R_ImplicitAssignment => [Read]
  | R_InternalFunction => [Susp]
  | R_IsNumeric => [Read]
  | R_LengthLevels => [Read]
  | R_LengthTest => [Corr]
  | R_Lengths => [Perf; Read]
  | R_List2df => [Perf; Read]
  | R_MatrixApply => [Perf]
  | R_MisplacedFileSuppression => [Comm]
  | R_MisplacedSuppression => [Comm]
  | R_MisnamedSuppression => [Comm]
  | R_NumericLeadingZero => [Read]
  | R_OutdatedSuppression => [Comm]
  | R_OuterNegation => [Perf; Read]
  | R_RedundantEquals => [Read]
  | R_RedundantIfelse => [Corr; Perf; Read]
  | R_Repeat => [Read]
  | R_SampleInt => [Read]
  | R_Seq => [Susp]
  | R_Seq2 => [Susp]
  | R_Sort => [Perf; Read]
  | R_Sprintf => [Corr; Susp]
  | R_StringBoundary => [Perf; Read]
  | R_SystemFile => [Read]
  | R_TrueFalseSymbol => [Read]
  | R_UndesirableFunction => [Corr]
  | R_UnexplainedSuppression => [Comm]
  | R_UnmatchedRangeSuppression => [Comm]
  | R_UnnecessaryNesting => [Read]
  | R_UnreachableCode => [Read; Susp]
  | R_UnusedFunction => [Corr]
  | R_VectorLogic => [Perf]
  | R_WhichGrepl => [Perf; Read]
  end.

(** [Rule::default_status]/[is_enabled_by_default], rule_set.rs:131-135, 177-179 *)
Definition rule_default (r : rule) : bool :=
  match r with
  | R_Assignment => false
  | R_ExpectLength => false
  | R_ExpectMatch => false
  | R_ExpectNamed => false
  | R_ExpectNoMatch => false
  | R_ExpectNot => false
  | R_ExpectNull => false
  | R_ExpectS3Class => false
  | R_ExpectTrueFalse => false
  | R_ExpectType => false
  | R_FixedRegex => false
  | R_SampleInt => false
  | R_UnnecessaryNesting => false
  | R_UnusedFunction => false
  | _ => true
  end.

(** [Rule::fix_status], rule_set.rs:138-142 *)
Definition rule_fix (r : rule) : fix_status :=
  match r with
  | R_AllEqual => FixUnsafe
  | R_AnyDuplicated => FixSafe
  | R_AnyIsNa => FixSafe
  | R_Assignment => FixSafe
  | R_Browser => FixSafe
  | R_ClassEquals => FixSafe
  | R_ComparisonNegation => FixSafe
  | R_Coalesce => FixSafe
  | R_EmptyAssignment => FixSafe
  | R_EqualsNa => FixSafe
  | R_EqualsNaN => FixSafe
  | R_EqualsNull => FixSafe
  | R_ExpectLength => FixSafe
  | R_ExpectMatch => FixSafe
  | R_ExpectNamed => FixSafe
  | R_ExpectNoMatch => FixSafe
  | R_ExpectNot => FixSafe
  | R_ExpectNull => FixSafe
  | R_ExpectS3Class => FixSafe
  | R_ExpectTrueFalse => FixSafe
  | R_ExpectType => FixSafe
  | R_FixedRegex => FixSafe
  | R_Grepv => FixSafe
  | R_IsNumeric => FixSafe
  | R_LengthLevels => FixSafe
  | R_LengthTest => FixSafe
  | R_Lengths => FixSafe
  | R_List2df => FixSafe
  | R_MatrixApply => FixSafe
  | R_NumericLeadingZero => FixSafe
  | R_OuterNegation => FixSafe
  | R_RedundantEquals => FixSafe
  | R_RedundantIfelse => FixSafe
  | R_Repeat => FixSafe
  | R_SampleInt => FixSafe
  | R_Seq => FixSafe
  | R_Seq2 => FixSafe
  | R_Sort => FixSafe
  | R_Sprintf => FixSafe
  | R_StringBoundary => FixSafe
  | R_SystemFile => FixSafe
  | R_UnnecessaryNesting => FixSafe
  | R_WhichGrepl => FixSafe
  | _ => FixNone
  end.

(** [Rule::minimum_r_version], rule_set.rs:145-149 *)
Definition rule_min_version (r : rule) : option r_version :=
  match r with
  | R_Coalesce => Some (4, 4, 0)
  | R_Grepv => Some (4, 5, 0)
  | R_List2df => Some (4, 0, 0)
  | _ => None
  end.

(** [Rule::deprecation], rule_set.rs:151-156: version and replacement *)
Definition rule_deprecation (r : rule) : option (text * text) :=
  match r with
  | R_Browser => Some (lit "0.5.0", lit "undesirable_function")
  | _ => None
  end.

(** [#[derive(PartialEq)]] *)
Definition category_eqb (a b : category) : bool :=
  match a, b with
  | Comm, Comm | Corr, Corr | Susp, Susp | Perf, Perf | Read, Read | Testthat, Testthat => true
  | _, _ => false
  end.

(** [has_category], rule_set.rs:187-189 *)
Definition has_category (r : rule) (c : category) : bool := existsb (category_eqb c) (rule_categories r).

(** [has_no_fix], [has_safe_fix], [has_unsafe_fix], rule_set.rs:162-174 *)
Definition has_no_fix r := match rule_fix r with FixNone => true | _ => false end.
Definition has_safe_fix r := match rule_fix r with FixSafe => true | _ => false end.
Definition has_unsafe_fix r := match rule_fix r with FixUnsafe => true | _ => false end.

(** [Rule::from_name], rule_set.rs:192-197: a Rust [match] tries the names in order. *)
Definition from_name (s : text) : option rule := find (fun r => teqb s (rule_name r)) all_rules.

(** [Category::ALL], [Category::as_str], [FromStr], rule_set.rs:22-63 *)
Definition all_categories : list category := [Comm; Corr; Susp; Perf; Read; Testthat].
Definition category_name (c : category) : text :=
  match c with
  | Comm => lit "COMM" | Corr => lit "CORR" | Susp => lit "SUSP"
  | Perf => lit "PERF" | Read => lit "READ" | Testthat => lit "TESTTHAT"
  end.
Definition category_of_name (s : text) : option category :=
  if teqb s (lit "COMM") then Some Comm else if teqb s (lit "CORR") then Some Corr
  else if teqb s (lit "SUSP") then Some Susp else if teqb s (lit "PERF") then Some Perf
  else if teqb s (lit "READ") then Some Read else if teqb s (lit "TESTTHAT") then Some Testthat
  else None.
