(** What a diagnostic says: the [body] and the [suggestion] of its message
    (/repo/crates/jarl-core/src/diagnostic.rs:45-49), rule by rule, for the node
    the rule was run on (Model/Traverse.v runs the rules).

    The words mean something only where the rule reports; elsewhere the values
    below are arbitrary.  unreachable_code's reasons are in Model/Cfg.v, and the
    comment and package rules carry their own texts (Model/Document.v), so none
    of these is here. *)
From Verif Require Export Model.Traverse Model.Output.

(** [body] and [suggestion] *)
Definition words := (text * option text)%type.
(** A rule without suggestion (diagnostic.rs:38-41). *)
Definition just (b : text) : words := (b, None).
(** [format!("Use `{}` instead.", a)] *)
Definition instead (a : text) : text := lit "Use `" ++ a ++ lit "` instead.".

(** How R spells a comparison. *)
Definition comparison_text (c : cmpop) : text := spell_op (BCmp c).

(** The function of the call [e] ([get_function_name]). *)
Definition called (e : expr) : text := match e with ECall f _ => get_function_name f | _ => [] end.

(** lints/base/comparison_negation/comparison_negation.rs:70-74 *)
Definition say_comparison_negation (e : expr) : words :=
  match e with
  | EUn UNot (EParen (EBin (BCmp c) _ _ _)) =>
      (lit "`!(x " ++ comparison_text c ++ lit " y)` can be simplified.",
       Some (instead (lit "x " ++ comparison_text (negated c) ++ lit " y")))
  | _ => ([], None)
  end.

(** lints/base/outer_negation/outer_negation.rs:82-94 *)
Definition say_outer_negation (e : expr) : words :=
  if teqb (called e) (lit "any")
  then (lit "`any(!x)` may be hard to read.", Some (lit "Use `!all(x)` instead."))
  else (lit "`all(!x)` may be hard to read.", Some (lit "Use `!any(x)` instead.")).

(** lints/base/redundant_ifelse/redundant_ifelse.rs:90-127: the two values are
    looked up as in the rule (Model/Lints.v). *)
Definition say_redundant_ifelse (e : expr) : words :=
  match e with
  | ECall f args =>
      let n := get_function_name f in
      match ifelse_formals n with
      | None => ([], None)
      | Some (_, b, c) =>
          match get_arg_by_name_then_position args b 2, get_arg_by_name_then_position args c 3 with
          | Some (_, Some (EAtom ATrue)), Some (_, Some (EAtom AFalse)) =>
              (lit "This `" ++ n ++ lit "()` is redundant.", Some (lit "Use `condition` directly."))
          | Some (_, Some (EAtom AFalse)), Some (_, Some (EAtom ATrue)) =>
              (lit "This `" ++ n ++ lit "()` is redundant.", Some (lit "Use `!condition` directly."))
          | Some (_, Some (EAtom ATrue)), Some (_, Some (EAtom ATrue)) =>
              (lit "This `" ++ n ++ lit "()` always evaluates to `TRUE`.", Some (lit "This is likely wrong."))
          | _, _ =>
              (lit "This `" ++ n ++ lit "()` always evaluates to `FALSE`.", Some (lit "This is likely wrong."))
          end
      end
  | _ => ([], None)
  end.

(** lints/base/any_is_na/any_is_na.rs:38-42 and 83-87 *)
Definition say_any_is_na (e : expr) : words :=
  match e with
  | EBin _ _ _ _ => (lit "`NA %in% x` is inefficient.", Some (lit "Use `anyNA(x)` instead."))
  | _ => (lit "`any(is.na(...))` is inefficient.", Some (lit "Use `anyNA(...)` instead."))
  end.

(** lints/base/coalesce/coalesce.rs:118, 164 and 177-181 *)
Definition say_coalesce (e : expr) : words :=
  match e with
  | EIf (EUn _ _) _ _ =>
      (lit "`if (!is.null(x)) x else y` can be simplified.", Some (lit "Use `x %||% y` instead."))
  | _ => (lit "`if (is.null(x)) y else x` can be simplified.", Some (lit "Use `x %||% y` instead."))
  end.

(** lints/base/all_equal/all_equal.rs:60-64 and 89, 102-106: which of the two
    reports is made is decided as in the rule. *)
Definition say_all_equal (fs : list frame) (e : expr) : words :=
  match get_nested_functions_content fs e (lit "isFALSE") (lit "all.equal") with
  | Some _ =>
      (lit "`isFALSE(all.equal())` always returns `FALSE`",
       Some (lit "Use `!isTRUE()` to check for differences instead."))
  | None =>
      (lit "If `all.equal()` is false, it will return a string and not `FALSE`.",
       Some (lit "Wrap `all.equal()` in `isTRUE()`, or replace it by `identical()` if no tolerance is required."))
  end.

(** lints/base/class_equals/class_equals.rs:113-117 and 155-159 *)
Definition say_class_equals (e : expr) : words :=
  match e with
  | ECall _ _ =>
      (lit "Using `identical(class(x), 'a')` can be problematic.", Some (lit "Use `inherits(x, 'a')` instead."))
  | _ =>
      (lit "Comparing `class(x)` with `==` or `%in%` can be problematic.",
       Some (lit "Use `inherits(x, 'a')` instead."))
  end.

(** lints/base/seq/seq.rs:75-106.  The advice for [nrow] has one parenthesis too
    many (seq.rs:81). *)
Definition say_seq (e : expr) : words :=
  match e with
  | EBin _ _ _ r =>
      let n := called r in
      (lit "`1:" ++ n ++ lit "(...)` can be wrong if the RHS is 0.",
       Some (instead
         (if teqb n (lit "length") then lit "seq_along(...)"
          else if teqb n (lit "nrow") then lit "seq_len(nrow((...))"
          else if teqb n (lit "ncol") then lit "seq_len(ncol(...))"
          else if teqb n (lit "NROW") then lit "seq_len(NROW(...))"
          else lit "seq_len(NCOL(...))")))
  | _ => ([], None)
  end.
(** lints/base/seq2/seq2.rs:80-109 *)
Definition say_seq2 (e : expr) : words :=
  match e with
  | ECall _ ((_, Some g) :: _) =>
      let n := called g in
      (lit "`seq(" ++ n ++ lit "(...))` can be wrong if the argument has length 0.",
       Some (instead
         (if teqb n (lit "length") then lit "seq_along(...)"
          else if teqb n (lit "nrow") then lit "seq_len(nrow(...))"
          else if teqb n (lit "ncol") then lit "seq_len(ncol(...))"
          else if teqb n (lit "NROW") then lit "seq_len(NROW(...))"
          else lit "seq_len(NCOL(...))")))
  | _ => ([], None)
  end.

(** lints/base/matrix_apply/matrix_apply.rs:95-122 *)
Definition say_matrix_apply (e : expr) : words :=
  match e with
  | ECall _ args =>
      match get_arg_by_name_then_position args (lit "FUN") 3,
            get_arg_by_name_then_position args (lit "MARGIN") 2 with
      | Some (_, Some g), Some (_, Some m) =>
          if is_id (lit "mean") g then
            if lit_in [lit "1"; lit "1L"] m
            then (lit "`apply(x, 1, mean)` is inefficient.", Some (lit "Use `rowMeans(x)` instead."))
            else (lit "`apply(x, 2, mean)` is inefficient.", Some (lit "Use `colMeans(x)` instead."))
          else
            if lit_in [lit "1"; lit "1L"] m
            then (lit "`apply(x, 1, sum)` is inefficient.", Some (lit "Use `rowSums(x)` instead."))
            else (lit "`apply(x, 2, sum)` is inefficient.", Some (lit "Use `colSums(x)` instead."))
      | _, _ => ([], None)
      end
  | _ => ([], None)
  end.

(** lints/base/string_boundary/string_boundary.rs:50-140: the call looked at is
    the left operand if that is a call. *)
Definition say_string_boundary (e : expr) : words :=
  match e with
  | EBin _ _ l r =>
      let k := match l with ECall _ _ => l | _ => r end in
      match k with
      | ECall f (_ :: (_, Some start) :: _) =>
          if is_literal_one start
          then (lit "Using `" ++ get_function_name f ++
                  lit "()` to detect an initial substring is hard to read and inefficient.",
                Some (lit "Use `startsWith()` instead."))
          else (lit "Using `" ++ get_function_name f ++
                  lit "()` to detect a terminal substring is hard to read and inefficient.",
                Some (lit "Use `endsWith()` instead."))
      | _ => ([], None)
      end
  | _ => ([], None)
  end.

(** lints/base/vector_logic/vector_logic.rs:63-75 *)
Definition say_vector_logic (fs : list frame) (e : expr) : words :=
  match e with
  | EBin o _ _ _ =>
      just (lit "`" ++ spell_op o ++
            match fs with
            | FIfC _ _ :: _ => lit "` in `if()` statements can be inefficient."
            | _ => lit "` in `while()` statements can be inefficient."
            end)
  | _ => ([], None)
  end.

(** lints/base/implicit_assignment/implicit_assignment.rs:109-186 *)
Definition direct (k : frame -> bool) (fs : list frame) : bool :=
  match fs with f :: _ => k f | [] => false end.
Definition say_implicit_assignment (fs : list frame) : words :=
  just
    (if negb (direct (fun f => match f with FIfT _ _ | FIfE _ _ => true | _ => false end) fs) &&
        before_braces in_if fs
     then lit "Avoid implicit assignments in `if()` statements."
     else if negb (direct (fun f => match f with FWhileB _ => true | _ => false end) fs) &&
             before_braces in_while fs
     then lit "Avoid implicit assignments in `while()` statements."
     else if negb (direct (fun f => match f with FForB _ _ => true | _ => false end) fs) &&
             before_braces in_for fs
     then lit "Avoid implicit assignments in `for()` statements."
     else lit "Avoid implicit assignments in function calls.").

(** lints/base/assignment/assignment.rs:61-100 *)
Definition say_assignment (arrow : bool) (e : expr) : words :=
  match e with
  | EBin BEq _ _ _ => just (lit "Use `<-` for assignment.")
  | EBin (BAssign _) _ _ _ => just (lit "Use `=` for assignment.")
  | _ => just (if arrow then lit "Use `<-` for assignment." else lit "Use `=` for assignment.")
  end.

(** lints/base/download_file/download_file.rs:75-92 *)
Definition say_download_file (e : expr) : words :=
  match e with
  | ECall _ args =>
      match arg_value (get_arg_by_name_then_position args (lit "mode") 5) with
      | None =>
          (lit "`download.file()` without explicit `mode` can cause portability issues on Windows.",
           Some (lit "Use mode = 'wb' instead."))
      | Some m =>
          if str_in (quoted (lit "w")) m
          then (lit "`download.file()` with `mode = 'w'` can cause portability issues on Windows.",
                Some (lit "Use mode = 'wb' instead."))
          else (lit "`download.file()` with `mode = 'a'` can cause portability issues on Windows.",
                Some (lit "Use mode = 'ab' instead."))
      end
  | _ => ([], None)
  end.

(** Rust's [Display] for the machine integers of sprintf.rs. *)
Definition decimal_N (n : N) : text := decimal (N.to_nat n).
(** lints/base/sprintf/sprintf.rs:80-141 *)
Definition say_sprintf (e : expr) : words :=
  match e with
  | ECall _ args =>
      match get_arg_by_name_then_position args (lit "fmt") 1 with
      | Some (nm, Some (EAtom (AStr t))) =>
          let k := parse_sprintf_format t in
          if invalid k then just (lit "`sprintf()` contains some invalid `%`.")
          else
            match specs k with
            | [] => (lit "`sprintf()` without special characters is useless.",
                     Some (lit "Use directly the input of `sprintf()` instead."))
            | _ =>
                let dots := length (get_unnamed_args args) in
                let given := match nm with Some _ => dots | None => dots - 1 end in
                let expected := if positional k then max_position k else N.of_nat (list_sum (specs k)) in
                (lit "Mismatch between number of special characters and number of arguments.",
                 Some (lit "Found " ++ decimal_N expected ++ lit " special character(s) and " ++
                       decimal given ++ lit " argument(s)."))
            end
      | _ => ([], None)
      end
  | _ => ([], None)
  end.

(** lints/base/duplicated_arguments/duplicated_arguments.rs:96-111 and 122-135.
    The names are kept in a [HashSet], whose order changes from run to run:
    [shuffle] is that order. *)
Definition repeated_names (l : list text) : list text :=
  nodup (list_eq_dec N.eq_dec) (filter (fun n => 1 <? length (filter (teqb n) l)) l).
Fixpoint join (sep : text) (l : list text) : text :=
  match l with
  | [] => []
  | [x] => x
  | x :: l' => x ++ sep ++ join sep l'
  end.
Definition say_duplicated_arguments (shuffle : list text -> list text) (e : expr) : words :=
  match e with
  | ECall _ args =>
      just (lit "Avoid duplicated arguments in function calls. Duplicated argument(s): " ++
            join (lit ", ") (map (fun n => [34%N] ++ n ++ [34%N]) (shuffle (repeated_names (given_names args)))) ++
            lit ".")
  | _ => ([], None)
  end.

(** lints/testthat/expect_not/expect_not.rs:97-113 *)
Definition say_expect_not (e : expr) : words :=
  let '(old, new) := if teqb (called e) (lit "expect_true") then (lit "expect_true", lit "expect_false")
                     else (lit "expect_false", lit "expect_true") in
  (lit "`" ++ old ++ lit "(!x)` is not as clear as `" ++ new ++ lit "(x)`.", Some (instead (new ++ lit "(x)"))).
(** lints/testthat/expect_null/expect_null.rs:80-87 and 126-130 *)
Definition say_expect_null (e : expr) : words :=
  (if teqb (called e) (lit "expect_true") then lit "`expect_true(is.null(x))` is not as clear as `expect_null(x)`."
   else lit "`" ++ called e ++ lit "(x, NULL)` is not as clear as `expect_null(x)`.",
   Some (lit "Use `expect_null(x)` instead.")).
(** lints/testthat/expect_type/expect_type.rs:94-98 and 161-165 *)
Definition say_expect_type (e : expr) : words :=
  (if teqb (called e) (lit "expect_true") then lit "`expect_true(is.<t>(x))` can be hard to read."
   else lit "`" ++ called e ++ lit "(typeof(x), t)` can be hard to read.",
   Some (lit "Use `expect_type(x, t)` instead.")).
(** lints/testthat/expect_true_false/expect_true_false.rs:62-91 *)
Definition say_expect_true_false (e : expr) : words :=
  match e with
  | ECall f args =>
      let say (b : bool) :=
        if b then (lit "`" ++ called e ++ lit "(x, TRUE)` is not as clear as `expect_true(x)`.",
                   Some (lit "Use `expect_true(x)` instead."))
        else (lit "`" ++ called e ++ lit "(x, FALSE)` is not as clear as `expect_false(x)`.",
              Some (lit "Use `expect_false(x)` instead.")) in
      match object_expected args with
      | Some (EAtom ATrue, _) => say true
      | Some (EAtom AFalse, _) => say false
      | Some (_, EAtom ATrue) => say true
      | _ => say false
      end
  | _ => ([], None)
  end.

(** The words of each rule.  Rules whose words are always the same:
    lints/base/{browser:42, any_duplicated:42-47, for_loop_index:37,
    equals_na:39-44, repeat:36-41, if_always_true:46-51, true_false_symbol:39,
    numeric_leading_zero:31, list2df:45-50, sort:41-46, which_grepl:38-43,
    redundant_equals:43, grepv:41-46, equals_nan:39-44, for_loop_dup_index:40-45,
    length_test:36, sample_int:41-46, system_file:36-41, lengths:40-45,
    fixed_regex:43-48, empty_assignment:11, equals_null:45-50,
    length_levels:33-38, is_numeric:37-42, internal_function:25-30,
    unnecessary_nesting:84-88}, lints/testthat/{expect_match:44-50,
    expect_no_match:44-50}; and undesirable_function:48-50,
    expect_length:127-134, expect_named:91-98, expect_s3_class:120-127, which
    name the function called. *)
Definition said (s : settings) (shuffle : list text -> list text) (rule : text) (fs : list frame) (e : expr)
  : words :=
  if teqb rule (lit "comparison_negation") then say_comparison_negation e
  else if teqb rule (lit "outer_negation") then say_outer_negation e
  else if teqb rule (lit "redundant_ifelse") then say_redundant_ifelse e
  else if teqb rule (lit "any_is_na") then say_any_is_na e
  else if teqb rule (lit "coalesce") then say_coalesce e
  else if teqb rule (lit "all_equal") then say_all_equal fs e
  else if teqb rule (lit "class_equals") then say_class_equals e
  else if teqb rule (lit "seq") then say_seq e
  else if teqb rule (lit "seq2") then say_seq2 e
  else if teqb rule (lit "matrix_apply") then say_matrix_apply e
  else if teqb rule (lit "string_boundary") then say_string_boundary e
  else if teqb rule (lit "vector_logic") then say_vector_logic fs e
  else if teqb rule (lit "implicit_assignment") then say_implicit_assignment fs
  else if teqb rule (lit "assignment") then say_assignment (prefer_arrow s) e
  else if teqb rule (lit "download_file") then say_download_file e
  else if teqb rule (lit "sprintf") then say_sprintf e
  else if teqb rule (lit "duplicated_arguments") then say_duplicated_arguments shuffle e
  else if teqb rule (lit "expect_not") then say_expect_not e
  else if teqb rule (lit "expect_null") then say_expect_null e
  else if teqb rule (lit "expect_type") then say_expect_type e
  else if teqb rule (lit "expect_true_false") then say_expect_true_false e
  else if teqb rule (lit "expect_length") then
    (lit "`expect_length(x, n)` is better than `" ++ called e ++ lit "(length(x), n)`.",
     Some (lit "Use `expect_length(x, n)` instead."))
  else if teqb rule (lit "expect_named") then
    (lit "`expect_named(x, n)` is better than `" ++ called e ++ lit "(names(x), n)`.",
     Some (lit "Use `expect_named(x, n)` instead."))
  else if teqb rule (lit "expect_s3_class") then
    (lit "`" ++ called e ++ lit "(class(x), 'y')` may fail if `x` gets more classes in the future.",
     Some (lit "Use `expect_s3_class(x, 'y')` instead."))
  else if teqb rule (lit "expect_match") then
    (lit "`expect_true(grepl(...))` is not as clear as `expect_match(...)`.",
     Some (lit "Use `expect_match(...)` instead."))
  else if teqb rule (lit "expect_no_match") then
    (lit "`expect_false(grepl(...))` is not as clear as `expect_no_match(...)`.",
     Some (lit "Use `expect_no_match(...)` instead."))
  else if teqb rule (lit "undesirable_function") then just (lit "`" ++ called e ++ lit "()` is listed as an undesirable function.")
  else if teqb rule (lit "any_duplicated") then
    (lit "`any(duplicated(...))` is inefficient.", Some (lit "Use `anyDuplicated(...) > 0` instead."))
  else if teqb rule (lit "browser") then just (lit "Calls to `browser()` should be removed.")
  else if teqb rule (lit "fixed_regex") then
    (lit "Pattern contains no regex special characters but `fixed = TRUE` is not set.",
     Some (lit "Add `fixed = TRUE` for better performance."))
  else if teqb rule (lit "grepv") then (lit "`grep(..., value = TRUE)` can be simplified.", Some (lit "Use `grepv(...)` instead."))
  else if teqb rule (lit "length_levels") then
    (lit "`length(levels(...))` is less readable than `nlevels(...)`.", Some (lit "Use `nlevels(...)` instead."))
  else if teqb rule (lit "length_test") then just (lit "Checking the length of a logical vector is likely a mistake")
  else if teqb rule (lit "lengths") then
    (lit "Using `length()` on each element of a list is inefficient.", Some (lit "Use `lengths()` instead."))
  else if teqb rule (lit "list2df") then
    (lit "`do.call(cbind.data.frame, x)` is inefficient and can be hard to read.",
     Some (lit "Use `list2DF(x)` instead."))
  else if teqb rule (lit "sample_int") then
    (lit "`sample(1:n, m, ...)` is less readable than `sample.int(n, m, ...)`.",
     Some (lit "Use `sample.int(n, m, ...)` instead."))
  else if teqb rule (lit "system_file") then
    (lit "`system.file(file.path(...))` is redundant.", Some (lit "Use `system.file(...)` instead."))
  else if teqb rule (lit "which_grepl") then
    (lit "`which(grepl(pattern, x))` is less efficient than `grep(pattern, x)`.",
     Some (lit "Use `grep(pattern, x)` instead."))
  else if teqb rule (lit "empty_assignment") then
    just (lit "Assign NULL explicitly or, whenever possible, allocate the empty object with the right type and size.")
  else if teqb rule (lit "equals_na") then
    (lit "Comparing to NA with `==`, `!=` or `%in%` is problematic.", Some (lit "Use `is.na()` instead."))
  else if teqb rule (lit "equals_nan") then
    (lit "Comparing to NaN with `==`, `!=` or `%in%` is problematic.", Some (lit "Use `is.nan()` instead."))
  else if teqb rule (lit "equals_null") then
    (lit "Comparing to NULL with `==`, `!=` or `%in%` is problematic.", Some (lit "Use `is.null()` instead."))
  else if teqb rule (lit "is_numeric") then
    (lit "`is.numeric(x) || is.integer(x)` is redundant.",
     Some (lit "Use `is.numeric(x)` instead. Use `is.double(x)` to test for objects stored as 64-bit floating point"))
  else if teqb rule (lit "redundant_equals") then just (lit "Using == on a logical vector is redundant.")
  else if teqb rule (lit "numeric_leading_zero") then just (lit "Include the leading zero for fractional numeric constants.")
  else if teqb rule (lit "true_false_symbol") then
    just (lit "`T` and `F` can be confused with variable names. Spell `TRUE` and `FALSE` entirely instead.")
  else if teqb rule (lit "internal_function") then
    (lit "Accessing a package's internal function with `:::` is likely to break in the future.",
     Some (lit "Use public functions via `::` instead."))
  else if teqb rule (lit "for_loop_index") then
    just (lit "Don't re-use any sequence symbols as the index symbol in a for loop.")
  else if teqb rule (lit "for_loop_dup_index") then
    (lit "This index variable is already used in a parent `for` loop.",
     Some (lit "Rename this index variable to avoid unexpected results."))
  else if teqb rule (lit "if_always_true") then
    (lit "`if` condition always evaluates to `TRUE`.", Some (lit "Modify the `if` condition, or keep only the body."))
  else if teqb rule (lit "unnecessary_nesting") then
    (lit "There is no need for nested if conditions here.", Some (lit "Gather the two conditions with `&&` instead."))
  else if teqb rule (lit "sort") then (lit "`x[order(x)]` is inefficient.", Some (lit "Use `sort(x)` instead."))
  else if teqb rule (lit "repeat") then
    (lit "`while (TRUE)` is less clear than `repeat` for infinite loops.", Some (lit "Use `repeat {}` instead."))
  else ([], None).

(** The rules of all node kinds (Model/Traverse.v), except unreachable_code. *)
Definition node_rules (s : settings) : list (text * rule_fn) :=
  on_call s ++ on_binary s ++ on_value ++ on_identifier ++ on_namespace ++ on_for ++ on_if ++
  on_subset ++ on_unary ++ on_while.
