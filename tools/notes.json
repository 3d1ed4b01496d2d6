{
 "C01": {
  "note": "Proved for ordered, disjoint, byte-neutral fixes; refuted in general: nested fixes are both applied after cumulative shrinking (fix.rs:62 double-counts the shift) and char counts are mixed with byte offsets (fix.rs:35,61)."
 },
 "C02": {
  "note": "Refuted: `NA != .5` is rewritten to `!is.na(.0.5`. Positive: a first fix that does not lengthen the text excludes all fixes starting inside it."
 },
 "C03": {
  "note": "Proved under the same conditions as C01."
 },
 "C04": {
  "note": "Proved for every linter and number of passes; termination only under a decreasing measure.",
  "status": "partial"
 },
 "C06": {
  "note": "The gate of one check call is exact; the whole command (one call per configuration group) is refuted: fixing the first group makes the repository dirty for the second."
 },
 "C07": {
  "note": "Proved for every text, excluding positions on a newline and texts whose only newline before the position is the first byte. Refuted: that last case gives a wrong column; in an R file, positions after the last expression (trailing comments) get a wrong row because the newlines of the expression list only are counted."
 },
 "C08": {
  "note": "Exact grammar for all five directive kinds, the four outcomes and the Quarto array header."
 },
 "C11": {
  "note": "Exact in traversal order. Traversal order is not source order: trailing comments of an enclosing expression are visited before comments inside it, so a start inside a call and an end after it (same brace level) do not match."
 },
 "C12": {
  "note": "Proved except for a start comment overwritten by a second start comment of the same rule, which is silently lost."
 },
 "C14": {
  "note": "Extraction exact; refuted part: `{rust}`, `{ruby}` etc. are taken for R chunks (OPEN_FENCE has no word boundary after r)."
 },
 "C17": {
  "note": "Proved for --fix without --fix-only, and for the other modes. Refuted for --fix --fix-only: the filter on safe fixes is applied to `rules`, not to `rules_to_apply`, so unsafe fixes are applied."
 },
 "C21": {
  "note": "Exact characterization of the reports and of the definition named by each, independent of file and package order, for distinct files; distinctness proved from the file collection when no package lies inside the R directory of another."
 },
 "C22": {
  "note": "Proved for ASCII names: a reported function is not referenced in its own area, and for R/ not mentioned elsewhere, not exported on one line, not a hook, not skipped. Refuted for non-ASCII names, multi-line NAMESPACE directives, test helpers used in another area, and packages nested below tests/ of another package (exported function reported). C22_whole_package_searched_partial starts from the files on disk (one package per run)."
 },
 "C23": {
  "note": "Proved for every body without a bare `return` word (no parentheses), for which it is false: such a word is a variable lookup in R but treated as a return (builder.rs:242)."
 },
 "C24": {
  "note": "Proved when neither --statistics nor --add-jarl-ignore is given and the walk met no error. Refuted otherwise: with --statistics or --add-jarl-ignore a file that fails is not reflected in the exit code, and a nonexistent input (an error of the walk) gives 0. The linter and the walk's entries are inputs of the model. With --add-jarl-ignore the code is 0, or 255 exactly when the reason contains a line break (C24_add_ignore_exit)."
 },
 "C25": {
  "note": "Nearest configuration and partition proved for all trees and inputs (PathResolver of Air assumed to return the longest prefix; files inside the user's configuration directory excluded). 'Exactly once' proved for inputs none of which contains another; refuted for overlapping inputs (jarl check a a/b.R), where the file is linted and counted twice."
 },
 "C27": {
  "note": "Proved for non-blank reasons; --add-jarl-ignore accepts a blank reason, whose comment is unexplained."
 },
 "C28": {
  "note": "Hash map iteration order is an arbitrary permutation."
 },
 "C29": {
  "note": "Exact in UTF-16 and UTF-32, and round trip in all three encodings; refuted in UTF-8: a position inside a character is accepted (the edit then panics) and a position past the end of a line is refused instead of clamped. Lines end at \\n only."
 },
 "C30": {
  "note": "One ranged change: exact. Several: proved when sent from the end of the text to its beginning (what editors do for simultaneous edits); refuted in general, since all positions are resolved against the document before the notification (`a` then `b` typed gives `ba`), and a change without range (full text) is refused."
 },
 "C31": {
  "note": "Known documents and isolation: exact for every history. Text: equal to the editor's for every history of well-behaved notifications (see C30 for the others)."
 },
 "C32": {
  "note": "Exact for ranges on character boundaries (all ranges of the linter)."
 },
 "C33": {
  "note": "File patterns: exact glob semantics on the file name. Directory patterns: exact, but the file name counts as a directory (refuted part). Patterns with an inner slash never match."
 },
 "C34": {
  "note": "UTF-16 also when it is not in the list, as the protocol prescribes."
 },
 "C36": {
  "note": "The claim is false: --fix-only alone does not fix anything. Proved instead: fixing mode is exactly --fix or --unsafe-fixes, and --fix-only drops exactly the rules without a fix."
 },
 "C38": {
  "note": "Refuted by `Depends: R (>=)`, which panics. Proved: no panic when each dependency on R has the form `R (>= v)`."
 },
 "C41": {
  "note": "Proved: where no if has a constant condition, every report begins with the statement right after the one its message mentions, in the same braces (functions and top level); in general the mentioned statement exists. Refuted: with a constant condition the message may mention a next that comes later (C41_before_the_next_refuted), and a dead branch whose sibling returns is reported as following a terminating if/else; without constant condition, code after an if/else whose branches end in break/next, or contain a loop, is said to be in a branch that is never executed."
 },
 "C42": {
  "note": "Exact condition for the panic (TextRange::new with end before start), reachable: an end comment inside a call and a start comment at the end of the file."
 },
 "C43": {
  "note": "Suppression effect proved; refuted: a jarl-ignore-file comment inside a leading `{` (after code) is in effect for the whole file."
 },
 "C44": {
  "note": "Document-level result exact; refuted: a needed suppression is reported outdated when its rule is not selected."
 },
 "C45": {
  "note": "Proved for jarl-ignore and jarl-ignore-chunk; refuted for -file, -start and -end, which are silently ignored."
 },
 "C46": {
  "note": "Placement proved for every tree; refuted: `x <- \"a\\nb\"; T` gets its comment inside the string."
 },
 "C48": {
  "note": "Proved for one change; refuted for several: an out-of-range later change leaves the text half edited with the old line table, and the next notification panics."
 },
 "C49": {
  "note": "Proved for comments on their own line (every encoding), for inline comments when the column is the same in bytes, and for the chunk comment. Refuted: inline comments after non-ASCII text in UTF-16 go inside a token; in Rmd files a comment on its own line goes to a line number relative to the chunk, i.e. to the wrong place of the document."
 },
 "C50": {
  "note": "Proved with the threshold as the code defines it (total over the run, smallest threshold). Refuted per package: two packages each within their own threshold lose their diagnostics."
 },
 "C51": {
  "note": "For results with one entry per file (see C25 for overlapping inputs). The order of error messages may differ."
 },
 "C53": {
  "note": "Proved for the full, concise and json formats; refuted for github, which prints no error."
 },
 "C54": {
  "note": "Editor: proved. Command line: proved when the file has a project configuration or the user's directory has none; refuted otherwise: the user's configuration is found and read but never applied to files outside that directory (given that PathResolver resolves by prefix)."
 },
 "C55": {
  "note": "Proved for packages stored outside directories called tests, src or inst; refuted for /src/pkg, where unused test helpers are not reported."
 },
 "C56": {
  "note": "Completeness for ASCII names and distinct files; order independence for all names."
 },
 "C57": {
  "note": "Exact characterization of the files checked (given what the glob matcher does with plain patterns). Refuted as a claim about the configuration of the file: during the walk only the exclude patterns of the first configuration are applied, to all projects, and a directory pattern (dir/) in any other configuration has no effect. Partial: it holds with at most one configuration."
 },
 "C58": {
  "note": "Refuted in general: `a + !(x > y)` changes value, `a == !(x > y)` becomes a syntax error, and a line break inside the parentheses splits the statement. Partial: harmless exactly where a comparison may stand (looser neighbours, no stray line break)."
 },
 "C59": {
  "note": "Refuted: the unary operator is not checked (any(-x) becomes !all(x)) and the fix is not parenthesised (any(!x) + a). Partial: harmless for `!` and looser neighbours."
 },
 "C60": {
  "note": "Refuted: the bare condition is not parenthesised (-ifelse(x > y, TRUE, FALSE)), and a numeric condition changes type. Partial: logical condition, in a position where it may stand bare."
 },
 "C61": {
  "note": "Refuted: `> 0` is not parenthesised, further arguments of any() are dropped, and other packages' any() is rewritten. Partial: the nested and the two piped forms with one argument."
 },
 "C62": {
  "note": "Harmless in every position for logical operands; refuted for numeric ones (2 == TRUE is FALSE)."
 },
 "C63": {
  "note": "Refuted: the default is not parenthesised (x %||% a + y), x is evaluated once instead of twice, T <- 5 becomes TRUE <- 5 and for (T in x) becomes a syntax error. Partial otherwise."
 },
 "C64": {
  "note": "Proved for the fifteen rules whose fix is a call; refuted for any_duplicated, length_test, all_equal (isFALSE form) and repeat; partial versions for the last three. Refuted also for true_false_symbol on a loop variable: for (T in x) y is rewritten to for (TRUE in x) y, which is not R."
 },
 "C65": {
  "note": "Every documented form is proved to be rewritten as documented (Spec/RDocumented.v lists the forms). Refuted side: grep(p, x, value = FALSE), which the documentation does not show, is rewritten too."
 },
 "C66": {
  "note": "Refuted: `a = b = c` becomes `a <- b = c`, `f(x <- 1)` becomes a named argument, `while (x <- y)` becomes a syntax error. Partial: harmless where the neighbouring operators allow it."
 },
 "C67": {
  "note": "Refuted: with a missing outer condition and a FALSE inner one the original stops with an error and the rewritten program goes on. Partial: when the outer condition is TRUE or FALSE and neither is a string."
 },
 "C68": {
  "note": "Assumes |, &, ! on scalars have their usual meaning (plain_logic) and literals are decimal (numerals); literals so small that they round to zero count as nonzero."
 },
 "C69": {
  "note": "Exact description of what is searched; refuted: the function of a call and what [ ], [[ ]], $ and @ are applied to are skipped. unreachable_code is a parameter of this model (its own model is Model/Cfg.v)."
 },
 "C70": {
  "note": "Exactly the code that makes a rule fail is characterised (six forms); refuted as stated: each form contains code R can read. Numeric literals are assumed to start like R's (numerals); unreachable_code is assumed not to fail."
 },
 "C71": {
  "note": "All 55 single-node checks have an exact characterisation (Spec/RFlagged.v); unreachable_code's is Model/Cfg's. Refuted against the documentation: for_loop_index misses operators and counts argument names, implicit_assignment reports a parenthesised body."
 },
 "C72": {
  "note": "R's matching (exact, then partial names, then position) is specified in Spec/RArguments.v. Proved when no earlier formal is named, and for all calls with no more arguments than the rule takes (ifelse, apply, do.call, expect_length, expect_s3_class, expect_type); refuted for download.file, gsub, ifelse(test = x, ..), partial names and sample(size = 3, 1:10)."
 },
 "C73": {
  "note": "Refuted: jarl check --fix --select ALL runs for ever on one line with two nested grepl calls that have fixed = f (each pass adds fixed = TRUE to the outer call and skips the inner fix). Partial: finishes when every fix is shorter than what it replaces."
 },
 "C74": {
  "note": "Refuted with the default rules in three ways: no space next to a keyword, incompatible fixes (a > 0 != y), and fixes applied at wrong offsets because the shift is counted twice. Partial: if jarl reports no error then R can read the result."
 },
 "C75": {
  "note": "Refuted: a comment before (or after) the code makes the one inside disappear, and assignment ignores comments altogether. Partial: a fix is offered for code with a comment inside only if a comment also comes right before or right after this code."
 },
 "C76": {
  "note": "Refuted with the default rules (ifelse(x > y, FALSE, TRUE)). Partial: holds when the last report has no fix left."
 },
 "C77": {
  "note": "For all rules but unreachable_code, which reports a part of a function. For assignment, repeat and if_always_true the reported range is a part of the expression in the code; the model gives the range of the expression, which is the range of the fix."
 },
 "C78": {
  "note": "Any interleaving of main thread and workers (Model/Server); linter and disk are parameters. Proved: at most one answer, always; exactly one, inevitably, if messages are well formed and the linter does not panic. Refuted: malformed parameters (the error is only logged) and a panic of the linter (C42) leave a request without answer."
 },
 "C79": {
  "note": "Any interleaving of main thread and workers (Model/Server); linter and disk are parameters. Proved: published diagnostics are those of a saved text with that version, one result per save; in order with one worker; right when the editor waits for results. Refuted: with two workers an older result can arrive last; a result can arrive after the file was closed; a text that cannot be parsed leaves the old diagnostics."
 },
 "C80": {
  "note": "Any interleaving of main thread and workers (Model/Server); linter and disk are parameters. Proved if the linter does not panic. Refuted otherwise: each panic ends a worker, the original task_receiver keeps the channel open, so after 100 more tasks the main thread is blocked for ever in send."
 },
 "C81": {
  "note": "Any interleaving of main thread and workers (Model/Server); linter and disk are parameters. An error of the linter gives an empty list of actions."
 },
 "C82": {
  "note": "Any interleaving of main thread and workers (Model/Server); linter and disk are parameters. "
 },
 "C83": {
  "note": "Any interleaving of main thread and workers (Model/Server); linter and disk are parameters. Refuted part: exit without shutdown ends with status 0 (std::process::exit(0))."
 },
 "C84": {
  "note": "Proved for one fix, if the ends of the new text are cut from their neighbours by R's lexer and its line breaks are inside brackets. Refuted without the first condition: `else!(x > y)` becomes `elsex <= y`. The code of several fixes in one pass is not covered. C84_usual_places gives simple conditions on the neighbouring characters that imply the two cut conditions."
 },
 "C85": {
  "note": "Whole command line -> configuration -> text -> diagnostics. Checks of the whole document and unreachable_code are left out of `all_reported` (they have their own properties); air's lexer and parser are replaced by R's grammar."
 },
 "C86": {
  "note": "C86_several_fixes is the full statement for disjoint ranges of expressions of the file (any number, any order of nesting around them); C86_pass_partial and C86_run_partial apply it to apply_fixes and to check_path, for fixes that are in order, do not overlap and replace as many bytes as characters (C01_fix_splice_refuted and C01_fix_splice_nonascii_refuted: without this, files are corrupted) and whose neighbouring characters keep them apart (C84_run_together_refuted). The rule theorems show that the fixes of C58 to C63, C66 and C67 are of the kind required, under the conditions of those properties."
 },
 "C87": {
  "note": "Proved for files in R/ of a package or outside of the checked packages, packages that are not nested, and R versions that are given or not looked up (no checked file beside a DESCRIPTION). False otherwise: C87_tests_refuted (unused_function in tests/ needs a checked R/ file), C87_version_refuted (a script beside DESCRIPTION changes the R version for all files of its group), C22_nested_package_refuted. What is shown may also depend on the number of unused_function findings in the whole run, as documented (C28)."
 },
 "C88": {
  "note": "Proved for files in R/ of a package or in no package, under the conditions of C54 (no user configuration, or a project configuration) and C87; editor and command line then fail together and agree except that the editor withholds unused_function by its own count. False otherwise: C88_threshold_refuted (the editor counts over the whole package, the command line over the checked files), C88_tests_refuted, C54_command_line_settings_refuted. Also C88_default_exclude_refuted: without configuration file, the default exclusions (renv/ …) apply on the command line and not in the editor; C88_excluded: a file excluded by its configuration shows nothing."
 },
 "C89": {
  "note": "For every rule with a fix except unreachable_code (whose fix only deletes); Spec/RMention.v lists what each rule may write. sample_int needs its first argument unnamed or an argument called n, and without that it is false: sample(size = 5, 1:x) becomes sample.int(x, 1:x) (C89_sample_int_refuted)."
 },
 "C90": {
  "note": "Proved for 23 rules (Spec/RMention.v, keeping), and for fixed_regex when no `fixed` argument is given and there are at most four arguments. False of 21 other rules (C90_variables_dropped_refuted), e.g. any(is.na(x), y), grep(\"a\", x, value = y), substr(x, 1, y) == \"a\", expect_equal(x, NULL, info = y). Operators followed by a name are assumed to be $ and @."
 },
 "C91": {
  "note": "Proved for all 64 rows of docs/rules.qmd: groups and required R versions; names except unused_suppression (documented, an error when used) and outdated_suppression (undocumented); enabled by default except sample_int and unused_function (documented as enabled, off by default); fix column except class_equals (documented unsafe, applied by --fix) and browser and empty_assignment (safe in the program's table, no report carries a fix)."
 },
 "C92": {
  "note": "Proved for file names without comma, double colon, percent code and line break, and messages without percent code and line break; refuted for the others (nothing is escaped). How GitHub reads a command is Spec/OutputSpec.v, after the runner's source. Messages are inputs of the model."
 },
 "C93": {
  "note": "Proved for paths and messages without line break, and paths without ' ['; refuted for messages with a line break (argument names). Terminal colours are off in the model; the links printed without NO_COLOR are modelled."
 },
 "C94": {
  "note": "The text of the summary and of the statistics; which counts are given is C52 and C28. The header of a section is 49 characters wide, not 57 as documented (the padding is computed from bytes)."
 },
 "C95": {
  "note": "Proved for the warnings of check.rs:183-241; whether diagnostics are hidden is C50. Refuted for an entry of a configuration file with spaces around the name: it selects the rule (config.rs trims) without the warning (check.rs:228 does not)."
 },
 "C96": {
  "note": "Proved against a JSON parser written after RFC 8259 (Spec/JsonSpec.v). Refuted when no R file is found: a line of text is printed instead (commands/check.rs:73-80). The printer of serde_json is modelled from its documentation; file names that are not UTF-8 are left out."
 },
 "C97": {
  "note": "Exact for the simple forms given what Spec/RFunctions.v says of order, sort, which, grepl, grep, levels, nlevels, length, seq_along, seq_len, seq, [:], class, inherits, sapply and lengths (all as requirements on the interpretation, met by Spec/RLibrary.v). Missing: named and extra arguments (decreasing, ignore.case, ...), vapply and purrr forms, S4 classes. Refuted without the side conditions: missing values for sort, empty inputs for seq, seq2 and lengths, several classes for class_equals."
 },
 "C98": {
  "note": "For texts without escape characters; with one in a file name (or in an argument name quoted in a message) the terminal interprets it, also with NO_COLOR. The terminal is Spec/OutputSpec.v, [screen]: only OSC sequences are interpreted."
 },
 "C99": {
  "note": "Proved when duplicated_function_definition and unused_function are off, or for files outside packages. Refuted otherwise: the package analysis is computed before the first pass and its ranges are reused after the text has changed. One group of files (one configuration); the version-control gate is passed."
 },
 "C100": {
  "note": "Proved when duplicated_function_definition and unused_function are off, or for files outside packages. Refuted otherwise: the package analysis reads the saved file, and its ranges are used in the text of the editor."
 },
 "C101": {
  "note": "Exact for the unnamed-argument forms, given what Spec/RExpect.v says the expectations judge (requirements on the interpretation, met by Spec/RLibrary.v); failure messages and the value of the call are left out. Missing: named and extra arguments, expect_identical with numbers, objects with attributes. Refuted without the side conditions: a value of class call has no class attribute (the rule says it does not report such cases), two classes, is.language on a symbol, !x on 0, parentheses around an = assignment, several strings for expect_match and expect_no_match."
 },
 "C102": {
  "note": "Exact for R files and for the chunk action. Refuted: a comment without a reason, which silences nothing, hides the action (C102_no_reason_refuted); a chunk comment for seq2 hides the chunk action for seq (the test is a substring test); in documents the line above is looked for at the line number of the chunk, so a comment there is not seen."
 },
 "C103": {
  "note": "Against a model of POSIX pathname resolution (Spec/PathSpec.v). Refuted: a .. that follows a symbolic link is removed with the link, so link/../x.R is read (and fixed) as x.R, another file. Proved when no .. comes after a link. Names that are not Unicode are left out; path-absolutize is modelled from its documentation, for Unix."
 },
 "C104": {
  "note": "Messages of all 53 node rules are modelled (Model/Messages.v); the forms quoted in them are read with R's lexer and grammar (Spec/AdviceSpec.v). Refuted: the advice for 1:nrow(x) is not R code (one parenthesis too many, seq.rs:81); the message for any(-x) shows any(!x); the advice for class(x) != 'a' is the opposite of the fix; the names in duplicated_arguments come in a random order; an assignment in the condition of a while inside an if is told to be in if(). The 21 rules with a fix whose advice shows code are listed in the specification; rules whose suggestion only names a function (is.na()) are left out of the first theorem, those whose body shows no form out of the second."
 },
 "C105": {
  "note": "End to end, for one rule: C105_checked is about the text of the file before and after the command, C105_pass about one pass, C105_interrupted and C105_several about any moment of a run. The grammar is that of Spec/RLex.v and Spec/RGrammar.v; `decimals` says that .5 and 0.5 are the same number for R. Numbers in places the search does not enter (what is before a bracket, a $ or the parenthesis of a call) stay as they are."
 },
 "C106": {
  "note": "C106_only_reports is about any configuration whose rules have no fix; the other two are about true_false_symbol alone, whose fix is computed (TRUE, FALSE) and always dropped. The range reported for a loop over T or F is that of the loop in the model and that of its variable in the code: the theorem says only that it is inside the loop. Places the search does not enter (what is before a bracket, a $ or the parenthesis of a call) are not reported."
 }
}