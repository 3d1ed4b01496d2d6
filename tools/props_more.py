p("C35","Parallel processing does not influence the result",
 "Files are linted and fixed in parallel; whatever the interleaving of their reads and writes, each file gets the diagnostics and the final content it would get if processed alone, and files that were not requested are untouched.",
 "every set of distinct files, every linter and every schedule","interleavings cannot be enumerated by tests",
 [C+"check.rs:check",C+"check.rs:lint_fix"])
p("C36","`--fix-only` implies `--fix`",
 "As its help text says, `--fix-only` alone applies fixes; and it runs exactly the selected rules that have a fix.",
 "every flag combination and selection","flags interact with every rule selection",
 ["crates/jarl/src/args.rs:CheckCommand",C+"config.rs:build_config",C+"check.rs:check_path"])
p("C37","The R version required in DESCRIPTION is found",
 "If the Depends field of the DESCRIPTION next to a linted file (single line or continued on indented lines, anywhere in the file) lists `R (>= a.b.c)`, the project's minimum R version is (a,b,c).",
 "every DESCRIPTION text, layout and version","layouts of DCF files are unbounded",
 [C+"description.rs:parse_dcf",C+"description.rs:get_depend_r_version",C+"config.rs:determine_minimum_r_version"])
p("C38","A DESCRIPTION file cannot crash the linter",
 "Whatever the content of a DESCRIPTION file, reading the R version from it either gives a version, nothing, or an error; it does not panic.",
 "every text","arbitrary user files",
 [C+"description.rs:extract_version_from_dependency"])
p("C39","Rule options replace or extend the defaults, never both",
 "For each rule with a list option, the list in effect is the replacement list if given, else the defaults plus the extension; giving both is an error, and so is an unknown assignment operator; nothing else is.",
 "every combination of option tables","combinations of five tables with arbitrary lists",
 [C+"rule_options/mod.rs:resolve_with_extend",C+"rule_options/mod.rs:ResolvedRuleOptions"])
p("C40","Code after return, stop, break or next is reported",
 "In any pair of braces that is the body of a function, branch or loop, every statement that follows a call to return() or to a stopping function, or (inside a loop) a break or next, begins in a reported range.",
 "every function body, nesting and position","unboundedly many program shapes",
 [C+"lints/base/unreachable_code/cfg/builder.rs",C+"lints/base/unreachable_code/cfg/reachability.rs:find_unreachable_code"])
p("C41","The message says why the code is unreachable",
 "The message names the reason: code reported as coming after a return, break, next, stopping call or terminating if/else stands right after such a statement, and a branch excluded by a constant condition is reported as a branch that can never be executed.",
 "every function body","reasons are reconstructed from the graph shape",
 [C+"lints/base/unreachable_code/cfg/reachability.rs:determine_unreachable_reason"])
p("C42","Suppression comments cannot crash the linter",
 "Whatever comments a file contains and wherever they stand, reading the suppressions does not panic.",
 "every placement of directive comments in every syntax tree","crashes depend on the relative placement of two comments",
 [C+"suppression.rs:SuppressionManager",C+"suppression.rs:from_node"])
p("C43","File-level suppressions count only at the top of the file",
 "A `jarl-ignore-file` comment placed before any code hides every diagnostic of its rule in the file; placed after code it has no effect and is reported as misplaced.",
 "every file and comment placement","placements and trees are unbounded",
 [C+"suppression.rs:SuppressionManager"])
p("C44","A suppression is outdated only for rules that were run",
 "The diagnostics of a document are the uncovered ones plus, if enabled, one outdated report per suppression that hid nothing; a suppression of a rule that was not run is not reported as outdated.",
 "every document, rule selection and linter result","depends on rule selection and all comments",
 [C+"analyze/document.rs:check_document",C+"suppression.rs:get_unused_suppressions"])
p("C45","A directive with a forgotten rule name is reported",
 "A `jarl-ignore`, `-chunk`, `-file`, `-start` or `-end` comment without a rule name is reported as a blanket suppression.",
 "every comment text","comment texts are unbounded",
 [C+"directive.rs:parse_comment_directive"])
p("C46","Suppression comments are inserted between tokens",
 "The comment inserted for a diagnostic goes above the line of an enclosing expression that starts its line, or on a fresh line in front of an enclosing expression; never inside a string.",
 "every source, tree and diagnostic position","positions and trees are unbounded",
 [C+"suppression_edit.rs:compute_suppression_insert_point"])
p("C47","In Rmd files suppression comments are inserted inside the chunk",
 "For a diagnostic located in an R chunk, an insertion point is found and it lies inside that chunk, never in the prose or on a fence line.",
 "every document, chunk and diagnostic position","documents and positions are unbounded",
 [C+"suppression_edit.rs:create_suppression_edit_in_rmd"])
p("C48","A refused change leaves the document as it was",
 "When the server answers a didChange notification with an error, its copy of the document, including its version and line table, is the one it had before, and later notifications are handled normally.",
 "every document and list of changes","notification contents and histories are unbounded",
 ["crates/jarl-lsp/src/document.rs:apply_changes","crates/jarl-lsp/src/session.rs:Session::update_document"])
p("C49","The suppression quick fix edits the place the command line would edit",
 "Applying the editor quick fix that suppresses a diagnostic (or a rule for a whole chunk) gives the text that the command line's --add-jarl-ignore would produce for that diagnostic, in the negotiated encoding, in R files and in chunks of documents.",
 "every source, diagnostic, tree and encoding","positions, encodings and trees are unbounded",
 ["crates/jarl-lsp/src/server.rs:diagnostic_to_jarl_ignore_rule_action","crates/jarl-lsp/src/server.rs:diagnostic_to_jarl_ignore_chunk_action",C+"suppression_edit.rs:create_suppression_edit_in_rmd"])
p("C50","Diagnostics are withheld only as documented",
 "Every diagnostic found is reported, except that the unused_function diagnostics are withheld as a whole when there are more than the configured threshold and the rule was not selected by name; the human-readable formats then say how many were withheld.",
 "every set of results, configurations and rule selections","counts, configurations and selections are unbounded",
 ["crates/jarl/src/commands/check.rs:hide_unused_function_if_needed","crates/jarl/src/commands/check.rs:check"])
p("C51","The report does not depend on the processing order",
 "Diagnostics are reported in order of file and position, and the reported list, the exit status, the summary and the counts are the same for every order in which files and configuration groups were processed.",
 "every set of results and every processing order","parallel walk and hash map iteration give arbitrarily many orders",
 ["crates/jarl/src/commands/check.rs:check",C+"diagnostic.rs:Ord"])
p("C52","The summary counts are exact",
 "The summary shows the number of reported diagnostics and exactly how many of them have a safe and an unsafe automatic fix.",
 "every list of diagnostics","counting over arbitrary lists",
 ["crates/jarl/src/output_format.rs:print_summary",C+"diagnostic.rs:has_safe_fix",C+"diagnostic.rs:has_unsafe_fix"])
p("C53","Every file that failed is reported",
 "Each file that could not be linted is reported with its error in the output, whatever the output format.",
 "every list of results and output format","all combinations of results and formats",
 ["crates/jarl/src/output_format.rs:Emitter","crates/jarl/src/output_format.rs:GithubEmitter"])
p("C54","The settings in force are the documented ones",
 "A file is linted with the settings of the nearest jarl.toml above it; without any, with those of the jarl.toml of the user's configuration directory; without that, with the defaults; on the command line and in the editor alike.",
 "every directory tree, configuration placement and set of inputs","directory trees of arbitrary depth, several inputs sharing a visited set",
 [C+"discovery.rs:discover_settings","crates/jarl/src/commands/check.rs:check","crates/jarl-lsp/src/lint.rs"])
p("C55","How a file of a package is treated does not depend on where the package is stored",
 "A file below tests/, inst/tests/, inst/tinytest/ or src/ of a package is analysed according to that directory, wherever the package itself is stored.",
 "every package location and file","locations are arbitrary paths",
 [C+"package.rs:file_scope_from_path"])
p("C56","unused_function reports every function that nothing mentions",
 "A function defined in R/, tests/ or inst/ of a package whose name is mentioned nowhere else in that area (nor, for R/, in the other areas or in NAMESPACE, nor is a method of a mentioned generic) is reported, in whatever order files and packages are processed.",
 "every package content, discovery order and configuration","quantifies over all file contents and orders",
 [C+"lints/base/unused_function/unused_function.rs:compute_unused_from_shared",C+"lints/base/unused_function/unused_function.rs:parse_namespace_exports"])
p("C57","Which files are checked",
 "The files checked are exactly the R, Rmd and qmd files found below the inputs (and every file named as an input) that are not excluded by the exclude patterns (or the default ones) of the nearest configuration and that match its include patterns if it has any.",
 "every directory tree, set of configurations, pattern lists and command line","trees, configurations and patterns are unbounded",
 [C+"discovery.rs:discover_r_file_paths","crates/jarl/src/commands/check.rs:check"])
p("C58","The fix for !(x > y) keeps the meaning of the program",
 "When jarl rewrites a negated comparison `!(x OP y)` with the opposite operator, R reads the new file and, for operands that are plain vectors or NULL, the program computes the same values and effects.",
 "every file, every place of the expression in it, every operands and every meaning of the rest of the language","surrounding code, operands and their values are unbounded",
 [C+"lints/base/comparison_negation/comparison_negation.rs:comparison_negation"])
p("C59","The fix for any(!x) and all(!x) keeps the meaning of the program",
 "When jarl rewrites any(!x) into !all(x) (or all(!x) into !any(x)), R reads the new file and, for logical or numeric x, the program computes the same values and effects, NA included.",
 "every file, place, operand and meaning of the rest of the language","surrounding code and values are unbounded",
 [C+"lints/base/outer_negation/outer_negation.rs:outer_negation"])
p("C60","The fix for ifelse(x, TRUE, FALSE) keeps the meaning of the program",
 "When jarl replaces ifelse(), dplyr::if_else() or data.table::fifelse() with constant TRUE/FALSE branches by the condition or its negation, R reads the new file and, for a logical condition, the program computes the same values and effects, however the arguments are named and ordered.",
 "every file, place, condition, argument order and naming","surrounding code, conditions and values are unbounded",
 [C+"lints/base/redundant_ifelse/redundant_ifelse.rs:redundant_ifelse",C+"utils.rs:get_arg_by_name_then_position"])
p("C61","The fixes for any(is.na(x)) and any(duplicated(x)) keep the meaning of the program",
 "When jarl rewrites any(is.na(x)) into anyNA(x), or any(duplicated(x)) into anyDuplicated(x) > 0, also in their piped forms, the program computes the same values and effects.",
 "every file, place, argument and meaning of the rest of the language","surrounding code and values are unbounded",
 [C+"lints/base/any_is_na/any_is_na.rs:any_is_na",C+"lints/base/any_duplicated/any_duplicated.rs:any_duplicated",C+"utils.rs:get_nested_functions_content"])
p("C62","The fix for x == TRUE keeps the meaning of the program",
 "When jarl removes a comparison with TRUE or FALSE, R reads the new file and, for logical operands, the program computes the same values and effects, wherever the comparison stands.",
 "every file, place and operand","surrounding code and values are unbounded",
 [C+"lints/base/redundant_equals/redundant_equals.rs:redundant_equals"])
p("C63","The fixes of coalesce and true_false_symbol keep the meaning of the program",
 "Replacing `if (is.null(x)) y else x` by `x %||% y`, and T and F by TRUE and FALSE, leaves a file R can read that computes the same values and effects (for x without side effects; when T and F have their usual values).",
 "every file, place, operands and block forms","surrounding code and values are unbounded",
 [C+"lints/base/coalesce/coalesce.rs:coalesce",C+"lints/base/true_false_symbol/true_false_symbol.rs:true_false_symbol"])
p("C64","A fix stays where the diagnostic is",
 "The text a fix inserts is read by R as a single expression in place of the reported one; the code around it is read as before, whatever operators surround it.",
 "every file, every place and every rewriting rule","surrounding operators and nesting are unbounded",
 [C+"lints/base/",C+"utils.rs:get_nested_functions_content",C+"utils.rs:drop_arg_by_name_or_position"])
p("C65","The documented rewrites happen",
 "For every form a rule's documentation shows (with any expressions in place of its variables, any namespace prefix, any surrounding code), the rule reports that expression and its fix is the documented replacement, applied to those expressions.",
 "every rule with a fix, every operand, argument and place","operands, names and surroundings are unbounded",
 [C+"lints/base/",C+"lints/testthat/","docs/rules/"])
p("C66","Rewriting an assignment keeps the meaning of the program",
 "When jarl replaces one assignment operator by another (`=`, `->` to `<-`, or to `=`), R reads the new file and the program computes the same values and effects.",
 "every file, place, target, value and setting of the rule","surrounding code, targets and values are unbounded",
 [C+"lints/base/assignment/assignment.rs:assignment"])
p("C67","Merging nested conditions keeps the meaning of the program",
 "When jarl rewrites `if (a) { if (b) z }` into `if (a && b) z`, R reads the new file and the program computes the same values and effects.",
 "every file, place, conditions and body","conditions and values are unbounded",
 [C+"lints/base/unnecessary_nesting/unnecessary_nesting.rs:unnecessary_nesting"])
p("C68","A condition reported as always true is never false",
 "When jarl reports `if (c) t` as always true, evaluating c in any R session never gives a condition that is FALSE, whatever variables and calls c contains.",
 "every condition and every meaning of its variables and calls","conditions are nested without bound and contain arbitrary code",
 [C+"lints/base/if_always_true/if_always_true.rs:if_always_true",C+"lints/base/if_always_true/if_always_true.rs:evaluate_constant_condition"])
p("C69","The whole file is searched and rules do not interfere",
 "A rule that is on reports every expression of the file on which it fires, and nothing else; what it reports does not depend on which other rules are on, nor on the other statements of the file.",
 "every file, nesting and selection of rules","files are nested without bound and the selections are exponentially many",
 [C+"analyze/expression.rs:check_expression",C+"analyze/",C+"checker.rs:report_diagnostic",C+"check.rs:get_checks"])
p("C70","Code R can read is never refused",
 "jarl gives diagnostics for every file R can parse: no expression in it makes a rule return an error or panic, which would lose the diagnostics of the whole file.",
 "every readable file and every selection of rules","argument lists, literals and nesting are unbounded",
 [C+"lints/base/length_test/length_test.rs:length_test",C+"lints/base/lengths/lengths.rs:lengths",C+"lints/base/sample_int/sample_int.rs:sample_int",C+"lints/base/duplicated_arguments/duplicated_arguments.rs:duplicated_arguments",C+"lints/base/if_always_true/if_always_true.rs:evaluate_constant_condition"])
p("C71","Each rule reports exactly the code it is documented to report",
 "In every file, each rule reports an expression if and only if it has the form the rule is about (as spelled out, rule by rule, on the syntax tree), wherever it stands: no missed and no spurious reports.",
 "every file, every expression and its surroundings, every rule and every rule option","expressions, argument lists and surroundings are unbounded",
 [C+"lints/base/",C+"lints/testthat/",C+"utils.rs:get_arg_by_name_then_position",C+"analyze/"])
p("C72","Rules read the arguments of a call as R does",
 "When a rule depends on the value of an argument (mode of download.file, yes and no of ifelse, MARGIN of apply, fixed of grepl, ...), the value it looks at is the one R's argument matching gives to that formal, for any order of arguments and any use of names.",
 "every argument list, every order and naming of the arguments","argument lists, names and orders are unbounded",
 [C+"utils.rs:get_arg_by_name_then_position",C+"utils.rs:drop_arg_by_name_or_position",C+"lints/base/redundant_ifelse/redundant_ifelse.rs:redundant_ifelse",C+"lints/base/matrix_apply/matrix_apply.rs:matrix_apply",C+"lints/base/download_file/download_file.rs:download_file",C+"lints/base/fixed_regex/fixed_regex.rs:fixed_regex"])
p("C73","`--fix` finishes",
 "Running `jarl check --fix` on any file comes to an end, whatever the file contains: fixes do not keep producing new fixes.",
 "every file and every selection of rules","the number of passes depends on the file and has no bound known in advance",
 [C+"check.rs:lint_fix",C+"fix.rs:apply_fixes",C+"lints/base/fixed_regex/fixed_regex.rs:fixed_regex"])
p("C74","`--fix` leaves a file that R can read",
 "If R can parse a file before `jarl check --fix` then it can parse it afterwards, whatever the spacing of the code, the nesting and the number of fixes.",
 "every file R can parse","texts, spacing, nesting and combinations of fixes are unbounded",
 [C+"check.rs:lint_fix",C+"check.rs:get_checks",C+"fix.rs:apply_fixes",C+"lints/base/comparison_negation/comparison_negation.rs:comparison_negation"])
p("C75","`--fix` does not remove comments",
 "A fix is not applied to code with a comment inside: every comment of the file is still there after `jarl check --fix`.",
 "every file, and every place of a comment","texts and places of comments are unbounded",
 [C+"utils.rs:node_contains_comments",C+"check.rs:get_checks",C+"lints/base/assignment/assignment.rs:assignment"])
p("C76","Running `--fix` again changes nothing",
 "After `jarl check --fix` has finished without error, running it again leaves the file as it is.",
 "every file and every selection of rules","files and combinations of fixes are unbounded",
 [C+"check.rs:lint_fix",C+"fix.rs:apply_fixes"])
p("C77","A diagnostic covers an expression of the file, and its fix replaces that expression",
 "The byte range of every diagnostic starts at the first byte and ends at the last byte of one expression of the file as R reads it, is not empty and lies within the file; its fix, if it has one, has the same range.",
 "every file, rule and nesting, and any spacing and comments","texts and nesting are unbounded",
 [C+"check.rs:get_checks",C+"diagnostic.rs:Diagnostic",C+"lints/",C+"analyze/"])
S="crates/jarl-lsp/src/"
p("C78","Every request to the language server is answered exactly once",
 "Each request of the editor (code action, shutdown, or a method the server does not know) gets one response with its id: never two, and always one once the server has caught up, whatever the order in which its threads run.",
 "every linter, number of worker threads, sequence of messages and schedule","message sequences and thread schedules are unbounded",
 [S+"server.rs:handle_request",S+"server.rs:worker_thread",S+"server.rs:handle_code_action_request",S+"client.rs:send_response"])
p("C79","The editor shows the diagnostics of the text saved last",
 "When the server has caught up, the diagnostics the editor received last for an open file are those of the text that was saved last, and none are shown for a closed file; each published version goes with the text that had this version.",
 "every linter, number of worker threads, sequence of messages and schedule","message sequences and thread schedules are unbounded",
 [S+"server.rs:handle_notification",S+"server.rs:handle_lint_task",S+"client.rs:publish_diagnostics",S+"session.rs:take_snapshot"])
p("C80","The language server never blocks",
 "Whatever the messages, the server goes back to waiting for the next one: neither the bounded channel of tasks nor a failing check stops it for good.",
 "every linter, number of worker threads, sequence of messages and schedule","message sequences and thread schedules are unbounded",
 [S+"server.rs:main_loop",S+"server.rs:run",S+"server.rs:worker_thread"])
p("C81","Quick fixes are computed for the text at the time of the request",
 "The answer to a code action request holds the actions for the requested range in the text the document had when the request was received, even if the document changes or closes before the answer is sent.",
 "every linter, number of worker threads, sequence of messages and schedule","message sequences and thread schedules are unbounded",
 [S+"server.rs:handle_request",S+"server.rs:generate_code_actions",S+"session.rs:take_snapshot"])
p("C82","Messages meant to be shown once per session are shown at most once",
 "The message about the configuration in another directory and the one about hidden unused_function diagnostics are each shown at most once per session, even if several threads want to show them at the same time; the latter is shown if diagnostics were hidden.",
 "every linter, number of worker threads, sequence of messages and schedule","message sequences and thread schedules are unbounded",
 [S+"client.rs:notify_unused_fn_threshold_once",S+"session.rs:check_and_notify_config"])
p("C83","A session ends as the protocol says",
 "A shutdown request is answered and is the last message handled; exit without shutdown ends the process with status 1.",
 "every linter, number of worker threads, sequence of messages and schedule","message sequences and thread schedules are unbounded",
 [S+"server.rs:main_loop",S+"server.rs:handle_notification"])
p("C84","A fix replaces the expression it reports, and nothing else in the text is read differently",
 "When a fix is applied to the text of a file, R reads the new text as the old one with the new code in place of the reported expression: the code around it, with its spacing, line breaks and comments, keeps its meaning.",
 "every file, nesting, spacing and comments, and every replacement text","texts and nesting are unbounded",
 [C+"fix.rs:apply_fixes",C+"diagnostic.rs:Fix",C+"check.rs:lint_fix",C+"lints/"])
p("C85","What is reported and fixed is what was asked for",
 "Every diagnostic of a file is of a rule that was selected (or extended), is not ignored and that the version of R allows; every finding of a rule that runs is reported at its place; a fix is offered only if the rule has one and the configuration allows it (with --fix alone: only safe ones); without --fix and --unsafe-fixes no file is changed.",
 "every command line, configuration, file and nesting","configurations, texts and nesting are unbounded",
 [C+"check.rs:get_checks",C+"check.rs:check_path",C+"check.rs:lint_fix",C+"config.rs:build_config",C+"analyze/",C+"checker.rs:report_diagnostic"])
p("C86","Fixes that are harmless one by one are harmless together",
 "When several fixes are applied in one pass, or in all the passes of one run of --fix, and each of them by itself replaces an expression by one that does the same thing, then the file can still be read and does what it did.",
 "every file, nesting, number of fixes and passes","texts, nesting, numbers of fixes and passes are unbounded",
 [C+"fix.rs:apply_fixes",C+"check.rs:lint_fix",C+"check.rs:get_checks",C+"lints/"])
p("C87","What is found in a file does not depend on which other files are checked with it",
 "Two runs over the same project with the same options that both check a file find the same in it, whatever other files, directories or configurations the runs cover.",
 "every project (tree of files, packages, configurations), pair of sets of inputs, options, linter and hash-map order","projects and selections of files are unbounded",
 [C+"check.rs:check",C+"package.rs:compute_package_analysis",C+"config.rs:determine_minimum_r_version","crates/jarl/src/commands/check.rs:check"])
p("C88","The editor reports what the command line reports",
 "For a saved file, the language server shows the diagnostics that jarl check without options finds in that file.",
 "every project, file, configuration and set of files checked by the command line","projects and configurations are unbounded",
 [S+"lint.rs:run_jarl_linting",S+"lint.rs:collect_sibling_r_files",C+"check.rs:check","crates/jarl/src/commands/check.rs:check"])
p("C89","A fix mentions nothing that was not there, except what the rule writes",
 "When a fix is applied, no variable, function, number, string, operator or keyword occurs in the file more often than before, except those the rule is documented to write (anyNA for any_is_na, and so on): no fix evaluates an expression twice or invents a variable.",
 "every rule with a fix, expression, nesting and surrounding file","expressions and nesting are unbounded",
 [C+"lints/",C+"diagnostic.rs:Fix",C+"fix.rs:apply_fixes"])
p("C90","A fix drops no variable",
 "Every variable and function the reported expression mentions is still mentioned by the fix, except the functions the rule is documented to replace: no argument is lost.",
 "every rule with a fix and every expression","expressions and argument lists are unbounded",
 [C+"lints/",C+"utils_ast.rs",C+"utils.rs:drop_arg_by_name_or_position"])
p("C91","The rules are as documented",
 "The table of rules in the documentation is accurate: its names are those accepted in a selection, a rule runs by default unless it is marked as disabled by default, --select GROUP runs the rules listed in the group, --fix alone applies the fixes listed as safe and --unsafe-fixes those listed as unsafe too, and a rule that requires a version of R runs only when the project requires at least that version.",
 "every documented rule, option, configuration and project version","the table, the options and the configuration interact in unboundedly many ways",
 ["docs/rules.qmd",C+"rule_set.rs","crates/jarl-core/src/config.rs:build_config"])
O="crates/jarl/src/output_format.rs:"
p("C92","GitHub annotations show the diagnostics",
 "With --output-format github, GitHub reads the output as one annotation per diagnostic, in order, with the rule, file, line, column and message of the diagnostic.",
 "every list of diagnostics, file name and message","file names and messages are arbitrary texts",
 [O+"GithubEmitter"])
p("C93","The concise output can be read back",
 "With --output-format concise, every diagnostic is one line, and the line determines the file, row, column, rule and message.",
 "every list of diagnostics, file name and message","file names and messages are arbitrary texts",
 [O+"ConciseEmitter",O+"make_hyperlink"])
p("C94","The summary and statistics state the counts",
 "The printed summary determines the number of diagnostics, of safe fixes and of unsafe fixes; it says that all checks passed exactly when nothing was found and no file failed; a line of the statistics determines the rule, its count and whether it has a fix.",
 "every count","counts are unbounded and the wording depends on them",
 [O+"print_summary","crates/jarl/src/statistics.rs:print_statistics"])
p("C95","Deprecations are announced",
 "In the full and concise formats, a run warns that a rule is deprecated exactly when the rule is named in --select, --extend-select, --ignore or a list of rules of a configuration file, once however often it is named; that --assignment or the old form of assignment in a configuration file is used; and how many unused_function diagnostics are hidden; and prints no other warning and no empty section.",
 "every option, list of rules and configuration","option texts, lists and numbers of configuration files are unbounded",
 ["crates/jarl/src/commands/check.rs:check",O+"print_warnings",C+"rule_set.rs:Rule::deprecation"])
p("C96","The JSON output is JSON and complete",
 "With --output-format json, what is printed is one JSON value; reading it gives every diagnostic with its rule, message, suggestion, file, range, location and fix, and every error, in order, whatever characters the texts contain; different diagnostics give different outputs.",
 "every list of diagnostics and errors, every text in them","texts, lists and numbers are unbounded",
 [O+"JsonEmitter",C+"diagnostic.rs:Diagnostic"])
p("C97","The fixes of sort, which_grepl, length_levels, seq, seq2, class_equals and lengths keep the program's behaviour",
 "Applying the fix of one of these rules leaves a file that R reads and that behaves as before: x[order(x)] and sort(x), which(grepl(p, x)) and grep(p, x), length(levels(x)) and nlevels(x), 1:length(x) and seq_along(x), class(x) == 's' and inherits(x, 's'), sapply(x, length) and lengths(x).",
 "every file, every place in it, every operand, every meaning of the rest of R","programs, values and contexts are unbounded",
 [C+"lints/base/sort/sort.rs:sort",C+"lints/base/which_grepl/which_grepl.rs:which_grepl",C+"lints/base/length_levels/length_levels.rs:length_levels",C+"lints/base/seq/seq.rs:seq",C+"lints/base/seq2/seq2.rs:seq2",C+"lints/base/class_equals/class_equals.rs:class_equals",C+"lints/base/lengths/lengths.rs:lengths"])
p("C98","What a terminal shows does not depend on links",
 "In the concise format a terminal shows the name of the rule of each diagnostic as a link to the page of the rule, and nothing else as a link; the characters shown are those printed when NO_COLOR is set, which has no links.",
 "every diagnostic, every file name and message","texts are unbounded and may contain any character",
 [O+"make_hyperlink",O+"ConciseEmitter"])
p("C99","A fixing run reports what is left",
 "After a run with --fix, the diagnostics reported for each file are those that a run with the same options and without --fix reports for the files as they now are, including their positions.",
 "every project, set of files, configuration, linter and number of passes","projects, texts and the number of passes are unbounded; the analysis of a package spans all its files",
 [C+"check.rs:check",C+"check.rs:lint_fix",C+"package.rs:compute_package_analysis"])
p("C100","The editor reports on the text in the editor",
 "The diagnostics the editor shows for a document with unsaved changes are those it shows for the same text once it is saved.",
 "every project, configuration, linter and text","texts and projects are unbounded, and part of the analysis reads other files",
 [S+"lint.rs:run_jarl_linting",C+"package.rs:compute_package_analysis"])
p("C101","Fixing a test keeps its verdict",
 "The fixes of expect_null, expect_true_false, expect_length, expect_named, expect_s3_class, expect_type, expect_not, expect_match and expect_no_match replace an expectation by one that evaluates the same things and passes or fails in the same cases, with the package named as before.",
 "every file, place in it and meaning of the rest of the program","programs and values are unbounded",
 [C+"lints/testthat/expect_null/expect_null.rs:expect_null",C+"lints/testthat/expect_s3_class/expect_s3_class.rs:expect_s3_class",C+"lints/testthat/expect_type/expect_type.rs:expect_type",C+"lints/testthat/expect_not/expect_not.rs:expect_not",C+"lints/testthat/expect_match/expect_match.rs:expect_match"])
p("C102","The editor offers to silence what it reports",
 "For each report touching the requested range the editor offers its fix, a comment silencing the rule there and, in documents, a comment silencing it in the chunk; a comment is not offered when one for the same rule is there already, and offered otherwise.",
 "every text, report, requested range, encoding and place","texts, reports and existing comments are unbounded",
 [S+"server.rs:Server::generate_code_actions",S+"server.rs:Server::diagnostic_to_jarl_ignore_rule_action",S+"server.rs:Server::diagnostic_to_jarl_ignore_chunk_action",C+"suppression_edit.rs:parse_existing_suppression"])
p("C103","A file is read, fixed and reported under its name",
 "The name under which a file is read, rewritten and reported designates, in the working directory, the file that was given on the command line or found by the walk; two files are never reported under the same name; names are relative to the working directory when the file is below it and absolute otherwise.",
 "every file system (with links), working directory and path, with any number of . and .. and slashes","paths and file systems are unbounded",
 [C+"fs.rs:normalize_path",C+"fs.rs:relativize_path",C+"check.rs:lint_only",O+"ConciseEmitter"])
p("C104","The message is right",
 "The message of a diagnostic shows the code to use instead: the fix of the diagnostic is that code, with the user's code in the place of the message's names, and where the reported code is of the form the message quotes, the fix is the advised form of the same code. A message is one line of text, names the functions, arguments and constructs it is about correctly, and is the same in every run.",
 "every rule with a message of its own, every expression and place, every order of Rust's hash sets","expressions are unbounded, and the code in the place of a name is arbitrary",
 [C+"lints/base/seq/seq.rs:seq",C+"lints/base/outer_negation/outer_negation.rs:outer_negation",C+"lints/base/class_equals/class_equals.rs:class_equals",C+"lints/base/duplicated_arguments/duplicated_arguments.rs:duplicated_arguments",C+"lints/base/implicit_assignment/implicit_assignment.rs:implicit_assignment",C+"lints/base/sprintf/sprintf.rs:sprintf",C+"diagnostic.rs:ViolationData"])
p("C105","Fixing numbers without a leading zero works on every file",
 "`jarl check --fix --select numeric_leading_zero` on any file R can read ends without an error and with no diagnostic left. The new text is the old one with zeros added before dots and nothing else; R can read it and it does the same thing (given that .5 and 0.5 are the same number); no number in the places jarl looks at starts with a dot any more; other files are untouched. Every such number is found at exactly its bytes, and no fix is lost because of a comment or of another fix. Stopped at any moment, with any number of files processed in any interleaving, each file is as it was or has some of these zeros; a second run changes nothing.",
 "every text R can read (within the grammar modelled), every path, file system and interpretation of R, every schedule and moment of interruption","files are unbounded: any number of fixes in any nesting, any number of passes, any characters before them",
 [C+"lints/base/numeric_leading_zero/numeric_leading_zero.rs:numeric_leading_zero",C+"check.rs:lint_fix",C+"check.rs:get_checks",C+"fix.rs:apply_fixes"])
p("C106","A rule that only reports changes nothing; the uses of T and F are all reported",
 "If no selected rule has a fix, `jarl check --fix` changes no file, whatever is in it and whenever it is stopped. true_false_symbol is such a rule: on any file R can read, the run ends, leaves every file as it is and reports, at exactly their bytes, the T and F used as values, all of them and nothing else: not the function of a call, not what follows $ or @, not the name of an argument or parameter, not a side of a formula; besides these, loops that run over T or F.",
 "every text (R code or not) and file system for the first part; every text R can read (within the grammar modelled) for the second","files are unbounded: any nesting, any number of findings, any moment of interruption",
 [C+"lints/base/true_false_symbol/true_false_symbol.rs:true_false_symbol",C+"analyze/identifier.rs:identifier",C+"rule_set.rs:TrueFalseSymbol",C+"check.rs:get_checks",C+"check.rs:lint_fix"])
