{"id": "C01", "title": "Autofix only rewrites the ranges of the fixes it applies", "statement": "The text written by `jarl check --fix` after one pass is the original text in which the source ranges of a subset of the reported fixes have been replaced by those fixes' contents; every byte outside these ranges is preserved, in order.", "quantifier": "every file text (any Unicode) and every list of fixes produced for it", "why_tests_cant": "offset bookkeeping depends on the lengths of all earlier replacements; a test only samples a few combinations", "anchors": ["crates/jarl-core/src/fix.rs:apply_fixes"]}
{"id": "C02", "title": "Two overlapping fixes are never applied in the same pass", "statement": "If two fixes of the same file overlap, a single fixing pass applies at most one of them (the other one is left for the next pass).", "quantifier": "every text and every list of fixes, in any order and nesting", "why_tests_cant": "the guard compares shifted positions; whether it is right depends on all length changes so far", "anchors": ["crates/jarl-core/src/fix.rs:apply_fixes"]}
{"id": "C03", "title": "A pass that reports no skipped fix has applied all of them, and the first fix is never skipped", "statement": "When a pass reports that nothing was skipped, every fix in the list was applied; the first fix of the list is always applied, so a pass that has a fix to apply always makes progress.", "quantifier": "every text and every list of fixes", "why_tests_cant": "termination and completeness of the fix loop quantify over all fix lists", "anchors": ["crates/jarl-core/src/fix.rs:apply_fixes", "crates/jarl-core/src/check.rs:lint_fix"]}
{"id": "C04", "title": "`--fix` reports what remains in the file it leaves on disk", "statement": "When fixing a file succeeds, the diagnostics returned are exactly those of linting the content now on disk, that content is reached from the initial one by repeated passes, and no other file has been modified.", "quantifier": "every linter behaviour, every initial file system and every number of passes", "why_tests_cant": "the loop re-reads and re-writes the file an unbounded number of times", "anchors": ["crates/jarl-core/src/check.rs:lint_fix", "crates/jarl-core/src/check.rs:lint_only", "crates/jarl-core/src/check.rs:check_path"]}
{"id": "C05", "title": "Files without applicable fixes, and Rmd/Qmd files, are never changed", "statement": "If none of a file's diagnostics carries a fix, `--fix` leaves its content unchanged; R Markdown/Quarto files are never written at all, and without `--fix`/`--unsafe-fixes` no file is written.", "quantifier": "every file content, extension and configuration", "why_tests_cant": "absence of a write must hold on all paths through the driver", "anchors": ["crates/jarl-core/src/check.rs:lint_fix", "crates/jarl-core/src/check.rs:check_path", "crates/jarl-core/src/fs.rs:has_rmd_extension", "crates/jarl-core/src/diagnostic.rs:Fix::empty"]}
{"id": "C06", "title": "No fix is written unless the version-control gate passes", "statement": "When fixes are requested, if some checked path is outside a repository (and --allow-no-vcs is absent), or some repository containing a path has uncommitted changes (and neither --allow-dirty nor --allow-no-vcs is given), no file is modified and one error is reported; otherwise every path is processed.", "quantifier": "every set of paths, repositories and statuses, and every flag combination", "why_tests_cant": "the paths may be spread over arbitrarily many repositories with arbitrary statuses", "anchors": ["crates/jarl-core/src/vcs.rs:check_version_control", "crates/jarl-core/src/check.rs:check"]}
{"id": "C07", "title": "Reported row and column are those of the start of the diagnostic", "statement": "The row reported for a diagnostic is 1 + the number of newlines before its start and the column is the number of bytes between the last such newline and its start.", "quantifier": "every text and every offset in it", "why_tests_cant": "boundary cases (first line empty, offset on a newline) are data dependent", "anchors": ["crates/jarl-core/src/utils.rs:find_row_col", "crates/jarl-core/src/utils.rs:find_new_lines", "crates/jarl-core/src/utils.rs:compute_lints_location"]}
{"id": "C08", "title": "A comment is a suppression directive exactly when it follows the documented grammar", "statement": "A comment is accepted as a valid `jarl-ignore[-file|-start|-end|-chunk] <rule>: <reason>` directive for rule r iff it has the documented shape with a known rule name and (except for -end) a non-empty explanation; well-formed directives round-trip; every other comment is classified as blanket, unexplained, misnamed or not a directive.", "quantifier": "every comment text", "why_tests_cant": "the parser has many prefix cases over an infinite input space", "anchors": ["crates/jarl-core/src/directive.rs:parse_comment_directive", "crates/jarl-core/src/directive.rs:parse_rule_with_explanation", "crates/jarl-core/src/directive.rs:parse_quarto_chunk_array_item", "crates/jarl-core/src/directive.rs:is_quarto_chunk_array_header"]}
{"id": "C09", "title": "Suppressions hide exactly the diagnostics they cover", "statement": "After filtering, the reported diagnostics are, in the original order, exactly those for which there is no file-level or chunk-level suppression of the same rule, and no region or annotated node for the same rule whose range contains the diagnostic's range.", "quantifier": "every set of suppressions and list of diagnostics", "why_tests_cant": "interaction of four kinds of suppressions with arbitrary ranges", "anchors": ["crates/jarl-core/src/suppression.rs:filter_diagnostics", "crates/jarl-core/src/suppression.rs:is_diagnostic_suppressed"]}
{"id": "C10", "title": "A suppression is reported as outdated iff it suppressed nothing", "statement": "A suppression comment is reported as outdated iff no diagnostic was hidden on its account; a comment that is the only one covering some hidden diagnostic is never reported.", "quantifier": "every set of suppressions and list of diagnostics", "why_tests_cant": "usage tracking depends on the whole history of filtering", "anchors": ["crates/jarl-core/src/suppression.rs:get_unused_suppressions", "crates/jarl-core/src/suppression.rs:is_diagnostic_suppressed", "crates/jarl-core/src/analyze/document.rs:check_document"]}
{"id": "C11", "title": "Region suppressions are well bracketed", "statement": "Every suppressed region starts at a jarl-ignore-start comment and ends at the next jarl-ignore-end comment for the same rule at the same brace-nesting level; starts without an end and ends without a start are reported as unmatched.", "quantifier": "every sequence of comments in a file", "why_tests_cant": "pairing depends on an unbounded interleaving of starts and ends of several rules and levels", "anchors": ["crates/jarl-core/src/suppression.rs:process_comment", "crates/jarl-core/src/suppression.rs:from_node"]}
{"id": "C12", "title": "No suppression comment is silently ignored", "statement": "Every comment that parses as a jarl-ignore directive (valid or not) ends up either in effect or in one of the lists of problems reported to the user (blanket, unexplained, misnamed, misplaced, unmatched, invalid chunk form).", "quantifier": "every sequence of comments", "why_tests_cant": "quantifies over all histories of directives", "anchors": ["crates/jarl-core/src/suppression.rs:process_comment", "crates/jarl-core/src/suppression.rs:collect_all_directives", "crates/jarl-core/src/suppression.rs:from_node"]}
{"id": "C13", "title": "Skipping comment processing when the file does not mention jarl-ignore changes nothing", "statement": "For a source without the text `jarl-ignore`, the result with the fast path (no comment processing) is the same as running the complete processing: nothing is suppressed, nothing is reported about suppressions.", "quantifier": "every source text and tree of comments drawn from that text", "why_tests_cant": "equivalence of an optimisation with the full path, for all inputs", "anchors": ["crates/jarl-core/src/suppression.rs:from_node"]}
{"id": "C14", "title": "R chunks extracted from an Rmd/Qmd file are exact slices of the file", "statement": "Every extracted chunk's code is exactly the text of the file at the reported byte offset, chunks appear in file order and do not overlap, each is delimited by an opening R fence and a line consisting of the same fence, and text outside closed fences is never analysed.", "quantifier": "every document text", "why_tests_cant": "documents have unboundedly many fences in arbitrary nesting", "anchors": ["crates/jarl-core/src/rmd/extraction.rs:extract_r_chunks"]}
{"id": "C15", "title": "Rmd diagnostics point at the original file and respect file-level suppressions", "statement": "For an Rmd/Qmd file, the text of a diagnostic's range in the file equals the text of its range in its chunk; a rule suppressed at file level in the first chunk is reported in no chunk; diagnostics carry no fix; chunks that do not parse yield nothing.", "quantifier": "every document and every per-chunk linter behaviour", "why_tests_cant": "offset remapping and cross-chunk suppression over arbitrarily many chunks", "anchors": ["crates/jarl-core/src/check.rs:get_checks_rmd"]}
{"id": "C16", "title": "Rule selection follows the documented precedence", "statement": "The rules that run are (select or the defaults) plus extend-select minus ignore, where command line select/extend-select take precedence over the configuration file's and ignores from both are united; unknown names are an error; the order and duplicates in the user's lists do not matter.", "quantifier": "every combination of command-line and TOML lists", "why_tests_cant": "exponentially many combinations of lists of names and groups", "anchors": ["crates/jarl-core/src/config.rs:reconcile_rules", "crates/jarl-core/src/config.rs:parse_rules_cli", "crates/jarl-core/src/config.rs:parse_rules_toml", "crates/jarl-core/src/config.rs:replace_group_rules"]}
{"id": "C17", "title": "Unsafe fixes are only ever applied with --unsafe-fixes", "statement": "Without --unsafe-fixes, no rule whose fix is unsafe is among the rules run in fixing mode.", "quantifier": "every configuration and flag combination", "why_tests_cant": "interplay of --fix, --unsafe-fixes, --fix-only and configuration", "anchors": ["crates/jarl-core/src/config.rs:build_config"]}
{"id": "C18", "title": "fixable / unfixable settings are honoured", "statement": "A diagnostic keeps a fix only if its rule can be fixed, is not listed in `unfixable`, and is listed in `fixable` when that is set; other diagnostics are unchanged apart from losing their fix.", "quantifier": "every list of diagnostics and configuration", "why_tests_cant": "must hold for every rule and every combination of sets", "anchors": ["crates/jarl-core/src/check.rs:get_checks", "crates/jarl-core/src/config.rs:build_config"]}
{"id": "C19", "title": "Rules needing a newer R than the project supports never run", "statement": "A rule with a minimum R version is run only if the project's minimum R version is known and at least the rule's; rules without minimum version are unaffected; raising the project's version never disables a rule.", "quantifier": "every version triple and rule selection", "why_tests_cant": "lexicographic comparison over an infinite domain", "anchors": ["crates/jarl-core/src/config.rs:filter_rules_by_version", "crates/jarl-core/src/config.rs:determine_minimum_r_version", "crates/jarl-core/src/config.rs:parse_r_version"]}
{"id": "C20", "title": "Rule names identify rules and groups expand to their members", "statement": "Each rule is found by its name and only by its name; names are pairwise distinct; a group name selects exactly the rules of that category and ALL selects every rule.", "quantifier": "every string and every rule", "why_tests_cant": "the domain of strings is infinite", "anchors": ["crates/jarl-core/src/rule_set.rs:Rule", "crates/jarl-core/src/config.rs:replace_group_rules"]}
{"id": "C21", "title": "duplicated_function_definition reports exactly the later definitions", "statement": "Within a package, a top-level function definition is reported iff a definition with the same name occurs earlier (in an earlier file by path order, or earlier in the same file); the first definition is never reported and the result does not depend on the order in which files were discovered.", "quantifier": "every package content and discovery order", "why_tests_cant": "parallel scanning of arbitrarily many files", "anchors": ["crates/jarl-core/src/lints/base/duplicated_function_definition/duplicated_function_definition.rs:compute_duplicates_from_shared", "crates/jarl-core/src/package.rs:scan_top_level_assignments"]}
{"id": "C22", "title": "unused_function never reports a function that is referenced", "statement": "A reported function's name does not occur as an identifier anywhere in the package's R files apart from its definitions, nor in the other scanned files, is not exported by NAMESPACE, and is not excluded by configuration.", "quantifier": "every package content", "why_tests_cant": "quantifies over all file contents and identifiers", "anchors": ["crates/jarl-core/src/lints/base/unused_function/unused_function.rs:compute_unused_from_shared", "crates/jarl-core/src/lints/base/unused_function/unused_function.rs:scan_symbols", "crates/jarl-core/src/lints/base/unused_function/unused_function.rs:parse_namespace_exports"]}
{"id": "C23", "title": "Code reported as unreachable never executes", "statement": "If unreachable_code reports a range in a function body, then no execution of that body (for any values of its non-constant conditions and any number of loop iterations) executes a statement in that range.", "quantifier": "every function body and every execution", "why_tests_cant": "unboundedly many control-flow shapes and execution traces", "anchors": ["crates/jarl-core/src/lints/base/unreachable_code/cfg/builder.rs", "crates/jarl-core/src/lints/base/unreachable_code/cfg/reachability.rs:find_reachable_blocks", "crates/jarl-core/src/lints/base/unreachable_code/unreachable_code.rs"]}
{"id": "C24", "title": "Exit status reflects the outcome", "statement": "The process reports success only if no diagnostic was found and no file failed, failure (1) iff diagnostics and no errors, and error (255) iff some file could not be processed.", "quantifier": "every list of results and output option", "why_tests_cant": "all combinations of per-file results", "anchors": ["crates/jarl/src/commands/check.rs:check", "crates/jarl/src/status.rs"]}
{"id": "C25", "title": "Each file is linted exactly once, under its nearest configuration", "statement": "Grouping files by configuration is a partition of the discovered files: every file is checked exactly once with the settings of the deepest directory that has a configuration and contains it, or the default settings if there is none.", "quantifier": "every set of files and configuration directories", "why_tests_cant": "directory trees of arbitrary depth", "anchors": ["crates/jarl/src/commands/check.rs:check", "crates/jarl-core/src/discovery.rs", "crates/jarl-core/src/settings.rs"]}
{"id": "C26", "title": "--add-jarl-ignore only inserts comment lines", "statement": "Inserting suppression comments leaves the original text as a subsequence: deleting the inserted pieces gives back the original file, the pieces are inserted at the computed offsets, each requested (offset, rule) gets its comment, and a reason with line breaks is rejected without touching the file.", "quantifier": "every file text and set of diagnostics", "why_tests_cant": "offsets shift with each insertion", "anchors": ["crates/jarl/src/commands/check.rs:add_jarl_ignore_comments", "crates/jarl-core/src/suppression_edit.rs:format_suppression_comments"]}
{"id": "C27", "title": "Inserted suppression comments are understood by jarl", "statement": "The comment that jarl writes for a rule and a reason parses back as a valid directive for that very rule, for every known rule and every non-blank single-line reason.", "quantifier": "every rule, reason and indentation", "why_tests_cant": "round-trip between a printer and a parser over all strings", "anchors": ["crates/jarl-core/src/suppression_edit.rs:format_suppression_comments", "crates/jarl-core/src/directive.rs:parse_comment_directive"]}
{"id": "C28", "title": "--statistics counts are exact", "statement": "The statistics show each rule that has at least one diagnostic exactly once with exactly its number of diagnostics, and the counts add up to the number of diagnostics.", "quantifier": "every list of diagnostics", "why_tests_cant": "counting over arbitrary lists", "anchors": ["crates/jarl/src/statistics.rs:print_statistics"]}
{"id": "C29", "title": "LSP positions and byte offsets are inverse", "statement": "For every document, converting a valid byte offset to an LSP position and back gives the same offset, in UTF-8 and UTF-16; every successful conversion lands on a character boundary inside the document and on the requested line.", "quantifier": "every document text, offset and position", "why_tests_cant": "arbitrary Unicode text and line structures", "anchors": ["crates/jarl-lsp/src/document.rs:position_to_offset", "crates/jarl-lsp/src/document.rs:offset_to_position", "crates/jarl-lsp/src/document.rs:compute_line_starts"]}
{"id": "C30", "title": "Incremental document synchronisation follows the LSP specification", "statement": "After a didChange notification, the server's document equals the client's: the result of applying the changes one after the other, each relative to the state left by the previous one.", "quantifier": "every document and list of changes", "why_tests_cant": "histories of edits are unbounded", "anchors": ["crates/jarl-lsp/src/document.rs:apply_changes"]}
{"id": "C31", "title": "The session tracks exactly the open documents", "statement": "At any time the server knows exactly the documents that were opened and not closed since, each with the text and version given by its history; operations on unknown documents are rejected and leave the others untouched.", "quantifier": "every history of open/change/close notifications", "why_tests_cant": "unbounded histories", "anchors": ["crates/jarl-lsp/src/session.rs"]}
{"id": "C32", "title": "Diagnostics and quick fixes sent to the editor cover the right text", "statement": "The LSP range of a diagnostic or of a quick-fix edit designates the same text as the byte range computed by the linter, in the negotiated encoding; no edit is offered for a diagnostic without fix.", "quantifier": "every document, diagnostic and encoding", "why_tests_cant": "arbitrary Unicode text before the diagnostic", "anchors": ["crates/jarl-lsp/src/lint.rs:byte_offset_to_lsp_position", "crates/jarl-lsp/src/server.rs:diagnostic_to_code_action", "crates/jarl-lsp/src/server.rs:offset_to_position"]}
{"id": "C33", "title": "Exclusion patterns in the LSP match as globs", "statement": "A pattern with `*` matches a file name iff the name can be obtained by replacing each `*` with some string; a directory pattern matches iff some directory component of the path equals it.", "quantifier": "every pattern and path", "why_tests_cant": "patterns with arbitrarily many stars", "anchors": ["crates/jarl-lsp/src/utils.rs"]}
{"id": "C34", "title": "Encoding negotiation picks a mutually supported encoding", "statement": "The encoding used is one the client offered, preferring UTF-8 over UTF-16, and UTF-16 when the client offers none (the protocol default).", "quantifier": "every list of offered encodings", "why_tests_cant": "all lists", "anchors": ["crates/jarl-lsp/src/session.rs:negotiate_position_encoding"]}
{"id": "C35", "title": "Parallel processing does not influence the result", "statement": "Files are linted and fixed in parallel; whatever the interleaving of their reads and writes, each file gets the diagnostics and the final content it would get if processed alone, and files that were not requested are untouched.", "quantifier": "every set of distinct files, every linter and every schedule", "why_tests_cant": "interleavings cannot be enumerated by tests", "anchors": ["crates/jarl-core/src/check.rs:check", "crates/jarl-core/src/check.rs:lint_fix"]}
{"id": "C36", "title": "`--fix-only` implies `--fix`", "statement": "As its help text says, `--fix-only` alone applies fixes; and it runs exactly the selected rules that have a fix.", "quantifier": "every flag combination and selection", "why_tests_cant": "flags interact with every rule selection", "anchors": ["crates/jarl/src/args.rs:CheckCommand", "crates/jarl-core/src/config.rs:build_config", "crates/jarl-core/src/check.rs:check_path"]}
{"id": "C37", "title": "The R version required in DESCRIPTION is found", "statement": "If the Depends field of the DESCRIPTION next to a linted file (single line or continued on indented lines, anywhere in the file) lists `R (>= a.b.c)`, the project's minimum R version is (a,b,c).", "quantifier": "every DESCRIPTION text, layout and version", "why_tests_cant": "layouts of DCF files are unbounded", "anchors": ["crates/jarl-core/src/description.rs:parse_dcf", "crates/jarl-core/src/description.rs:get_depend_r_version", "crates/jarl-core/src/config.rs:determine_minimum_r_version"]}
{"id": "C38", "title": "A DESCRIPTION file cannot crash the linter", "statement": "Whatever the content of a DESCRIPTION file, reading the R version from it either gives a version, nothing, or an error; it does not panic.", "quantifier": "every text", "why_tests_cant": "arbitrary user files", "anchors": ["crates/jarl-core/src/description.rs:extract_version_from_dependency"]}
{"id": "C39", "title": "Rule options replace or extend the defaults, never both", "statement": "For each rule with a list option, the list in effect is the replacement list if given, else the defaults plus the extension; giving both is an error, and so is an unknown assignment operator; nothing else is.", "quantifier": "every combination of option tables", "why_tests_cant": "combinations of five tables with arbitrary lists", "anchors": ["crates/jarl-core/src/rule_options/mod.rs:resolve_with_extend", "crates/jarl-core/src/rule_options/mod.rs:ResolvedRuleOptions"]}
{"id": "C40", "title": "Code after return, stop, break or next is reported", "statement": "In any pair of braces that is the body of a function, branch or loop, every statement that follows a call to return() or to a stopping function, or (inside a loop) a break or next, begins in a reported range.", "quantifier": "every function body, nesting and position", "why_tests_cant": "unboundedly many program shapes", "anchors": ["crates/jarl-core/src/lints/base/unreachable_code/cfg/builder.rs", "crates/jarl-core/src/lints/base/unreachable_code/cfg/reachability.rs:find_unreachable_code"]}
{"id": "C41", "title": "The message says why the code is unreachable", "statement": "The message names the reason: code reported as coming after a return, break, next, stopping call or terminating if/else stands right after such a statement, and a branch excluded by a constant condition is reported as a branch that can never be executed.", "quantifier": "every function body", "why_tests_cant": "reasons are reconstructed from the graph shape", "anchors": ["crates/jarl-core/src/lints/base/unreachable_code/cfg/reachability.rs:determine_unreachable_reason"]}
{"id": "C42", "title": "Suppression comments cannot crash the linter", "statement": "Whatever comments a file contains and wherever they stand, reading the suppressions does not panic.", "quantifier": "every placement of directive comments in every syntax tree", "why_tests_cant": "crashes depend on the relative placement of two comments", "anchors": ["crates/jarl-core/src/suppression.rs:SuppressionManager", "crates/jarl-core/src/suppression.rs:from_node"]}
{"id": "C43", "title": "File-level suppressions count only at the top of the file", "statement": "A `jarl-ignore-file` comment placed before any code hides every diagnostic of its rule in the file; placed after code it has no effect and is reported as misplaced.", "quantifier": "every file and comment placement", "why_tests_cant": "placements and trees are unbounded", "anchors": ["crates/jarl-core/src/suppression.rs:SuppressionManager"]}
{"id": "C44", "title": "A suppression is outdated only for rules that were run", "statement": "The diagnostics of a document are the uncovered ones plus, if enabled, one outdated report per suppression that hid nothing; a suppression of a rule that was not run is not reported as outdated.", "quantifier": "every document, rule selection and linter result", "why_tests_cant": "depends on rule selection and all comments", "anchors": ["crates/jarl-core/src/analyze/document.rs:check_document", "crates/jarl-core/src/suppression.rs:get_unused_suppressions"]}
{"id": "C45", "title": "A directive with a forgotten rule name is reported", "statement": "A `jarl-ignore`, `-chunk`, `-file`, `-start` or `-end` comment without a rule name is reported as a blanket suppression.", "quantifier": "every comment text", "why_tests_cant": "comment texts are unbounded", "anchors": ["crates/jarl-core/src/directive.rs:parse_comment_directive"]}
{"id": "C46", "title": "Suppression comments are inserted between tokens", "statement": "The comment inserted for a diagnostic goes above the line of an enclosing expression that starts its line, or on a fresh line in front of an enclosing expression; never inside a string.", "quantifier": "every source, tree and diagnostic position", "why_tests_cant": "positions and trees are unbounded", "anchors": ["crates/jarl-core/src/suppression_edit.rs:compute_suppression_insert_point"]}
{"id": "C47", "title": "In Rmd files suppression comments are inserted inside the chunk", "statement": "For a diagnostic located in an R chunk, an insertion point is found and it lies inside that chunk, never in the prose or on a fence line.", "quantifier": "every document, chunk and diagnostic position", "why_tests_cant": "documents and positions are unbounded", "anchors": ["crates/jarl-core/src/suppression_edit.rs:create_suppression_edit_in_rmd"]}
{"id": "C48", "title": "A refused change leaves the document as it was", "statement": "When the server answers a didChange notification with an error, its copy of the document, including its version and line table, is the one it had before, and later notifications are handled normally.", "quantifier": "every document and list of changes", "why_tests_cant": "notification contents and histories are unbounded", "anchors": ["crates/jarl-lsp/src/document.rs:apply_changes", "crates/jarl-lsp/src/session.rs:Session::update_document"]}
{"id": "C49", "title": "The suppression quick fix edits the place the command line would edit", "statement": "Applying the editor quick fix that suppresses a diagnostic (or a rule for a whole chunk) gives the text that the command line's --add-jarl-ignore would produce for that diagnostic, in the negotiated encoding, in R files and in chunks of documents.", "quantifier": "every source, diagnostic, tree and encoding", "why_tests_cant": "positions, encodings and trees are unbounded", "anchors": ["crates/jarl-lsp/src/server.rs:diagnostic_to_jarl_ignore_rule_action", "crates/jarl-lsp/src/server.rs:diagnostic_to_jarl_ignore_chunk_action", "crates/jarl-core/src/suppression_edit.rs:create_suppression_edit_in_rmd"]}
{"id": "C50", "title": "Diagnostics are withheld only as documented", "statement": "Every diagnostic found is reported, except that the unused_function diagnostics are withheld as a whole when there are more than the configured threshold and the rule was not selected by name; the human-readable formats then say how many were withheld.", "quantifier": "every set of results, configurations and rule selections", "why_tests_cant": "counts, configurations and selections are unbounded", "anchors": ["crates/jarl/src/commands/check.rs:hide_unused_function_if_needed", "crates/jarl/src/commands/check.rs:check"]}
{"id": "C51", "title": "The report does not depend on the processing order", "statement": "Diagnostics are reported in order of file and position, and the reported list, the exit status, the summary and the counts are the same for every order in which files and configuration groups were processed.", "quantifier": "every set of results and every processing order", "why_tests_cant": "parallel walk and hash map iteration give arbitrarily many orders", "anchors": ["crates/jarl/src/commands/check.rs:check", "crates/jarl-core/src/diagnostic.rs:Ord"]}
{"id": "C52", "title": "The summary counts are exact", "statement": "The summary shows the number of reported diagnostics and exactly how many of them have a safe and an unsafe automatic fix.", "quantifier": "every list of diagnostics", "why_tests_cant": "counting over arbitrary lists", "anchors": ["crates/jarl/src/output_format.rs:print_summary", "crates/jarl-core/src/diagnostic.rs:has_safe_fix", "crates/jarl-core/src/diagnostic.rs:has_unsafe_fix"]}
{"id": "C53", "title": "Every file that failed is reported", "statement": "Each file that could not be linted is reported with its error in the output, whatever the output format.", "quantifier": "every list of results and output format", "why_tests_cant": "all combinations of results and formats", "anchors": ["crates/jarl/src/output_format.rs:Emitter", "crates/jarl/src/output_format.rs:GithubEmitter"]}
{"id": "C54", "title": "The settings in force are the documented ones", "statement": "A file is linted with the settings of the nearest jarl.toml above it; without any, with those of the jarl.toml of the user's configuration directory; without that, with the defaults; on the command line and in the editor alike.", "quantifier": "every directory tree, configuration placement and set of inputs", "why_tests_cant": "directory trees of arbitrary depth, several inputs sharing a visited set", "anchors": ["crates/jarl-core/src/discovery.rs:discover_settings", "crates/jarl/src/commands/check.rs:check", "crates/jarl-lsp/src/lint.rs"]}
{"id": "C55", "title": "How a file of a package is treated does not depend on where the package is stored", "statement": "A file below tests/, inst/tests/, inst/tinytest/ or src/ of a package is analysed according to that directory, wherever the package itself is stored.", "quantifier": "every package location and file", "why_tests_cant": "locations are arbitrary paths", "anchors": ["crates/jarl-core/src/package.rs:file_scope_from_path"]}
{"id": "C56", "title": "unused_function reports every function that nothing mentions", "statement": "A function defined in R/, tests/ or inst/ of a package whose name is mentioned nowhere else in that area (nor, for R/, in the other areas or in NAMESPACE, nor is a method of a mentioned generic) is reported, in whatever order files and packages are processed.", "quantifier": "every package content, discovery order and configuration", "why_tests_cant": "quantifies over all file contents and orders", "anchors": ["crates/jarl-core/src/lints/base/unused_function/unused_function.rs:compute_unused_from_shared", "crates/jarl-core/src/lints/base/unused_function/unused_function.rs:parse_namespace_exports"]}
{"id": "C57", "title": "Which files are checked", "statement": "The files checked are exactly the R, Rmd and qmd files found below the inputs (and every file named as an input) that are not excluded by the exclude patterns (or the default ones) of the nearest configuration and that match its include patterns if it has any.", "quantifier": "every directory tree, set of configurations, pattern lists and command line", "why_tests_cant": "trees, configurations and patterns are unbounded", "anchors": ["crates/jarl-core/src/discovery.rs:discover_r_file_paths", "crates/jarl/src/commands/check.rs:check"]}
{"id": "C58", "title": "The fix for !(x > y) keeps the meaning of the program", "statement": "When jarl rewrites a negated comparison `!(x OP y)` with the opposite operator, R reads the new file and, for operands that are plain vectors or NULL, the program computes the same values and effects.", "quantifier": "every file, every place of the expression in it, every operands and every meaning of the rest of the language", "why_tests_cant": "surrounding code, operands and their values are unbounded", "anchors": ["crates/jarl-core/src/lints/base/comparison_negation/comparison_negation.rs:comparison_negation"]}
{"id": "C59", "title": "The fix for any(!x) and all(!x) keeps the meaning of the program", "statement": "When jarl rewrites any(!x) into !all(x) (or all(!x) into !any(x)), R reads the new file and, for logical or numeric x, the program computes the same values and effects, NA included.", "quantifier": "every file, place, operand and meaning of the rest of the language", "why_tests_cant": "surrounding code and values are unbounded", "anchors": ["crates/jarl-core/src/lints/base/outer_negation/outer_negation.rs:outer_negation"]}
{"id": "C60", "title": "The fix for ifelse(x, TRUE, FALSE) keeps the meaning of the program", "statement": "When jarl replaces ifelse(), dplyr::if_else() or data.table::fifelse() with constant TRUE/FALSE branches by the condition or its negation, R reads the new file and, for a logical condition, the program computes the same values and effects, however the arguments are named and ordered.", "quantifier": "every file, place, condition, argument order and naming", "why_tests_cant": "surrounding code, conditions and values are unbounded", "anchors": ["crates/jarl-core/src/lints/base/redundant_ifelse/redundant_ifelse.rs:redundant_ifelse", "crates/jarl-core/src/utils.rs:get_arg_by_name_then_position"]}
{"id": "C61", "title": "The fixes for any(is.na(x)) and any(duplicated(x)) keep the meaning of the program", "statement": "When jarl rewrites any(is.na(x)) into anyNA(x), or any(duplicated(x)) into anyDuplicated(x) > 0, also in their piped forms, the program computes the same values and effects.", "quantifier": "every file, place, argument and meaning of the rest of the language", "why_tests_cant": "surrounding code and values are unbounded", "anchors": ["crates/jarl-core/src/lints/base/any_is_na/any_is_na.rs:any_is_na", "crates/jarl-core/src/lints/base/any_duplicated/any_duplicated.rs:any_duplicated", "crates/jarl-core/src/utils.rs:get_nested_functions_content"]}
{"id": "C62", "title": "The fix for x == TRUE keeps the meaning of the program", "statement": "When jarl removes a comparison with TRUE or FALSE, R reads the new file and, for logical operands, the program computes the same values and effects, wherever the comparison stands.", "quantifier": "every file, place and operand", "why_tests_cant": "surrounding code and values are unbounded", "anchors": ["crates/jarl-core/src/lints/base/redundant_equals/redundant_equals.rs:redundant_equals"]}
{"id": "C63", "title": "The fixes of coalesce and true_false_symbol keep the meaning of the program", "statement": "Replacing `if (is.null(x)) y else x` by `x %||% y`, and T and F by TRUE and FALSE, leaves a file R can read that computes the same values and effects (for x without side effects; when T and F have their usual values).", "quantifier": "every file, place, operands and block forms", "why_tests_cant": "surrounding code and values are unbounded", "anchors": ["crates/jarl-core/src/lints/base/coalesce/coalesce.rs:coalesce", "crates/jarl-core/src/lints/base/true_false_symbol/true_false_symbol.rs:true_false_symbol"]}
{"id": "C64", "title": "A fix stays where the diagnostic is", "statement": "The text a fix inserts is read by R as a single expression in place of the reported one; the code around it is read as before, whatever operators surround it.", "quantifier": "every file, every place and every rewriting rule", "why_tests_cant": "surrounding operators and nesting are unbounded", "anchors": ["crates/jarl-core/src/lints/base/", "crates/jarl-core/src/utils.rs:get_nested_functions_content", "crates/jarl-core/src/utils.rs:drop_arg_by_name_or_position"]}
{"id": "C65", "title": "The documented rewrites happen", "statement": "For every form a rule's documentation shows (with any expressions in place of its variables, any namespace prefix, any surrounding code), the rule reports that expression and its fix is the documented replacement, applied to those expressions.", "quantifier": "every rule with a fix, every operand, argument and place", "why_tests_cant": "operands, names and surroundings are unbounded", "anchors": ["crates/jarl-core/src/lints/base/", "crates/jarl-core/src/lints/testthat/", "docs/rules/"]}
{"id": "C66", "title": "Rewriting an assignment keeps the meaning of the program", "statement": "When jarl replaces one assignment operator by another (`=`, `->` to `<-`, or to `=`), R reads the new file and the program computes the same values and effects.", "quantifier": "every file, place, target, value and setting of the rule", "why_tests_cant": "surrounding code, targets and values are unbounded", "anchors": ["crates/jarl-core/src/lints/base/assignment/assignment.rs:assignment"]}
{"id": "C67", "title": "Merging nested conditions keeps the meaning of the program", "statement": "When jarl rewrites `if (a) { if (b) z }` into `if (a && b) z`, R reads the new file and the program computes the same values and effects.", "quantifier": "every file, place, conditions and body", "why_tests_cant": "conditions and values are unbounded", "anchors": ["crates/jarl-core/src/lints/base/unnecessary_nesting/unnecessary_nesting.rs:unnecessary_nesting"]}
{"id": "C68", "title": "A condition reported as always true is never false", "statement": "When jarl reports `if (c) t` as always true, evaluating c in any R session never gives a condition that is FALSE, whatever variables and calls c contains.", "quantifier": "every condition and every meaning of its variables and calls", "why_tests_cant": "conditions are nested without bound and contain arbitrary code", "anchors": ["crates/jarl-core/src/lints/base/if_always_true/if_always_true.rs:if_always_true", "crates/jarl-core/src/lints/base/if_always_true/if_always_true.rs:evaluate_constant_condition"]}
{"id": "C69", "title": "The whole file is searched and rules do not interfere", "statement": "A rule that is on reports every expression of the file on which it fires, and nothing else; what it reports does not depend on which other rules are on, nor on the other statements of the file.", "quantifier": "every file, nesting and selection of rules", "why_tests_cant": "files are nested without bound and the selections are exponentially many", "anchors": ["crates/jarl-core/src/analyze/expression.rs:check_expression", "crates/jarl-core/src/analyze/", "crates/jarl-core/src/checker.rs:report_diagnostic", "crates/jarl-core/src/check.rs:get_checks"]}
{"id": "C70", "title": "Code R can read is never refused", "statement": "jarl gives diagnostics for every file R can parse: no expression in it makes a rule return an error or panic, which would lose the diagnostics of the whole file.", "quantifier": "every readable file and every selection of rules", "why_tests_cant": "argument lists, literals and nesting are unbounded", "anchors": ["crates/jarl-core/src/lints/base/length_test/length_test.rs:length_test", "crates/jarl-core/src/lints/base/lengths/lengths.rs:lengths", "crates/jarl-core/src/lints/base/sample_int/sample_int.rs:sample_int", "crates/jarl-core/src/lints/base/duplicated_arguments/duplicated_arguments.rs:duplicated_arguments", "crates/jarl-core/src/lints/base/if_always_true/if_always_true.rs:evaluate_constant_condition"]}
{"id": "C71", "title": "Each rule reports exactly the code it is documented to report", "statement": "In every file, each rule reports an expression if and only if it has the form the rule is about (as spelled out, rule by rule, on the syntax tree), wherever it stands: no missed and no spurious reports.", "quantifier": "every file, every expression and its surroundings, every rule and every rule option", "why_tests_cant": "expressions, argument lists and surroundings are unbounded", "anchors": ["crates/jarl-core/src/lints/base/", "crates/jarl-core/src/lints/testthat/", "crates/jarl-core/src/utils.rs:get_arg_by_name_then_position", "crates/jarl-core/src/analyze/"]}
{"id": "C72", "title": "Rules read the arguments of a call as R does", "statement": "When a rule depends on the value of an argument (mode of download.file, yes and no of ifelse, MARGIN of apply, fixed of grepl, ...), the value it looks at is the one R's argument matching gives to that formal, for any order of arguments and any use of names.", "quantifier": "every argument list, every order and naming of the arguments", "why_tests_cant": "argument lists, names and orders are unbounded", "anchors": ["crates/jarl-core/src/utils.rs:get_arg_by_name_then_position", "crates/jarl-core/src/utils.rs:drop_arg_by_name_or_position", "crates/jarl-core/src/lints/base/redundant_ifelse/redundant_ifelse.rs:redundant_ifelse", "crates/jarl-core/src/lints/base/matrix_apply/matrix_apply.rs:matrix_apply", "crates/jarl-core/src/lints/base/download_file/download_file.rs:download_file", "crates/jarl-core/src/lints/base/fixed_regex/fixed_regex.rs:fixed_regex"]}
{"id": "C73", "title": "`--fix` finishes", "statement": "Running `jarl check --fix` on any file comes to an end, whatever the file contains: fixes do not keep producing new fixes.", "quantifier": "every file and every selection of rules", "why_tests_cant": "the number of passes depends on the file and has no bound known in advance", "anchors": ["crates/jarl-core/src/check.rs:lint_fix", "crates/jarl-core/src/fix.rs:apply_fixes", "crates/jarl-core/src/lints/base/fixed_regex/fixed_regex.rs:fixed_regex"]}
{"id": "C74", "title": "`--fix` leaves a file that R can read", "statement": "If R can parse a file before `jarl check --fix` then it can parse it afterwards, whatever the spacing of the code, the nesting and the number of fixes.", "quantifier": "every file R can parse", "why_tests_cant": "texts, spacing, nesting and combinations of fixes are unbounded", "anchors": ["crates/jarl-core/src/check.rs:lint_fix", "crates/jarl-core/src/check.rs:get_checks", "crates/jarl-core/src/fix.rs:apply_fixes", "crates/jarl-core/src/lints/base/comparison_negation/comparison_negation.rs:comparison_negation"]}
{"id": "C75", "title": "`--fix` does not remove comments", "statement": "A fix is not applied to code with a comment inside: every comment of the file is still there after `jarl check --fix`.", "quantifier": "every file, and every place of a comment", "why_tests_cant": "texts and places of comments are unbounded", "anchors": ["crates/jarl-core/src/utils.rs:node_contains_comments", "crates/jarl-core/src/check.rs:get_checks", "crates/jarl-core/src/lints/base/assignment/assignment.rs:assignment"]}
{"id": "C76", "title": "Running `--fix` again changes nothing", "statement": "After `jarl check --fix` has finished without error, running it again leaves the file as it is.", "quantifier": "every file and every selection of rules", "why_tests_cant": "files and combinations of fixes are unbounded", "anchors": ["crates/jarl-core/src/check.rs:lint_fix", "crates/jarl-core/src/fix.rs:apply_fixes"]}
{"id": "C77", "title": "A diagnostic covers an expression of the file, and its fix replaces that expression", "statement": "The byte range of every diagnostic starts at the first byte and ends at the last byte of one expression of the file as R reads it, is not empty and lies within the file; its fix, if it has one, has the same range.", "quantifier": "every file, rule and nesting, and any spacing and comments", "why_tests_cant": "texts and nesting are unbounded", "anchors": ["crates/jarl-core/src/check.rs:get_checks", "crates/jarl-core/src/diagnostic.rs:Diagnostic", "crates/jarl-core/src/lints/", "crates/jarl-core/src/analyze/"]}
{"id": "C78", "title": "Every request to the language server is answered exactly once", "statement": "Each request of the editor (code action, shutdown, or a method the server does not know) gets one response with its id: never two, and always one once the server has caught up, whatever the order in which its threads run.", "quantifier": "every linter, number of worker threads, sequence of messages and schedule", "why_tests_cant": "message sequences and thread schedules are unbounded", "anchors": ["crates/jarl-lsp/src/server.rs:handle_request", "crates/jarl-lsp/src/server.rs:worker_thread", "crates/jarl-lsp/src/server.rs:handle_code_action_request", "crates/jarl-lsp/src/client.rs:send_response"]}
{"id": "C79", "title": "The editor shows the diagnostics of the text saved last", "statement": "When the server has caught up, the diagnostics the editor received last for an open file are those of the text that was saved last, and none are shown for a closed file; each published version goes with the text that had this version.", "quantifier": "every linter, number of worker threads, sequence of messages and schedule", "why_tests_cant": "message sequences and thread schedules are unbounded", "anchors": ["crates/jarl-lsp/src/server.rs:handle_notification", "crates/jarl-lsp/src/server.rs:handle_lint_task", "crates/jarl-lsp/src/client.rs:publish_diagnostics", "crates/jarl-lsp/src/session.rs:take_snapshot"]}
{"id": "C80", "title": "The language server never blocks", "statement": "Whatever the messages, the server goes back to waiting for the next one: neither the bounded channel of tasks nor a failing check stops it for good.", "quantifier": "every linter, number of worker threads, sequence of messages and schedule", "why_tests_cant": "message sequences and thread schedules are unbounded", "anchors": ["crates/jarl-lsp/src/server.rs:main_loop", "crates/jarl-lsp/src/server.rs:run", "crates/jarl-lsp/src/server.rs:worker_thread"]}
{"id": "C81", "title": "Quick fixes are computed for the text at the time of the request", "statement": "The answer to a code action request holds the actions for the requested range in the text the document had when the request was received, even if the document changes or closes before the answer is sent.", "quantifier": "every linter, number of worker threads, sequence of messages and schedule", "why_tests_cant": "message sequences and thread schedules are unbounded", "anchors": ["crates/jarl-lsp/src/server.rs:handle_request", "crates/jarl-lsp/src/server.rs:generate_code_actions", "crates/jarl-lsp/src/session.rs:take_snapshot"]}
{"id": "C82", "title": "Messages meant to be shown once per session are shown at most once", "statement": "The message about the configuration in another directory and the one about hidden unused_function diagnostics are each shown at most once per session, even if several threads want to show them at the same time; the latter is shown if diagnostics were hidden.", "quantifier": "every linter, number of worker threads, sequence of messages and schedule", "why_tests_cant": "message sequences and thread schedules are unbounded", "anchors": ["crates/jarl-lsp/src/client.rs:notify_unused_fn_threshold_once", "crates/jarl-lsp/src/session.rs:check_and_notify_config"]}
{"id": "C83", "title": "A session ends as the protocol says", "statement": "A shutdown request is answered and is the last message handled; exit without shutdown ends the process with status 1.", "quantifier": "every linter, number of worker threads, sequence of messages and schedule", "why_tests_cant": "message sequences and thread schedules are unbounded", "anchors": ["crates/jarl-lsp/src/server.rs:main_loop", "crates/jarl-lsp/src/server.rs:handle_notification"]}
{"id": "C84", "title": "A fix replaces the expression it reports, and nothing else in the text is read differently", "statement": "When a fix is applied to the text of a file, R reads the new text as the old one with the new code in place of the reported expression: the code around it, with its spacing, line breaks and comments, keeps its meaning.", "quantifier": "every file, nesting, spacing and comments, and every replacement text", "why_tests_cant": "texts and nesting are unbounded", "anchors": ["crates/jarl-core/src/fix.rs:apply_fixes", "crates/jarl-core/src/diagnostic.rs:Fix", "crates/jarl-core/src/check.rs:lint_fix", "crates/jarl-core/src/lints/"]}
{"id": "C85", "title": "What is reported and fixed is what was asked for", "statement": "Every diagnostic of a file is of a rule that was selected (or extended), is not ignored and that the version of R allows; every finding of a rule that runs is reported at its place; a fix is offered only if the rule has one and the configuration allows it (with --fix alone: only safe ones); without --fix and --unsafe-fixes no file is changed.", "quantifier": "every command line, configuration, file and nesting", "why_tests_cant": "configurations, texts and nesting are unbounded", "anchors": ["crates/jarl-core/src/check.rs:get_checks", "crates/jarl-core/src/check.rs:check_path", "crates/jarl-core/src/check.rs:lint_fix", "crates/jarl-core/src/config.rs:build_config", "crates/jarl-core/src/analyze/", "crates/jarl-core/src/checker.rs:report_diagnostic"]}
{"id": "C86", "title": "Fixes that are harmless one by one are harmless together", "statement": "When several fixes are applied in one pass, or in all the passes of one run of --fix, and each of them by itself replaces an expression by one that does the same thing, then the file can still be read and does what it did.", "quantifier": "every file, nesting, number of fixes and passes", "why_tests_cant": "texts, nesting, numbers of fixes and passes are unbounded", "anchors": ["crates/jarl-core/src/fix.rs:apply_fixes", "crates/jarl-core/src/check.rs:lint_fix", "crates/jarl-core/src/check.rs:get_checks", "crates/jarl-core/src/lints/"]}
{"id": "C87", "title": "What is found in a file does not depend on which other files are checked with it", "statement": "Two runs over the same project with the same options that both check a file find the same in it, whatever other files, directories or configurations the runs cover.", "quantifier": "every project (tree of files, packages, configurations), pair of sets of inputs, options, linter and hash-map order", "why_tests_cant": "projects and selections of files are unbounded", "anchors": ["crates/jarl-core/src/check.rs:check", "crates/jarl-core/src/package.rs:compute_package_analysis", "crates/jarl-core/src/config.rs:determine_minimum_r_version", "crates/jarl/src/commands/check.rs:check"]}
{"id": "C88", "title": "The editor reports what the command line reports", "statement": "For a saved file, the language server shows the diagnostics that jarl check without options finds in that file.", "quantifier": "every project, file, configuration and set of files checked by the command line", "why_tests_cant": "projects and configurations are unbounded", "anchors": ["crates/jarl-lsp/src/lint.rs:run_jarl_linting", "crates/jarl-lsp/src/lint.rs:collect_sibling_r_files", "crates/jarl-core/src/check.rs:check", "crates/jarl/src/commands/check.rs:check"]}
{"id": "C89", "title": "A fix mentions nothing that was not there, except what the rule writes", "statement": "When a fix is applied, no variable, function, number, string, operator or keyword occurs in the file more often than before, except those the rule is documented to write (anyNA for any_is_na, and so on): no fix evaluates an expression twice or invents a variable.", "quantifier": "every rule with a fix, expression, nesting and surrounding file", "why_tests_cant": "expressions and nesting are unbounded", "anchors": ["crates/jarl-core/src/lints/", "crates/jarl-core/src/diagnostic.rs:Fix", "crates/jarl-core/src/fix.rs:apply_fixes"]}
{"id": "C90", "title": "A fix drops no variable", "statement": "Every variable and function the reported expression mentions is still mentioned by the fix, except the functions the rule is documented to replace: no argument is lost.", "quantifier": "every rule with a fix and every expression", "why_tests_cant": "expressions and argument lists are unbounded", "anchors": ["crates/jarl-core/src/lints/", "crates/jarl-core/src/utils_ast.rs", "crates/jarl-core/src/utils.rs:drop_arg_by_name_or_position"]}
{"id": "C91", "title": "The rules are as documented", "statement": "The table of rules in the documentation is accurate: its names are those accepted in a selection, a rule runs by default unless it is marked as disabled by default, --select GROUP runs the rules listed in the group, --fix alone applies the fixes listed as safe and --unsafe-fixes those listed as unsafe too, and a rule that requires a version of R runs only when the project requires at least that version.", "quantifier": "every documented rule, option, configuration and project version", "why_tests_cant": "the table, the options and the configuration interact in unboundedly many ways", "anchors": ["docs/rules.qmd", "crates/jarl-core/src/rule_set.rs", "crates/jarl-core/src/config.rs:build_config"]}
{"id": "C92", "title": "GitHub annotations show the diagnostics", "statement": "With --output-format github, GitHub reads the output as one annotation per diagnostic, in order, with the rule, file, line, column and message of the diagnostic.", "quantifier": "every list of diagnostics, file name and message", "why_tests_cant": "file names and messages are arbitrary texts", "anchors": ["crates/jarl/src/output_format.rs:GithubEmitter"]}
{"id": "C93", "title": "The concise output can be read back", "statement": "With --output-format concise, every diagnostic is one line, and the line determines the file, row, column, rule and message.", "quantifier": "every list of diagnostics, file name and message", "why_tests_cant": "file names and messages are arbitrary texts", "anchors": ["crates/jarl/src/output_format.rs:ConciseEmitter", "crates/jarl/src/output_format.rs:make_hyperlink"]}
{"id": "C94", "title": "The summary and statistics state the counts", "statement": "The printed summary determines the number of diagnostics, of safe fixes and of unsafe fixes; it says that all checks passed exactly when nothing was found and no file failed; a line of the statistics determines the rule, its count and whether it has a fix.", "quantifier": "every count", "why_tests_cant": "counts are unbounded and the wording depends on them", "anchors": ["crates/jarl/src/output_format.rs:print_summary", "crates/jarl/src/statistics.rs:print_statistics"]}
{"id": "C95", "title": "Deprecations are announced", "statement": "In the full and concise formats, a run warns that a rule is deprecated exactly when the rule is named in --select, --extend-select, --ignore or a list of rules of a configuration file, once however often it is named; that --assignment or the old form of assignment in a configuration file is used; and how many unused_function diagnostics are hidden; and prints no other warning and no empty section.", "quantifier": "every option, list of rules and configuration", "why_tests_cant": "option texts, lists and numbers of configuration files are unbounded", "anchors": ["crates/jarl/src/commands/check.rs:check", "crates/jarl/src/output_format.rs:print_warnings", "crates/jarl-core/src/rule_set.rs:Rule::deprecation"]}
{"id": "C96", "title": "The JSON output is JSON and complete", "statement": "With --output-format json, what is printed is one JSON value; reading it gives every diagnostic with its rule, message, suggestion, file, range, location and fix, and every error, in order, whatever characters the texts contain; different diagnostics give different outputs.", "quantifier": "every list of diagnostics and errors, every text in them", "why_tests_cant": "texts, lists and numbers are unbounded", "anchors": ["crates/jarl/src/output_format.rs:JsonEmitter", "crates/jarl-core/src/diagnostic.rs:Diagnostic"]}
{"id": "C97", "title": "The fixes of sort, which_grepl, length_levels, seq, seq2, class_equals and lengths keep the program's behaviour", "statement": "Applying the fix of one of these rules leaves a file that R reads and that behaves as before: x[order(x)] and sort(x), which(grepl(p, x)) and grep(p, x), length(levels(x)) and nlevels(x), 1:length(x) and seq_along(x), class(x) == 's' and inherits(x, 's'), sapply(x, length) and lengths(x).", "quantifier": "every file, every place in it, every operand, every meaning of the rest of R", "why_tests_cant": "programs, values and contexts are unbounded", "anchors": ["crates/jarl-core/src/lints/base/sort/sort.rs:sort", "crates/jarl-core/src/lints/base/which_grepl/which_grepl.rs:which_grepl", "crates/jarl-core/src/lints/base/length_levels/length_levels.rs:length_levels", "crates/jarl-core/src/lints/base/seq/seq.rs:seq", "crates/jarl-core/src/lints/base/seq2/seq2.rs:seq2", "crates/jarl-core/src/lints/base/class_equals/class_equals.rs:class_equals", "crates/jarl-core/src/lints/base/lengths/lengths.rs:lengths"]}
{"id": "C98", "title": "What a terminal shows does not depend on links", "statement": "In the concise format a terminal shows the name of the rule of each diagnostic as a link to the page of the rule, and nothing else as a link; the characters shown are those printed when NO_COLOR is set, which has no links.", "quantifier": "every diagnostic, every file name and message", "why_tests_cant": "texts are unbounded and may contain any character", "anchors": ["crates/jarl/src/output_format.rs:make_hyperlink", "crates/jarl/src/output_format.rs:ConciseEmitter"]}
{"id": "C99", "title": "A fixing run reports what is left", "statement": "After a run with --fix, the diagnostics reported for each file are those that a run with the same options and without --fix reports for the files as they now are, including their positions.", "quantifier": "every project, set of files, configuration, linter and number of passes", "why_tests_cant": "projects, texts and the number of passes are unbounded; the analysis of a package spans all its files", "anchors": ["crates/jarl-core/src/check.rs:check", "crates/jarl-core/src/check.rs:lint_fix", "crates/jarl-core/src/package.rs:compute_package_analysis"]}
{"id": "C100", "title": "The editor reports on the text in the editor", "statement": "The diagnostics the editor shows for a document with unsaved changes are those it shows for the same text once it is saved.", "quantifier": "every project, configuration, linter and text", "why_tests_cant": "texts and projects are unbounded, and part of the analysis reads other files", "anchors": ["crates/jarl-lsp/src/lint.rs:run_jarl_linting", "crates/jarl-core/src/package.rs:compute_package_analysis"]}
{"id": "C101", "title": "Fixing a test keeps its verdict", "statement": "The fixes of expect_null, expect_true_false, expect_length, expect_named, expect_s3_class, expect_type, expect_not, expect_match and expect_no_match replace an expectation by one that evaluates the same things and passes or fails in the same cases, with the package named as before.", "quantifier": "every file, place in it and meaning of the rest of the program", "why_tests_cant": "programs and values are unbounded", "anchors": ["crates/jarl-core/src/lints/testthat/expect_null/expect_null.rs:expect_null", "crates/jarl-core/src/lints/testthat/expect_s3_class/expect_s3_class.rs:expect_s3_class", "crates/jarl-core/src/lints/testthat/expect_type/expect_type.rs:expect_type", "crates/jarl-core/src/lints/testthat/expect_not/expect_not.rs:expect_not", "crates/jarl-core/src/lints/testthat/expect_match/expect_match.rs:expect_match"]}
{"id": "C102", "title": "The editor offers to silence what it reports", "statement": "For each report touching the requested range the editor offers its fix, a comment silencing the rule there and, in documents, a comment silencing it in the chunk; a comment is not offered when one for the same rule is there already, and offered otherwise.", "quantifier": "every text, report, requested range, encoding and place", "why_tests_cant": "texts, reports and existing comments are unbounded", "anchors": ["crates/jarl-lsp/src/server.rs:Server::generate_code_actions", "crates/jarl-lsp/src/server.rs:Server::diagnostic_to_jarl_ignore_rule_action", "crates/jarl-lsp/src/server.rs:Server::diagnostic_to_jarl_ignore_chunk_action", "crates/jarl-core/src/suppression_edit.rs:parse_existing_suppression"]}
{"id": "C103", "title": "A file is read, fixed and reported under its name", "statement": "The name under which a file is read, rewritten and reported designates, in the working directory, the file that was given on the command line or found by the walk; two files are never reported under the same name; names are relative to the working directory when the file is below it and absolute otherwise.", "quantifier": "every file system (with links), working directory and path, with any number of . and .. and slashes", "why_tests_cant": "paths and file systems are unbounded", "anchors": ["crates/jarl-core/src/fs.rs:normalize_path", "crates/jarl-core/src/fs.rs:relativize_path", "crates/jarl-core/src/check.rs:lint_only", "crates/jarl/src/output_format.rs:ConciseEmitter"]}
{"id": "C104", "title": "The message is right", "statement": "The message of a diagnostic shows the code to use instead: the fix of the diagnostic is that code, with the user's code in the place of the message's names, and where the reported code is of the form the message quotes, the fix is the advised form of the same code. A message is one line of text, names the functions, arguments and constructs it is about correctly, and is the same in every run.", "quantifier": "every rule with a message of its own, every expression and place, every order of Rust's hash sets", "why_tests_cant": "expressions are unbounded, and the code in the place of a name is arbitrary", "anchors": ["crates/jarl-core/src/lints/base/seq/seq.rs:seq", "crates/jarl-core/src/lints/base/outer_negation/outer_negation.rs:outer_negation", "crates/jarl-core/src/lints/base/class_equals/class_equals.rs:class_equals", "crates/jarl-core/src/lints/base/duplicated_arguments/duplicated_arguments.rs:duplicated_arguments", "crates/jarl-core/src/lints/base/implicit_assignment/implicit_assignment.rs:implicit_assignment", "crates/jarl-core/src/lints/base/sprintf/sprintf.rs:sprintf", "crates/jarl-core/src/diagnostic.rs:ViolationData"]}
{"id": "C105", "title": "Fixing numbers without a leading zero works on every file", "statement": "`jarl check --fix --select numeric_leading_zero` on any file R can read ends without an error and with no diagnostic left. The new text is the old one with zeros added before dots and nothing else; R can read it and it does the same thing (given that .5 and 0.5 are the same number); no number in the places jarl looks at starts with a dot any more; other files are untouched. Every such number is found at exactly its bytes, and no fix is lost because of a comment or of another fix. Stopped at any moment, with any number of files processed in any interleaving, each file is as it was or has some of these zeros; a second run changes nothing.", "quantifier": "every text R can read (within the grammar modelled), every path, file system and interpretation of R, every schedule and moment of interruption", "why_tests_cant": "files are unbounded: any number of fixes in any nesting, any number of passes, any characters before them", "anchors": ["crates/jarl-core/src/lints/base/numeric_leading_zero/numeric_leading_zero.rs:numeric_leading_zero", "crates/jarl-core/src/check.rs:lint_fix", "crates/jarl-core/src/check.rs:get_checks", "crates/jarl-core/src/fix.rs:apply_fixes"]}
{"id": "C106", "title": "A rule that only reports changes nothing; the uses of T and F are all reported", "statement": "If no selected rule has a fix, `jarl check --fix` changes no file, whatever is in it and whenever it is stopped. true_false_symbol is such a rule: on any file R can read, the run ends, leaves every file as it is and reports, at exactly their bytes, the T and F used as values, all of them and nothing else: not the function of a call, not what follows $ or @, not the name of an argument or parameter, not a side of a formula; besides these, loops that run over T or F.", "quantifier": "every text (R code or not) and file system for the first part; every text R can read (within the grammar modelled) for the second", "why_tests_cant": "files are unbounded: any nesting, any number of findings, any moment of interruption", "anchors": ["crates/jarl-core/src/lints/base/true_false_symbol/true_false_symbol.rs:true_false_symbol", "crates/jarl-core/src/analyze/identifier.rs:identifier", "crates/jarl-core/src/rule_set.rs:TrueFalseSymbol", "crates/jarl-core/src/check.rs:get_checks", "crates/jarl-core/src/check.rs:lint_fix"]}
