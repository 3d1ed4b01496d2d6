#!/usr/bin/env python3
# Generates /verif/properties.jsonl from the table below (kept as a script so ids stay stable).
import json,os
P=[]
def p(id,title,statement,quantifier,why,anchors):
    P.append(dict(id=id,title=title,statement=statement,quantifier=quantifier,why_tests_cant=why,anchors=anchors))
C="crates/jarl-core/src/"
p("C01","Autofix only rewrites the ranges of the fixes it applies",
 "The text written by `jarl check --fix` after one pass is the original text in which the source ranges of a subset of the reported fixes have been replaced by those fixes' contents; every byte outside these ranges is preserved, in order.",
 "every file text (any Unicode) and every list of fixes produced for it","offset bookkeeping depends on the lengths of all earlier replacements; a test only samples a few combinations",
 [C+"fix.rs:apply_fixes"])
p("C02","Two overlapping fixes are never applied in the same pass",
 "If two fixes of the same file overlap, a single fixing pass applies at most one of them (the other one is left for the next pass).",
 "every text and every list of fixes, in any order and nesting","the guard compares shifted positions; whether it is right depends on all length changes so far",
 [C+"fix.rs:apply_fixes"])
p("C03","A pass that reports no skipped fix has applied all of them, and the first fix is never skipped",
 "When a pass reports that nothing was skipped, every fix in the list was applied; the first fix of the list is always applied, so a pass that has a fix to apply always makes progress.",
 "every text and every list of fixes","termination and completeness of the fix loop quantify over all fix lists",
 [C+"fix.rs:apply_fixes",C+"check.rs:lint_fix"])
p("C04","`--fix` reports what remains in the file it leaves on disk",
 "When fixing a file succeeds, the diagnostics returned are exactly those of linting the content now on disk, that content is reached from the initial one by repeated passes, and no other file has been modified.",
 "every linter behaviour, every initial file system and every number of passes","the loop re-reads and re-writes the file an unbounded number of times",
 [C+"check.rs:lint_fix",C+"check.rs:lint_only",C+"check.rs:check_path"])
p("C05","Files without applicable fixes, and Rmd/Qmd files, are never changed",
 "If none of a file's diagnostics carries a fix, `--fix` leaves its content unchanged; R Markdown/Quarto files are never written at all, and without `--fix`/`--unsafe-fixes` no file is written.",
 "every file content, extension and configuration","absence of a write must hold on all paths through the driver",
 [C+"check.rs:lint_fix",C+"check.rs:check_path",C+"fs.rs:has_rmd_extension",C+"diagnostic.rs:Fix::empty"])
p("C06","No fix is written unless the version-control gate passes",
 "When fixes are requested, if some checked path is outside a repository (and --allow-no-vcs is absent), or some repository containing a path has uncommitted changes (and neither --allow-dirty nor --allow-no-vcs is given), no file is modified and one error is reported; otherwise every path is processed.",
 "every set of paths, repositories and statuses, and every flag combination","the paths may be spread over arbitrarily many repositories with arbitrary statuses",
 [C+"vcs.rs:check_version_control",C+"check.rs:check"])
p("C07","Reported row and column are those of the start of the diagnostic",
 "The row reported for a diagnostic is 1 + the number of newlines before its start and the column is the number of bytes between the last such newline and its start.",
 "every text and every offset in it","boundary cases (first line empty, offset on a newline) are data dependent",
 [C+"utils.rs:find_row_col",C+"utils.rs:find_new_lines",C+"utils.rs:compute_lints_location"])
p("C08","A comment is a suppression directive exactly when it follows the documented grammar",
 "A comment is accepted as a valid `jarl-ignore[-file|-start|-end|-chunk] <rule>: <reason>` directive for rule r iff it has the documented shape with a known rule name and (except for -end) a non-empty explanation; well-formed directives round-trip; every other comment is classified as blanket, unexplained, misnamed or not a directive.",
 "every comment text","the parser has many prefix cases over an infinite input space",
 [C+"directive.rs:parse_comment_directive",C+"directive.rs:parse_rule_with_explanation",C+"directive.rs:parse_quarto_chunk_array_item",C+"directive.rs:is_quarto_chunk_array_header"])
p("C09","Suppressions hide exactly the diagnostics they cover",
 "After filtering, the reported diagnostics are, in the original order, exactly those for which there is no file-level or chunk-level suppression of the same rule, and no region or annotated node for the same rule whose range contains the diagnostic's range.",
 "every set of suppressions and list of diagnostics","interaction of four kinds of suppressions with arbitrary ranges",
 [C+"suppression.rs:filter_diagnostics",C+"suppression.rs:is_diagnostic_suppressed"])
p("C10","A suppression is reported as outdated iff it suppressed nothing",
 "A suppression comment is reported as outdated iff no diagnostic was hidden on its account; a comment that is the only one covering some hidden diagnostic is never reported.",
 "every set of suppressions and list of diagnostics","usage tracking depends on the whole history of filtering",
 [C+"suppression.rs:get_unused_suppressions",C+"suppression.rs:is_diagnostic_suppressed",C+"analyze/document.rs:check_document"])
p("C11","Region suppressions are well bracketed",
 "Every suppressed region starts at a jarl-ignore-start comment and ends at the next jarl-ignore-end comment for the same rule at the same brace-nesting level; starts without an end and ends without a start are reported as unmatched.",
 "every sequence of comments in a file","pairing depends on an unbounded interleaving of starts and ends of several rules and levels",
 [C+"suppression.rs:process_comment",C+"suppression.rs:from_node"])
p("C12","No suppression comment is silently ignored",
 "Every comment that parses as a jarl-ignore directive (valid or not) ends up either in effect or in one of the lists of problems reported to the user (blanket, unexplained, misnamed, misplaced, unmatched, invalid chunk form).",
 "every sequence of comments","quantifies over all histories of directives",
 [C+"suppression.rs:process_comment",C+"suppression.rs:collect_all_directives",C+"suppression.rs:from_node"])
p("C13","Skipping comment processing when the file does not mention jarl-ignore changes nothing",
 "For a source without the text `jarl-ignore`, the result with the fast path (no comment processing) is the same as running the complete processing: nothing is suppressed, nothing is reported about suppressions.",
 "every source text and tree of comments drawn from that text","equivalence of an optimisation with the full path, for all inputs",
 [C+"suppression.rs:from_node"])
p("C14","R chunks extracted from an Rmd/Qmd file are exact slices of the file",
 "Every extracted chunk's code is exactly the text of the file at the reported byte offset, chunks appear in file order and do not overlap, each is delimited by an opening R fence and a line consisting of the same fence, and text outside closed fences is never analysed.",
 "every document text","documents have unboundedly many fences in arbitrary nesting",
 ["crates/jarl-core/src/rmd/extraction.rs:extract_r_chunks"])
p("C15","Rmd diagnostics point at the original file and respect file-level suppressions",
 "For an Rmd/Qmd file, the text of a diagnostic's range in the file equals the text of its range in its chunk; a rule suppressed at file level in the first chunk is reported in no chunk; diagnostics carry no fix; chunks that do not parse yield nothing.",
 "every document and every per-chunk linter behaviour","offset remapping and cross-chunk suppression over arbitrarily many chunks",
 [C+"check.rs:get_checks_rmd"])
p("C16","Rule selection follows the documented precedence",
 "The rules that run are (select or the defaults) plus extend-select minus ignore, where command line select/extend-select take precedence over the configuration file's and ignores from both are united; unknown names are an error; the order and duplicates in the user's lists do not matter.",
 "every combination of command-line and TOML lists","exponentially many combinations of lists of names and groups",
 [C+"config.rs:reconcile_rules",C+"config.rs:parse_rules_cli",C+"config.rs:parse_rules_toml",C+"config.rs:replace_group_rules"])
p("C17","Unsafe fixes are only ever applied with --unsafe-fixes",
 "Without --unsafe-fixes, no rule whose fix is unsafe is among the rules run in fixing mode.",
 "every configuration and flag combination","interplay of --fix, --unsafe-fixes, --fix-only and configuration",
 [C+"config.rs:build_config"])
p("C18","fixable / unfixable settings are honoured",
 "A diagnostic keeps a fix only if its rule can be fixed, is not listed in `unfixable`, and is listed in `fixable` when that is set; other diagnostics are unchanged apart from losing their fix.",
 "every list of diagnostics and configuration","must hold for every rule and every combination of sets",
 [C+"check.rs:get_checks",C+"config.rs:build_config"])
p("C19","Rules needing a newer R than the project supports never run",
 "A rule with a minimum R version is run only if the project's minimum R version is known and at least the rule's; rules without minimum version are unaffected; raising the project's version never disables a rule.",
 "every version triple and rule selection","lexicographic comparison over an infinite domain",
 [C+"config.rs:filter_rules_by_version",C+"config.rs:determine_minimum_r_version",C+"config.rs:parse_r_version"])
p("C20","Rule names identify rules and groups expand to their members",
 "Each rule is found by its name and only by its name; names are pairwise distinct; a group name selects exactly the rules of that category and ALL selects every rule.",
 "every string and every rule","the domain of strings is infinite",
 [C+"rule_set.rs:Rule",C+"config.rs:replace_group_rules"])
p("C21","duplicated_function_definition reports exactly the later definitions",
 "Within a package, a top-level function definition is reported iff a definition with the same name occurs earlier (in an earlier file by path order, or earlier in the same file); the first definition is never reported and the result does not depend on the order in which files were discovered.",
 "every package content and discovery order","parallel scanning of arbitrarily many files",
 [C+"lints/base/duplicated_function_definition/duplicated_function_definition.rs:compute_duplicates_from_shared",C+"package.rs:scan_top_level_assignments"])
p("C22","unused_function never reports a function that is referenced",
 "A reported function's name does not occur as an identifier anywhere in the package's R files apart from its definitions, nor in the other scanned files, is not exported by NAMESPACE, and is not excluded by configuration.",
 "every package content","quantifies over all file contents and identifiers",
 [C+"lints/base/unused_function/unused_function.rs:compute_unused_from_shared",C+"lints/base/unused_function/unused_function.rs:scan_symbols",C+"lints/base/unused_function/unused_function.rs:parse_namespace_exports"])
p("C23","Code reported as unreachable never executes",
 "If unreachable_code reports a range in a function body, then no execution of that body (for any values of its non-constant conditions and any number of loop iterations) executes a statement in that range.",
 "every function body and every execution","unboundedly many control-flow shapes and execution traces",
 [C+"lints/base/unreachable_code/cfg/builder.rs",C+"lints/base/unreachable_code/cfg/reachability.rs:find_reachable_blocks",C+"lints/base/unreachable_code/unreachable_code.rs"])
p("C24","Exit status reflects the outcome",
 "The process reports success only if no diagnostic was found and no file failed, failure (1) iff diagnostics and no errors, and error (255) iff some file could not be processed.",
 "every list of results and output option","all combinations of per-file results",
 ["crates/jarl/src/commands/check.rs:check","crates/jarl/src/status.rs"])
p("C25","Each file is linted exactly once, under its nearest configuration",
 "Grouping files by configuration is a partition of the discovered files: every file is checked exactly once with the settings of the deepest directory that has a configuration and contains it, or the default settings if there is none.",
 "every set of files and configuration directories","directory trees of arbitrary depth",
 ["crates/jarl/src/commands/check.rs:check",C+"discovery.rs",C+"settings.rs"])
p("C26","--add-jarl-ignore only inserts comment lines",
 "Inserting suppression comments leaves the original text as a subsequence: deleting the inserted pieces gives back the original file, the pieces are inserted at the computed offsets, each requested (offset, rule) gets its comment, and a reason with line breaks is rejected without touching the file.",
 "every file text and set of diagnostics","offsets shift with each insertion",
 ["crates/jarl/src/commands/check.rs:add_jarl_ignore_comments",C+"suppression_edit.rs:format_suppression_comments"])
p("C27","Inserted suppression comments are understood by jarl",
 "The comment that jarl writes for a rule and a reason parses back as a valid directive for that very rule, for every known rule and every non-blank single-line reason.",
 "every rule, reason and indentation","round-trip between a printer and a parser over all strings",
 [C+"suppression_edit.rs:format_suppression_comments",C+"directive.rs:parse_comment_directive"])
p("C28","--statistics counts are exact",
 "The statistics show each rule that has at least one diagnostic exactly once with exactly its number of diagnostics, and the counts add up to the number of diagnostics.",
 "every list of diagnostics","counting over arbitrary lists",
 ["crates/jarl/src/statistics.rs:print_statistics"])
p("C29","LSP positions and byte offsets are inverse",
 "For every document, converting a valid byte offset to an LSP position and back gives the same offset, in UTF-8 and UTF-16; every successful conversion lands on a character boundary inside the document and on the requested line.",
 "every document text, offset and position","arbitrary Unicode text and line structures",
 ["crates/jarl-lsp/src/document.rs:position_to_offset","crates/jarl-lsp/src/document.rs:offset_to_position","crates/jarl-lsp/src/document.rs:compute_line_starts"])
p("C30","Incremental document synchronisation follows the LSP specification",
 "After a didChange notification, the server's document equals the client's: the result of applying the changes one after the other, each relative to the state left by the previous one.",
 "every document and list of changes","histories of edits are unbounded",
 ["crates/jarl-lsp/src/document.rs:apply_changes"])
p("C31","The session tracks exactly the open documents",
 "At any time the server knows exactly the documents that were opened and not closed since, each with the text and version given by its history; operations on unknown documents are rejected and leave the others untouched.",
 "every history of open/change/close notifications","unbounded histories",
 ["crates/jarl-lsp/src/session.rs"])
p("C32","Diagnostics and quick fixes sent to the editor cover the right text",
 "The LSP range of a diagnostic or of a quick-fix edit designates the same text as the byte range computed by the linter, in the negotiated encoding; no edit is offered for a diagnostic without fix.",
 "every document, diagnostic and encoding","arbitrary Unicode text before the diagnostic",
 ["crates/jarl-lsp/src/lint.rs:byte_offset_to_lsp_position","crates/jarl-lsp/src/server.rs:diagnostic_to_code_action","crates/jarl-lsp/src/server.rs:offset_to_position"])
p("C33","Exclusion patterns in the LSP match as globs",
 "A pattern with `*` matches a file name iff the name can be obtained by replacing each `*` with some string; a directory pattern matches iff some directory component of the path equals it.",
 "every pattern and path","patterns with arbitrarily many stars",
 ["crates/jarl-lsp/src/utils.rs"])
p("C34","Encoding negotiation picks a mutually supported encoding",
 "The encoding used is one the client offered, preferring UTF-8 over UTF-16, and UTF-16 when the client offers none (the protocol default).",
 "every list of offered encodings","all lists",
 ["crates/jarl-lsp/src/session.rs:negotiate_position_encoding"])
if __name__=="__main__":
    exec(open(os.path.join(os.path.dirname(os.path.abspath(__file__)),"props_more.py")).read()) if os.path.exists(os.path.join(os.path.dirname(os.path.abspath(__file__)),"props_more.py")) else None
    with open(os.path.join(os.path.dirname(os.path.abspath(__file__)),"..","properties.jsonl"),"w") as f:
        for x in P: f.write(json.dumps(x,ensure_ascii=False)+"\n")
    print(len(P))
