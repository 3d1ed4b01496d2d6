# Formal model of etiennebacher/jarl in Rocq (Coq 8.16.1)

## Layout

* `rocq/theories/Model/*.v`   – executable Gallina model, one file per area; every definition cites the
  file and lines of `/repo` it models, and states its simplifications.
* `rocq/theories/Spec/*.v`    – small specifications, written without the model's helpers.
* `rocq/theories/Proofs/*.v`  – lemmas and proofs.
* `rocq/theories/Properties/*.v` – only the property theorems (`exact lemma.`), each followed by
  `Print Assumptions`, and the `Example`s showing that hypotheses are satisfiable.
* `seeded/LOG.jsonl` – log of mutation experiments against the theorems.

## Text

A Rust `String` is modelled as a list of Unicode scalar values (`list N`), with byte lengths
computed from the UTF-8 encoding length of each scalar (1–4). A byte offset that is not a character
boundary, or is out of range, makes slicing return `None` (= Rust panic).

## Per-property plan

| id | what is modelled | how it is proved |
|----|------------------|------------------|
| C01 | `apply_fixes` over texts, offsets in `Z`, panics as `None` | invariant of the loop: processed prefix is a splice; refutations for the unrestricted claim |
| C02 | same | witness by computation (claim is false of the code), positive theorem under the exact guard |
| C03 | same | induction over the fix list |
| C04 | `lint_fix`, `lint_only`, `check_path` over a file-system map and an arbitrary linter (section variable turned into a universally quantified argument) | induction over the number of loop iterations (fuel; out of fuel excluded) |
| C05 | same | corollary + induction |
| C06 | `check_version_control`, `check` | case analysis, frame property on the file system |
| C07 | `find_row_col`, newline positions | induction on the text; refutation for offset-0 newline |
| C08 | `directive.rs` completely, rule table | inversion of the parser against a declarative grammar |
| C09, C10 | `filter_diagnostics`, usage tracking | induction over diagnostics |
| C11, C12, C13 | `process_comment`, collector as a state machine over comment events | invariant over event lists |
| C14 | `extract_r_chunks` as a line state machine | invariant over lines |
| C15 | `get_checks_rmd` with arbitrary chunk linter | list reasoning |
| C16–C20 | `rule_set.rs` table, `config.rs` | set reasoning; finite sweeps over the rule table lifted to all strings |
| C21 | duplicates computation | induction over sorted definitions, permutation invariance |
| C22 | symbol scanning, unused computation, NAMESPACE parsing | scanner correctness by induction; refutation for non-ASCII names |
| C23 | CFG builder, DFS, constant conditions; big-step semantics of R statements | simulation: every execution follows a CFG path |
| C24, C25, C26, C28 | command driver | list reasoning |
| C27 | comment formatter + directive parser | round trip |
| C29–C34 | LSP document, session, server helpers | induction over text / histories |
| C35–C39 | `toml.rs`, `config.rs`, `rule_options/*`, `description.rs` | case analysis over option values; version order as a decision procedure proved correct |
| C40, C41 | CFG builder, messages of unreachable code | simulation in the other direction (completeness), reason of each dead block traced to the statement that ended the block before it; position of the report without constant conditions by an invariant on the blocks without path from the entry (`Proofs/CfgCause.v`) |
| C42–C45 | suppression manager and comment directives | as C09–C13 |
| C46, C47, C49 | `suppression_edit.rs`, over an abstract tree of nodes with ranges | induction over the ancestors of a node |
| C48 | LSP document changes as a state machine | invariant over notifications |
| C50–C53 | `commands/check.rs`, `output_format.rs`, `statistics.rs` | permutation invariance, counting |
| C54, C57 | `discovery.rs`; glob matching, the ignore walker and path resolution are arguments | induction over directory ancestors and over the walk; refutations by computed directory trees |
| C55, C56 | `package.rs`, `unused_function` | as C22 |
| C58–C63 | rewriting rules as functions from a node and its surroundings to a replacement text; R's grammar as an operator-precedence parser; R's evaluation with everything the rules do not touch left abstract | (1) the parser reads back exactly the well-formed trees; (2) which texts may replace a node (`fits`), by induction over the surroundings; (3) replacing an equivalent computation changes no run (congruence); (4) the algebraic fact behind each rule; refutations by running two programs in a concrete interpretation |
| C64 | same | (1) and (2) |
| C65 | all single-node rules (Model/Lints, Model/MoreLints); `Spec/RDocumented.v` is an inductive list of the documented forms | case analysis, one lemma per form |
| C66, C67 | as C58–C63, with `=`, `<-`, `->` and `&&` added to the language | as C58–C63 |
| C68 | `evaluate_constant_condition`, number literals as texts | induction over the condition: the constant computed is the value of every run that gives one |
| C69 | `analyze/*.rs` (Model/Traverse): which rules run on which node, in what order, and how an error stops the file; `unreachable_code` is an argument | induction over expressions: the reports are exactly those of rules firing at reached positions |
| C70 | same, with rules in a result type (error, panic) | one lemma per failing rule, then C69's induction |
| C71 | all single-node rules; `Spec/RFlagged.v` gives for each rule a declarative predicate on a node and its surroundings | one equivalence lemma per rule (argument choice, names, formats, literals each characterised separately), combined with C69 |
| C72 | argument helpers of `utils.rs`; `Spec/RArguments.v` is R's argument matching as a relation | counting argument: if all needed formals are found in a call with that many arguments, the unnamed ones are a prefix of the free formals; refutations by computation |
| C73 | `lint_fix`, `apply_fixes` and `get_checks` on the text of a file (`Model/Pipeline.v`) | partial: byte length decreases in every pass that skips a fix; refuted: the text after k passes is computed by induction on k (lexing, parsing, all rules, fixes) |
| C74 | same | partial from the last reading of the loop; refuted by computation of whole runs |
| C75 | same, with `node_contains_comments` | tokens cover the pieces of the text in order, and a comment goes on to the end of its line; so a comment inside the range belongs to a token inside it |
| C76 | same | from C05; refuted by computation |
| C77 | same | each rule reports the expression it looks at or the pipe it is in (`Proofs/InPlace.v`), and the tokens of an expression are consecutive in those of the file |
| C78 | `server.rs` `main_loop`, `handle_request`, `worker_thread` (Model/Server) as a transition system: main thread, bounded task channel, worker pool, messages out | requests = answers + tasks under way (invariant); a decreasing measure for the server's own steps gives "inevitably"; runs for the refutations |
| C79 | same, with `take_snapshot` and `handle_lint_task` | the saved texts are a permutation of the finished and the flying ones; with one worker, in order |
| C80 | same, channel capacity 100 | measure and progress; a run that kills all workers and fills the channel |
| C81 | same | each task and pending answer goes back to a request in the trace |
| C82 | same, `notify_unused_fn_threshold_once` (atomic swap), `check_and_notify_config` | invariant: messages sent + threads about to send = flag |
| C83 | same | a stopped main thread stays stopped |
| C84 | `Model/Pipeline.v` and `breplace`; `Spec/RText.v` says when a text is cut at a byte and when its line breaks are inside brackets | the lexer is compositional at cuts, and line breaks are arranged alike before and after the replaced code (`Proofs/LocalText.v`, `Proofs/ReplaceText.v`) |
| C85 | command line, configuration and `get_checks` together | C69's exact characterisation, composed with the inversion of `build_config` and of `filter_fix` |
| C86 | `apply_fixes`, the passes of `check_path` and the rules; `Spec/RAlike.v` and `Spec/RPass.v` say which places look alike and when a fix is an edit of an expression | replacing a later expression leaves the earlier ones where they are, in places that look alike (`Proofs/TwoPlaces.v`, `Proofs/PassProofs.v`); induction on the list of fixes from the right, and on the passes |
| C87 | `check` and `compute_package_analysis` on a project, with grouping by configuration (`Model/Project.v` puts Config, Cli and Package together) | the group of a package is the same up to order whatever the checked files (`Proofs/ProjectFiles.v`), exact lookups in the two analyses, nearest configuration from C25; runs for the refutations |
| C88 | `run_jarl_linting` and `collect_sibling_r_files` (`Model/Project.v`) against a command-line run | the editor's analysis of the sibling files is a run with other files (C87); settings by C54; runs for the refutations |
| C89 | the fixes of all rules of `Model/Lints.v`, `Model/MoreLints.v`, with the tokens of the file around them; what each rule may write is the table `adds` of `Spec/RMention.v` | the tokens of the replacement are counted against those of the reported node, rule by rule (`Proofs/MentionRules.v`), then lifted to the file |
| C90 | the same fixes; the rules claimed to lose nothing are the table `keeping` of `Spec/RMention.v` | each argument left out is shown to be the one the rule tested; 21 counterexamples computed for the others |
| C91 | `rule_set.rs` tables (`Model/Rules.v`) and `build_config` against the table of `docs/rules.qmd`, transcribed by `tools/gen_table.py` into `Spec/RuleTable.v` | rows checked by computation, effect on runs by C16/C17/C18; refutations by runs |
| C92 | `GithubEmitter` (`Model/Output.v`) | the line is split at the separators of a workflow command (`Spec/OutputSpec.v`); texts without codes are their own decoding |
| C93 | `ConciseEmitter`, `make_hyperlink` | unique decomposition at the separators; decimal notation is injective and ends at the first non-digit |
| C94 | `print_summary`, `print_statistics` | the same, by cases on the wording |
| C95 | warnings of `check` (`Model/Warnings.v`) | membership in the sorted set of given names; the set has no duplicates |
| C96 | `JsonEmitter` and the derived `Serialize` (`Model/Json.v`) | a JSON parser (`Spec/JsonSpec.v`) undoes the printer: induction on values, fuel bounded by the length |
| C97 | the seven rules (`Model/Lints.v`) and, as requirements on the interpretation, the functions they name (`Spec/RFunctions.v`) | `harmless_edit`; sorting lemmas (elements at the positions of order() are sort()), counting lemmas; counterexamples run in a concrete R (`Spec/RLibrary.v`) |
| C98 | `make_hyperlink`, `ConciseEmitter` (`Model/Output.v`) | a terminal that interprets OSC 8 links (`screen` in `Spec/OutputSpec.v`): induction on the text for each state |
| C99 | `check`, `check_path`, `lint_fix` on a group of files with the package analysis (`Model/ProjectFix.v`) | the last reading of each file is of its final text (C04), the analysis is the same when its rules are off or the file is in no package; counterexample by computation with the linter of `Model/Pipeline.v` |
| C100 | `run_jarl_linting` on a text that differs from the file (`Model/Project.v`) | the linting only sees the disk through the package analysis and DESCRIPTION; counterexample by computation |
| C101 | the nine testthat rules (`Model/MoreLints.v`) and, as requirements on the interpretation, what expectations judge (`Spec/RExpect.v`) | `harmless_edit`; the two calls evaluate the same arguments and tell the same verdict; counterexamples run in the R of `Spec/RLibrary.v` |
| C102 | the three actions offered for a report and the tests for comments already there (`Model/Actions.v`) | exact description of the line above (`Spec/ActionSpec.v`) by splitting lines, names and blanks; induction over the reports; counterexamples computed |
| C103 | `normalize_path` and `relativize_path` on texts (`Model/Paths.v`); the specification is a file system with symbolic links and POSIX pathname resolution (`Spec/PathSpec.v`) | induction on resolution: a prefix without links determines the rest, so the lexical path leads to the same place; injectivity of joining names; counterexample with a link |
| C104 | the `body` and `suggestion` of every rule (`Model/Messages.v`); quotations are read as R code with holes (`Spec/AdviceSpec.v`) | by cases on the rule and its report; the order of a hash set is a parameter; counterexamples evaluated |
| C105 | the whole chain of `Model/Pipeline.v` (lexer, parser, search, rule, byte ranges, fix filter, `apply_fixes`, the loop of `lint_fix`) for one rule | the findings are in the order of the file and disjoint; each fix is an edit in a usual place of C84; a pass of n edits lowers the number of findings by n; induction on that number; an invariant of the job states gives the interrupted and the interleaved runs |
| C106 | `Model/Pipeline.v`, `Model/Config.v` (`filter_fix`), `Model/Driver.v` for rules without a fix; the search and true_false_symbol for the exact places | without fixes `apply_fixes` returns the text, so the job only ever writes back what it read (invariant of the job states); the search is exact (C64's lemma), the rule by cases on the frame above the name |

Each property whose English claim is false of the code is kept as stated; a theorem `…_refuted` exhibits a
concrete execution of the model that violates it, and a theorem `…_partial` proves it under the exact or
nearly exact condition under which it holds.

## Trusted base

* Coq 8.16.1's kernel (including `vm_compute`, used for finite computations in witnesses and rule tables).
* `Print Assumptions` follows every property theorem; each prints "Closed under the global context": no
  axiom, of the standard library or otherwise, is used by any of them. (`vcheck` also lists seven
  `Coq.ssr.ssrunder` names: these are module parameters of a standard-library file that gets loaded, not
  assumptions of any theorem here.)
* The fidelity of the model to the Rust code, which is by reading; every definition cites its source lines.

## What is modelled

| code | model | left out |
|------|-------|----------|
| jarl-core `fix.rs`, `check.rs`, `vcs.rs` | Fix, Driver | threads (per-file work only touches that file, so a parallel map is a map), I/O errors other than read/write failures |
| `location.rs`, `utils.rs` row/column | RowCol | – |
| `directive.rs`, `suppression.rs`, `suppression_edit.rs`, `lints/comments/*`, `analyze/document.rs` | Directive, Suppress, Document, SuppressEdit | biome's attachment of comments to nodes is an input (any attachment) |
| `rule_set.rs`, `config.rs`, `toml.rs`, `rule_options/*`, `settings.rs`, `description.rs` | Rules, Config, RuleOptions, Description | the TOML parser (typed options are the input) |
| `fs.rs` `normalize_path`, `relativize_path` | Paths | names that are not Unicode, Windows; the other models take file names as already normalised |
| `discovery.rs`, `fs.rs`, jarl `main/lib/commands/check/statistics/status/output_format/args` | Cli | the `ignore` crate's walker, glob compilation and matching, path resolution (arguments of the model), clap, colours, rendering of snippets |
| `output_format.rs`, `statistics.rs` texts, warnings of `check.rs` | Output, Warnings, Json | terminal colours, `relativize_path` (a parameter), the Full rendering, serde_json beyond its pretty printer |
| messages of the rules in `lints/*` (`ViolationData::new`) | Messages | unreachable_code (in Cfg), comment and package rules (in Document, Package) |
| `package.rs`, `unused_function`, `duplicated_function_definition` | Package | Unicode `is_alphanumeric` and regexes are arguments; package paths are already relative |
| `unreachable_code/*` | Cfg | expressions other than control flow are opaque |
| `rmd/*` | Rmd | – |
| jarl-lsp `document, utils, lint, session, server` | Lsp, Actions | JSON-RPC transport, the client, timing; lines end at `\n` only |
| `utils.rs`, `utils_ast.rs` argument and position helpers, rules of `lints/base` and `lints/testthat` that look at one node, `analyze/*.rs` | RExpr, Lints, MoreLints, Traverse | air's parser (its trees are the input; R's own grammar is the specification), spacing inside fixes, lambdas, strings as argument names |
| `jarl-lsp/src/server.rs` threads, channels and message handling, `client.rs`, `session.rs` notifications | Server | the transport (sending to the client never fails or blocks), JSON, what `lint_document` returns (a parameter: the other models describe it), threads after `shutdown` beyond finishing their tasks |
| `check.rs` `get_checks` and `report_diagnostic` from text: parse, walk, spans, comments, filtering, the fix loop of `check.rs`/`fix.rs` on the same text | Pipeline | air's lexer and parser (replaced by `Spec/RLex` and `Spec/RGrammar`: no `;`, raw strings, `\(x)`, `?`, `**`); the text of a fix is its tokens in usual spacing (`show`), where the code copies the spacing of the source; document-level checks and suppression comments (modelled apart in Document, Suppress) |
| `check.rs` `check` and `lint_only`, `package.rs` `compute_package_analysis`, `jarl-lsp/src/lint.rs` `run_jarl_linting` | Project, ProjectFix | `get_checks` of one file (a parameter here; Pipeline describes it), `relativize_path`, paths that are not UTF-8 |

## Specification of R used for C58–C77 and C84–C86

`Spec/RLex.v` cuts a text into the tokens of that grammar with their positions, comments and line ends
(C73–C77). `Spec/RGrammar.v` is a parser following the precedence table of R's `gram.y`; `Spec/RWellFormed.v`
describes the same language without a parser and `Proofs/RParse*.v` prove both equal (so `reads` is
deterministic, and text → tree → text is the identity). `Spec/RSemantics.v` gives meaning to
comparisons, `!`, `any`, `all`, `is.na`, `anyNA`, `duplicated`, `anyDuplicated`, `is.null`, `ifelse` and
friends, `%in%`, `%||%`, `if`, blocks, pipes and assignment targets on plain vectors (with NA and
recycling); all the rest of the language is an arbitrary `interp` record, constrained only by "operands
matter only through what they compute" and four facts about the numbers 0 and 1. Simplifications:
values carry no attributes, a nonzero numeral too small for a double counts as nonzero, base functions are not redefined, no `quote()`/`substitute()`, no warnings.
