(** What is printed: jarl/src/output_format.rs, statistics.rs.
    Simplifications: the terminal colours of the crate [colored] are off (it prints them only on a
    terminal); [relative] stands for [relativize_path]. *)
From Coq Require Import DecimalString.
From Verif Require Import Model.Text Model.Base.

(** Rust's [Display] for unsigned integers: decimal notation. *)
Definition decimal (n : nat) : text := lit (NilEmpty.string_of_uint (N.to_uint (N.of_nat n))).

(** diagnostic.rs:43-75: the part of a [Diagnostic] that is printed.  [p_row] and [p_col] are
    [location.row()] and [location.column()]. *)
Record printed := mk_printed {
  p_file : text; p_rule : text; p_row : nat; p_col : nat; p_body : text; p_suggestion : option text }.

(** output_format.rs:183-187 and 275-279. *)
Definition message (d : printed) : text :=
  match p_suggestion d with Some s => p_body d ++ lit " " ++ s | None => p_body d end.

(** output_format.rs:9-16 [make_hyperlink]. *)
Definition esc : text := [27%N].
Definition make_hyperlink (t : text) : text :=
  esc ++ lit "]8;;" ++ lit "https://jarl.etiennebacher.com/rules/" ++ t ++ esc ++ lit "\" ++ t ++ esc ++ lit "]8;;" ++ esc ++ lit "\".

(** output_format.rs:168-206 [ConciseEmitter::emit], without the errors.  [no_color]: the variable
    NO_COLOR is set. *)
Definition concise_line (relative : text -> text) (no_color : bool) (d : printed) : text :=
  relative (p_file d) ++ lit " [" ++ decimal (p_row d) ++ lit ":" ++ decimal (p_col d + 1) ++ lit "] " ++
  (if no_color then p_rule d else make_hyperlink (p_rule d)) ++ lit " " ++ message d.
Definition print_concise (relative : text -> text) (no_color : bool) (ds : list printed) : text :=
  concat (map (fun d => concise_line relative no_color d ++ [nl]) ds).

(** output_format.rs:242-287 [GithubEmitter::emit]. *)
Definition github_line (d : printed) : text :=
  lit "::warning title=Jarl (" ++ p_rule d ++ lit "),file=" ++ p_file d ++ lit ",line=" ++ decimal (p_row d) ++
  lit ",col=" ++ decimal (p_col d + 1) ++ lit "::" ++
  p_file d ++ lit ":" ++ decimal (p_row d) ++ lit ":" ++ decimal (p_col d + 1) ++ lit " " ++
  lit "[" ++ p_rule d ++ lit "] " ++ message d.
Definition print_github (ds : list printed) : text := concat (map (fun d => github_line d ++ [nl]) ds).

(** output_format.rs:20-28 [print_section_header]: the lines are drawn with U+2500, which takes three
    bytes; [len()] counts bytes. *)
Definition bar : char := 9472%N.
Definition section_header (title : text) : text :=
  let prefix := [bar; bar] ++ lit " " ++ title ++ lit " " ++ [bar; bar] in
  prefix ++ repeat bar (57 - blen prefix).

(** output_format.rs:30-84 [print_summary], from the counts (Model/Cli.v, [summary]).  [hint] is the
    value of JARL_N_VIOLATIONS_HINT_STAT, or 15. *)
Definition summary_lines (hint : nat) (has_errors : bool) (counts : nat * nat * nat) : list text :=
  let '(total, n_safe, n_unsafe) := counts in
  if 0 <? total then
    [[]; section_header (lit "Summary");
     if 1 <? total then lit "Found " ++ decimal total ++ lit " errors." else lit "Found 1 error."] ++
    (if 0 <? n_safe then
       [if n_unsafe =? 0 then decimal n_safe ++ lit " fixable with the `--fix` option."
        else decimal n_safe ++ lit " fixable with the `--fix` option (" ++
             (if n_unsafe =? 1 then lit "1 hidden fix" else decimal n_unsafe ++ lit " hidden fixes") ++
             lit " can be enabled with the `--unsafe-fixes` option)."]
     else if 0 <? n_unsafe then
       [(if n_unsafe =? 1 then lit "1 fix is" else decimal n_unsafe ++ lit " fixes are") ++
        lit " available with the `--fix --unsafe-fixes` option."]
     else []) ++
    (if hint <? total then
       [lit "More than " ++ decimal hint ++ lit " errors reported, use `--statistics` to get the count by rule."]
     else [])
  else if has_errors then [] else [section_header (lit "Summary"); lit "All checks passed!"].

(** statistics.rs:32-40: the line of a rule; [{:>5}] pads on the left. *)
Definition pad5 (t : text) : text := repeat 32%N (5 - length t) ++ t.
Definition statistics_line (e : text * (nat * bool)) : text :=
  pad5 (decimal (fst (snd e))) ++ lit " [" ++ (if snd (snd e) then lit "*" else lit " ") ++ lit "] " ++ fst e.
