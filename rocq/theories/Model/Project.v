(** Whole runs on a project: how settings, the package analysis and the linter are put together, by
    the command line (crates/jarl-core/src/check.rs:24-78, crates/jarl/src/commands/check.rs:94-115)
    and by the language server (crates/jarl-lsp/src/lint.rs:88-206).

    The pieces are the models [Config], [Cli], [Package] and [Lsp].  [get_checks] (check.rs:115-224)
    is a parameter [lint]: it is given the rule options (the settings they come from), the
    configuration, the path, the text, and what the package analysis says about the file.  Runs
    without fixes only.  [relativize_path] is the identity (as in [Package]). *)
From Verif Require Import Model.Text Model.Base Model.Rules Model.Description Model.Fix Model.Driver Model.Cli Model.Package.
From Verif Require Model.Config Model.Lsp.

(** What is on disk: all files below the project, and their texts ([None]: cannot be read). *)
Record project := mk_project { disk : list dpath; text_at : dpath -> option text }.
(** [dir.join(name).exists()] followed by [read_to_string]: a file that is there can be read. *)
Definition beside (pr : project) (d : dpath) (name : text) : option text := text_at pr (d ++ [name]).
Definition has_description (pr : project) (d : dpath) : bool :=
  match beside pr d (lit "DESCRIPTION") with Some _ => true | None => false end.
(** config.rs:521-528: the DESCRIPTION file looked at for a path, in the directory of the file. *)
Definition description_beside (pr : project) (p : dpath) : option text := beside pr (parent p) (lit "DESCRIPTION").
(** package.rs:118-121: the package roots. *)
Definition package_roots (pr : project) (paths : list dpath) : list dpath :=
  dedup (map (fun p => parent (parent p)) (filter (fun p => r_file p && in_package (has_description pr) p) paths)).
(** package.rs:152-155 and unused_function.rs:320-330: the NAMESPACE file of a package root; [r] is the
    R directory of the files (their key). *)
Definition namespace_of (pr : project) (paths : list dpath) (r : dpath) : option text :=
  if pmem (parent r) (package_roots pr paths) then beside pr (parent r) (lit "NAMESPACE") else None.

Section Project.
Variable is_alnum : char -> bool.
Variable regex : text -> option (text -> bool).
(** rule_options/unused_function.rs:55-58, from the settings. *)
Variable skipped : option csettings -> text -> bool.
(** Iteration orders of the two hash maps of packages. *)
Variables order order' : list (dpath * list pfile) -> list (dpath * list pfile).
(** The rule selection of a configuration file ([cs_rest] included). *)
Variable toml : csettings -> Config.settings.
Variable lint : option csettings -> Config.config -> dpath -> text -> list dup -> list adef -> list diag + err.
Variable pr : project.

(** package.rs:65-236 [compute_package_analysis]. *)
Definition applies (cfg : Config.config) (name : text) : bool := mem name (map rule_name (Config.c_rules_to_apply cfg)).
Definition package_analysis (st : option csettings) (cfg : Config.config) (paths : list dpath) : dmap * rmap :=
  let check_duplicates := applies cfg (lit "duplicated_function_definition") in
  let check_unused := applies cfg (lit "unused_function") in
  if check_duplicates || check_unused then
    let data := shared_data (disk pr) (has_description pr) (text_at pr) paths check_unused in
    (if check_duplicates then compute_duplicates is_alnum order data else [],
     if check_unused then compute_unused is_alnum regex (skipped st) order' (namespace_of pr paths) data else [])
  else ([], []).

(** check.rs:63-78 [lint_only]. *)
Definition lint_path (st : option csettings) (cfg : Config.config) (pkg : dmap * rmap) (p : dpath) : list diag + err :=
  match text_at pr p with
  | None => inr ERead
  | Some t => lint st cfg p t (lookup p (fst pkg)) (lookup p (snd pkg))
  end.
(** commands/check.rs:107-114 and check.rs:24-49, for one group of files with the same configuration. *)
Definition check_group (a : Config.args) (st : option csettings) (paths : list dpath) : res (list fresult) :=
  rbind (Config.build_config a (option_map toml st) (map (description_beside pr) paths)) (fun cfg =>
  let pkg := package_analysis st cfg paths in
  ROk (map (fun p => (p, lint_path st cfg pkg p)) paths)).

(** ** The language server *)
(** lint.rs:194-206 [collect_sibling_r_files]. *)
Definition siblings (p : dpath) : option (list dpath) :=
  if in_package (has_description pr) p then Some (filter (fun q => peqb (parent q) (parent p) && r_file q) (disk pr)) else None.
(** The path as a string. *)
Definition path_text (p : dpath) : text := flat_map (fun c => 47%N :: c) p.
(** utils.rs:118-163, from the first discovered item. *)
Definition editor_excludes (items : list item) (p : dpath) : bool :=
  match items with
  | [] => false
  | (_, s) :: _ => Lsp.excluded default_exclude_patterns (cs_default_exclude s) (cs_exclude s) (cs_include s) (path_text p)
  end.
(** lint.rs:119-131: no option. *)
Definition no_args : Config.args := Config.mk_args false false false [] [] [] None None.
(** lint.rs:166: the number of entries of the map of unused functions. *)
Definition total_unused (m : rmap) : nat := list_sum (map (fun p => length (lookup p m)) (dedup (map fst m))).
Definition d_unused_fn (d : diag) : bool := teqb (d_rule d) (lit "unused_function").
(** lint.rs:88-190 [run_jarl_linting]: the diagnostics and the number of hidden functions.  [found] is
    the result of [discover_settings] on the path; [t] is the text of the document. *)
Definition editor_lint (found : res (list item)) (p : dpath) (t : text) : res (list diag * nat) :=
  rbind found (fun items =>
  if editor_excludes items p then ROk ([], 0)
  else
    let st := lsp_settings items in
    rbind (Config.build_config no_args (option_map toml st) [description_beside pr p]) (fun cfg =>
    let pkg := match siblings p with Some qs => package_analysis st cfg qs | None => ([], []) end in
    match lint st cfg p t (lookup p (fst pkg)) (lookup p (snd pkg)) with
    | inr _ => RErr
    | inl ds =>
        let threshold := match min_list (map (fun i => cs_threshold (snd i)) items) with Some n => n | None => 50 end in
        let total := total_unused (snd pkg) in
        if negb (explicitly_selected [] [] items) && (threshold <? total) then
          ROk (filter (fun d => negb (d_unused_fn d)) ds, total)
        else ROk (ds, 0)
    end)).
End Project.
