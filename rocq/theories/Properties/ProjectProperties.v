(** Whole runs on a project: C87, C88, C99, C100.  See Spec/ProjectSpec.v for the vocabulary.

    Everywhere: [lint] is the linter of one file (given its settings, configuration, path, text and what
    the package analysis says about it), [order], [order'] and [gorder] are the iteration orders of the
    hash maps, [toml] the rule selection of a configuration file. *)
From Coq Require Import Permutation.
From Verif Require Import Model.Text Model.Base Model.Rules Model.Fix Model.Driver Model.Cli Model.Package Model.Project Model.ProjectFix.
From Verif Require Model.Config Model.Lsp.
From Verif Require Import Spec.CliSpec Spec.PackageSpec Spec.ProjectSpec.
From Verif Require Import Proofs.TextProofs Proofs.LspGlob Proofs.CliFiles Proofs.CliDiscover Proofs.CliMain Proofs.ProjectFiles Proofs.ProjectRuns Proofs.ProjectFixes Proofs.ProjectUnsaved.

(** ** C87 *)
(** Two runs over the same project with the same options that both check the file [p]: the result for
    [p] is the same.  Missing: files in a package but not in its R/ directory, packages inside other
    packages, and checked files beside a DESCRIPTION file; see below. *)
Theorem C87_other_files_partial ia regex skipped order order' gorder gorder' toml lint pr a
    config_at user_dir subdirs subdirs' inputs inputs' items items' paths paths' rs rs' p :
  (forall gs, Permutation (order gs) gs) -> (forall gs, Permutation (order' gs) gs) ->
  (forall gs, Permutation (gorder gs) gs) -> (forall gs, Permutation (gorder' gs) gs) ->
  discover_settings config_at user_dir subdirs inputs = ROk items ->
  discover_settings config_at user_dir subdirs' inputs' = ROk items' ->
  reached config_at subdirs inputs p -> reached config_at subdirs' inputs' p -> (forall u, user_dir = Some u -> ~ above u p) ->
  proper_files pr paths -> proper_files pr paths' -> packages_apart pr paths -> packages_apart pr paths' ->
  well_placed pr paths p -> well_placed pr paths' p ->
  version_settled pr (Config.a_min_r a) paths -> version_settled pr (Config.a_min_r a) paths' ->
  In p paths -> In p paths' ->
  let run := check_group ia regex skipped order order' toml lint pr a in
  run_all run items (gorder (group_paths items paths)) = ROk rs ->
  run_all run items' (gorder' (group_paths items' paths')) = ROk rs' ->
  exists r, result_is rs p r /\ result_is rs' p r.
Proof.
  intros O O' G G' D D' R R' U P P' A A' W W' V V' I I' run. eapply same_result; eauto. eapply settings_same; eauto.
Qed.
Print Assumptions C87_other_files_partial.
(** Hence everything but [unused_function] (which is withheld or not depending on the whole run, C28) is
    shown for [p] by both runs or by none. *)
Theorem C87_shown_partial select extend items items' rs rs' shown shown' p r d :
  result_is rs p r -> result_is rs' p r ->
  visible select extend items rs shown -> visible select extend items' rs' shown' ->
  d_rule d <> lit "unused_function" -> (forall e, r <> inr e) ->
  (In (mk_fd p d) shown <-> In (mk_fd p d) shown').
Proof.
  intros R R' V V' U E. destruct r as [ds|e]; [|now destruct (E e)].
  assert (X : not_unused d = true).
  { unfold not_unused. destruct (teqb (d_rule d) (lit "unused_function")) eqn:Q; auto. apply teqb_eq in Q. contradiction. }
  rewrite (shown_of_file _ _ _ _ _ _ _ _ V R X). now rewrite (shown_of_file _ _ _ _ _ _ _ _ V' R' X).
Qed.
Print Assumptions C87_shown_partial.
(** A file of tests/: the unused function in it is reported only when a file of R/ is checked too. *)
Theorem C87_tests_refuted : exists rs rs',
  demo_results demo_lint [by_name] [pkg_test] = ROk rs /\ demo_results demo_lint [by_name] [pkg_test; pkg_a] = ROk rs' /\
  result_is rs pkg_test (inl []) /\ result_is rs' pkg_test (inl [unused_diag]).
Proof.
  eexists _, _. split; [vm_compute; reflexivity|]. split; [vm_compute; reflexivity|]. split.
  - intros r'. split; [intros [[= <-]|[]]; reflexivity|]. intros ->. now left.
  - intros r'. split; [intros [[= <-]|[K|[]]]; [reflexivity|discriminate K]|]. intros ->. now left.
Qed.
Print Assumptions C87_tests_refuted.
(** The R version is looked for beside each checked file: checking a script at the root of the package
    together with R/a.R changes which rules R/a.R is checked with. *)
Theorem C87_version_refuted : exists rs rs',
  demo_results demo_lint_v [] [pkg_a] = ROk rs /\ demo_results demo_lint_v [] [pkg_a; pkg_build] = ROk rs' /\
  result_is rs pkg_a (inl []) /\ result_is rs' pkg_a (inl [grepv_diag]).
Proof.
  eexists _, _. split; [vm_compute; reflexivity|]. split; [vm_compute; reflexivity|]. split.
  - intros r'. split; [intros [[= <-]|[]]; reflexivity|]. intros ->. now left.
  - intros r'. split; [intros [[= <-]|[K|[]]]; [reflexivity|discriminate K]|]. intros ->. now left.
Qed.
Print Assumptions C87_version_refuted.
Example C87_witness : exists items rs rs',
  discover_settings demo_config None (fun _ => []) [pkg_a] = ROk items /\ reached demo_config (fun _ => []) [pkg_a] pkg_a /\
  proper_files demo [pkg_a] /\ proper_files demo [pkg_b; pkg_a] /\ packages_apart demo [pkg_b; pkg_a] /\
  well_placed demo [pkg_b; pkg_a] pkg_a /\ version_settled demo None [pkg_b; pkg_a] /\
  demo_results demo_lint items [pkg_a] = ROk rs /\ demo_results demo_lint items [pkg_b; pkg_a] = ROk rs' /\
  result_is rs' pkg_a (inl [unused_diag]).
Proof.
  exists [by_name]. eexists _, _. split; [reflexivity|]. split; [now apply demo_reached|].
  split; [apply demo_proper; [repeat constructor; intros []|intros ? [<-|[]]; cbn; auto]|].
  split; [apply demo_proper; [repeat constructor; [intros [K|[]]; discriminate K|intros []]|intros ? [<-|[<-|[]]]; cbn; auto]|].
  split; [apply demo_apart|]. split; [left; exists pkg_root; apply demo_r_a|].
  split; [apply demo_version; intros ? [<-|[<-|[]]]; discriminate|].
  split; [vm_compute; reflexivity|]. split; [vm_compute; reflexivity|].
  intros r'. split; [intros [K|[[= <-]|[]]]; [discriminate K|reflexivity]|]. intros ->. right. now left.
Qed.

(** ** C88 *)
(** The saved file [p] in the editor, and a run of the command line without options that checks [p]:
    they fail together, and otherwise the editor shows exactly what the run found, or, when it counts
    hidden functions, exactly that without [unused_function].  Missing: files in a package but not in its
    R/ directory, and the situations excluded in C54 and C87; see below. *)
Theorem C88_editor_agrees_partial ia regex skipped order order' gorder toml lint pr
    config_at user_dir subdirs inputs items eitems paths rs p t :
  (forall gs, Permutation (order gs) gs) -> (forall gs, Permutation (order' gs) gs) -> (forall gs, Permutation (gorder gs) gs) ->
  discover_settings config_at user_dir subdirs inputs = ROk items ->
  discover_settings config_at user_dir (fun _ => []) [p] = ROk eitems ->
  reached config_at subdirs inputs p -> (forall u, user_dir = Some u -> ~ above u p) ->
  (forall u, user_dir = Some u -> config_at u = NoConfig) \/ ~ no_config_above config_at p ->
  editor_excludes eitems p = false ->
  proper_files pr paths -> packages_apart pr paths -> In p paths -> r_file_or_outside pr p ->
  version_settled pr None paths -> text_at pr p = Some t ->
  run_all (check_group ia regex skipped order order' toml lint pr no_options) items (gorder (group_paths items paths)) = ROk rs ->
  let editor := editor_lint ia regex skipped order order' toml lint pr (ROk eitems) p t in
  exists r, result_is rs p r /\
    match r with
    | inl ds => exists eds hidden, editor = ROk (eds, hidden) /\
        (hidden = 0 -> eds = ds) /\
        (hidden <> 0 -> eds = filter (fun d => negb (teqb (d_rule d) (lit "unused_function"))) ds)
    | inr _ => editor = RErr
    end.
Proof.
  intros O O' G D De R U C Ex P A I W V T H. eapply editor_agrees; eauto.
  eapply (documented_fun config_at user_dir p).
  - pose proof (nearest_settings _ _ _ _ _ _ D R U) as N. unfold settings_for.
    destruct (group_settings items (group_key items p)) as [s|].
    + destruct N as (d & N). left. exists d, s. auto.
    + right. split; auto. destruct user_dir as [u|]; auto. destruct C as [C|C]; [|contradiction]. now rewrite (C u eq_refl).
  - apply lsp_documented; auto. apply R.
Qed.
Print Assumptions C88_editor_agrees_partial.
(** Two files of R/ with one unused function each, and a threshold of one: [jarl check p/R/a.R] reports
    the function of a.R, the editor counts the functions of the whole package and hides it. *)
Theorem C88_threshold_refuted : exists rs,
  demo_results demo_lint [all_rules_one] [pkg_a] = ROk rs /\ visible [] [] [all_rules_one] rs [mk_fd pkg_a unused_diag] /\
  text_at demo pkg_a = Some (lit "f <- function() 1") /\
  demo_editor (ROk [all_rules_one]) pkg_a (lit "f <- function() 1") = ROk ([], 3).
Proof.
  eexists. split; [vm_compute; reflexivity|]. split; [|split; vm_compute; reflexivity].
  exists 1. split.
  - right. split; [exists all_rules_one; split; [now left|reflexivity]|]. intros i [<-|[]]. cbn. lia.
  - left. split; [right; vm_compute; lia|]. vm_compute. apply Permutation_refl.
Qed.
Print Assumptions C88_threshold_refuted.
(** A file of tests/: the editor never reports unused functions, the command line does. *)
Theorem C88_tests_refuted : exists rs,
  demo_results demo_lint [by_name] [pkg_test; pkg_a] = ROk rs /\ result_is rs pkg_test (inl [unused_diag]) /\
  text_at demo pkg_test = Some (lit "h <- function() 1") /\
  demo_editor (ROk [by_name]) pkg_test (lit "h <- function() 1") = ROk ([], 0).
Proof.
  eexists. split; [vm_compute; reflexivity|]. split; [|split; vm_compute; reflexivity].
  intros r'. split; [intros [[= <-]|[K|[]]]; [reflexivity|discriminate K]|]. intros ->. now left.
Qed.
Print Assumptions C88_tests_refuted.
(** A file that the patterns of its configuration leave out shows nothing in the editor. *)
Theorem C88_excluded ia regex skipped order order' toml lint pr d s rest p t :
  (exists g, (cs_default_exclude s <> Some false /\ In g documented_excludes \/
              exists l, cs_exclude s = Some l /\ In g l) /\ Lsp.matches_pattern (path_text p) g = true) \/
  (exists l, cs_include s = Some l /\ l <> [] /\ forall g, In g l -> Lsp.matches_pattern (path_text p) g = false) ->
  editor_lint ia regex skipped order order' toml lint pr (ROk ((d, s) :: rest)) p t = ROk ([], 0).
Proof.
  intros H. unfold editor_lint. cbn [rbind editor_excludes].
  rewrite (proj2 (excluded_iff default_exclude_patterns (cs_default_exclude s) (cs_exclude s) (cs_include s) (path_text p))); auto.
Qed.
Print Assumptions C88_excluded.
(** A file of a directory renv/ without any configuration: the pattern [renv/] is excluded by default, so
    [jarl check .] does not look at the file; the editor does.  [globs] is what the crate [ignore] says a
    pattern matches (C57). *)
Theorem C88_default_exclude_refuted : exists p, forall ov globs, matcher_of ov globs ->
  globs (lit "renv/") [lit "renv"] true ->
  let entries := [Entry [lit "p"] 0 true; Entry [lit "p"; lit "renv"] 1 true; Entry p 2 false] in
  discover_settings (fun _ => NoConfig) None (fun _ => []) [[lit "p"]] = ROk [] /\
  ~ In p (ok_paths (checked_files ov [lit "p"] false [] entries)) /\
  discover_settings (fun _ => NoConfig) None (fun _ => []) [p] = ROk [] /\
  renv_editor (ROk []) p (lit "x") = ROk ([unused_diag], 0).
Proof.
  exists renv_file. intros ov globs M G entries. split; [reflexivity|]. split; [|split; vm_compute; reflexivity].
  rewrite (checked_files_iff ov globs M [lit "p"] false [] entries renv_file).
  - intros (n & I & _ & N & _). apply N. exists [lit "p"], default_exclude_patterns. split; [|auto].
    destruct I as [[=]|[[=]|[I|[]]]]. injection I as <-.
    exists [lit "p"], [lit "renv"; lit "activate.R"], [lit "renv"], [lit "activate.R"], (lit "renv/"), [lit "renv"].
    split; [reflexivity|]. split; [reflexivity|]. split; [reflexivity|]. split; [discriminate|].
    split; [right; now left|]. split; [left; reflexivity|]. exists true. split; [split; [discriminate|reflexivity]|exact G].
  - intros d s s' [].
  - intros d s pats [].
  - intros q n b [[= <- <- <-]|[[= <- <- <-]|[[= <- <- <-]|[]]]]; cbn; lia.
Qed.
Print Assumptions C88_default_exclude_refuted.
(** With a configuration that says nothing about it, the editor leaves the file out too. *)
Example C88_excluded_met : renv_editor (ROk [by_name]) renv_file (lit "x") = ROk ([], 0) /\
  renv_editor (ROk [by_name]) pkg_a (lit "x") = ROk ([unused_diag], 0) /\
  matcher_of toy_ov (fun pat rel dir => toy_glob pat rel dir = true) /\ toy_glob (lit "renv/") [lit "renv"] true = true.
Proof. split; [vm_compute; reflexivity|]. split; [vm_compute; reflexivity|]. split; [apply toy_matcher|reflexivity]. Qed.
Example C88_witness : exists rs,
  discover_settings demo_config None (fun _ => []) [pkg_a] = ROk [by_name] /\ ~ no_config_above demo_config pkg_a /\
  editor_excludes [by_name] pkg_a = false /\ r_file_or_outside demo pkg_a /\ version_settled demo None [pkg_a] /\
  demo_results demo_lint [by_name] [pkg_a] = ROk rs /\ result_is rs pkg_a (inl [unused_diag]) /\
  demo_editor (ROk [by_name]) pkg_a (lit "f <- function() 1") = ROk ([unused_diag], 0).
Proof.
  eexists. split; [reflexivity|]. split.
  { intros K. specialize (K pkg_root (ex_intro _ [lit "R"; lit "a.R"] eq_refl)). discriminate K. }
  split; [vm_compute; reflexivity|]. split; [left; exists pkg_root; apply demo_r_a|].
  split; [apply demo_version; intros ? [<-|[]]; discriminate|].
  split; [vm_compute; reflexivity|]. split; [|vm_compute; reflexivity].
  intros r'. split; [intros [[= <-]|[]]; reflexivity|]. intros ->. now left.
Qed.

(** ** C99 *)
(** A fixing run over the files [paths] finished with [p] and reported [ds] for it: a run with the same
    options but without fixes over the files it left behind reports exactly [ds] for [p].  Missing: files
    of a package when one of the two rules that look at whole packages is in force; see below. *)
Theorem C99_same_report_partial ia regex skipped order order' toml lint writable pr n a st paths cfg runs p t ds :
  (forall gs, Permutation (order gs) gs) -> (forall gs, Permutation (order' gs) gs) ->
  ignores_mode lint -> proper_files pr paths -> packages_apart pr paths -> not_description paths ->
  Config.build_config a (option_map toml st) (map (description_beside pr) paths) = ROk cfg -> no_rule_left_out a cfg ->
  fix_group ia regex skipped order order' toml lint writable pr n a st paths = ROk runs ->
  In (p, (t, Some (Ok ds))) runs ->
  package_rules_off cfg \/ (forall root, is_package pr root -> ~ above root p) ->
  exists rs, check_group ia regex skipped order order' toml lint (after pr runs) (without_fixing a) st paths = ROk rs /\
    result_is rs p (inl ds).
Proof. intros. eapply fixing_agrees; eauto. Qed.
Print Assumptions C99_same_report_partial.
(** R/a.R of a package is "any(is.na(x))" and, on the next line, "f <- function() 1", where f is unused.
    [--fix] shortens the first line, and the run reports f at bytes 14 to 15; the f of the file it leaves
    is at 9 to 10, where a run without fixes reports it. *)
Theorem C99_package_rules_refuted : exists runs rs,
  moving_fix (lit "any_is_na,unused_function") = ROk runs /\
  In (pkg_a, (Some (lit "anyNA(x)" ++ [10%N] ++ lit "f <- function() 1"), Some (Ok [unused_at 14 15]))) runs /\
  moving_check (after (moving moved_before) runs) (lit "any_is_na,unused_function") = ROk rs /\ result_is rs pkg_a (inl [unused_at 9 10]).
Proof. exact moving_stale. Qed.
Print Assumptions C99_package_rules_refuted.
(** Beside: the same package with [--select any_is_na --fix] meets the hypotheses. *)
Example C99_witness : exists cfg runs,
  ignores_mode whole_lint /\ proper_files (moving moved_before) [pkg_a] /\ packages_apart (moving moved_before) [pkg_a] /\
  not_description [pkg_a] /\
  Config.build_config (fix_args (lit "any_is_na")) None [None] = ROk cfg /\ no_rule_left_out (fix_args (lit "any_is_na")) cfg /\
  package_rules_off cfg /\
  moving_fix (lit "any_is_na") = ROk runs /\ In (pkg_a, (Some moved_after, Some (Ok []))) runs.
Proof.
  eexists _, _. split; [exact whole_ignores|].
  split; [split; [repeat constructor; intros []|split; [repeat constructor; intros []|intros q H; exact H]]|].
  split. { intros r r' (q & [<-|[]] & (m & E & _) & _) (q' & [<-|[]] & (m' & E' & _) & _) _.
           rewrite E in E'. change (r ++ [lit "R"; m]) with (r ++ [lit "R"] ++ [m]) in E'. change (r' ++ [lit "R"; m']) with (r' ++ [lit "R"] ++ [m']) in E'.
           rewrite !app_assoc in E'. apply app_inj_tail in E' as (E' & _). now apply app_inj_tail in E'. }
  split; [intros q [<-|[]]; discriminate|].
  split; [vm_compute; reflexivity|]. split; [right; right; intros r [<-|[]]; discriminate|].
  split; [intros r [<-|[]]; split; discriminate|]. split; [vm_compute; reflexivity|]. now left.
Qed.

(** ** C100 *)
(** What the editor shows for a text that is not saved is what it shows once the text is saved.  Missing:
    files of a package when one of the two rules that look at whole packages is in force; see below. *)
Theorem C100_unsaved_partial ia regex skipped order order' toml lint pr items p t :
  last p [] <> lit "DESCRIPTION" ->
  (forall cfg, Config.build_config no_options (option_map toml (lsp_settings items)) [description_beside pr p] = ROk cfg -> package_rules_off cfg) \/
  (forall root, is_package pr root -> ~ above root p) ->
  editor_lint ia regex skipped order order' toml lint pr (ROk items) p t =
  editor_lint ia regex skipped order order' toml lint (saved pr p t) (ROk items) p t.
Proof. apply editor_unsaved. Qed.
Print Assumptions C100_unsaved_partial.
(** R/a.R of a package is the two lines of C99.  The user shortens the first line: until the file is saved
    the editor underlines bytes 14 to 15, the first letter of the word function, instead of the unused f at 9. *)
Theorem C100_package_rules_refuted :
  typing moved_before moved_after = ROk ([unused_at 14 15], 0) /\
  editor_lint demo_alnum (fun _ => None) (fun _ _ => false) (fun gs => gs) (fun gs => gs) demo_toml whole_lint
    (saved (moving moved_before) pkg_a moved_after) (ROk [two_rules]) pkg_a moved_after = ROk ([unused_at 9 10], 0) /\
  firstn 1 (skipn 9 moved_after) = lit "f" /\ firstn 1 (skipn 14 moved_after) = lit "f" /\ nth_error moved_after 15 = Some 117%N.
Proof. repeat split; vm_compute; reflexivity. Qed.
Print Assumptions C100_package_rules_refuted.
Example C100_witness :
  last pkg_a [] <> lit "DESCRIPTION" /\
  forall cfg, Config.build_config no_options (option_map demo_toml (lsp_settings [one_rule])) [description_beside (moving moved_before) pkg_a] = ROk cfg ->
    package_rules_off cfg.
Proof. split; [discriminate|]. intros cfg H. vm_compute in H. injection H as <-. intros r [<-|[]]. split; discriminate. Qed.
