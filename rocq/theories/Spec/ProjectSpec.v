(** Specification vocabulary for whole runs on a project (C87, C88). *)
From Coq Require Import Permutation.
From Verif Require Import Model.Text Model.Base Model.Fix Model.Driver Model.Cli Model.Package Model.Project Spec.CliSpec Spec.PackageSpec.
From Verif Require Model.Config Model.Rules.

(** The command line without options. *)
Definition no_options : Config.args :=
  {| Config.a_fix := false; Config.a_unsafe := false; Config.a_fix_only := false; Config.a_select := [];
     Config.a_extend := []; Config.a_ignore := []; Config.a_min_r := None; Config.a_assignment := None |}.
(** [root] contains a DESCRIPTION file: it is an R package. *)
Definition is_package (pr : project) (root : dpath) : Prop := exists t, text_at pr (root ++ [lit "DESCRIPTION"]) = Some t.
(** A file of the R/ directory of the package [root] (not of a directory below it). *)
Definition r_file_of (pr : project) (root p : dpath) : Prop := r_source root p /\ is_package pr root.
(** One of the checked files [paths] is in R/ of the package [root]. *)
Definition checked_package (pr : project) (paths : list dpath) (root : dpath) : Prop :=
  exists p, In p paths /\ r_file_of pr root p.
(** No package whose R/ is checked lies inside another one. *)
Definition packages_apart (pr : project) (paths : list dpath) : Prop :=
  forall r r', checked_package pr paths r -> checked_package pr paths r' -> above r r' -> r = r'.
(** The file is in R/ of a package, or in no package whose R/ is checked. *)
Definition well_placed (pr : project) (paths : list dpath) (p : dpath) : Prop :=
  (exists root, r_file_of pr root p) \/ (forall root, checked_package pr paths root -> ~ above root p).
(** The R version is given by the user ([explicit]), or no checked file lies directly beside a
    DESCRIPTION file, which is where a version would be looked for. *)
Definition version_settled (pr : project) (explicit : option text) (paths : list dpath) : Prop :=
  explicit <> None \/ forall p, In p paths -> ~ is_package pr (removelast p).
(** The checked files are on disk, and no file is listed twice. *)
Definition proper_files (pr : project) (paths : list dpath) : Prop :=
  NoDup paths /\ NoDup (disk pr) /\ incl paths (disk pr).
(** The run [rs] has exactly one result for the file [p], namely [r]. *)
Definition result_is (rs : list fresult) (p : dpath) (r : list diag + err) : Prop := forall r', In (p, r') rs <-> r' = r.
(** The file is in R/ of a package, or in no package at all. *)
Definition r_file_or_outside (pr : project) (p : dpath) : Prop :=
  (exists root, r_file_of pr root p) \/ (forall root, is_package pr root -> ~ above root p).
Definition not_unused (d : diag) : bool := negb (teqb (d_rule d) (lit "unused_function")).

(** ** Fixing runs (C99) *)
(** The same options, without applying fixes. *)
Definition without_fixing (a : Config.args) : Config.args :=
  Config.mk_args false false (Config.a_fix_only a) (Config.a_select a) (Config.a_extend a) (Config.a_ignore a)
    (Config.a_min_r a) (Config.a_assignment a).
(** The linter does not look at whether fixes will be applied: only at the rules in force, the R version
    and the lists of fixable and unfixable rules. *)
Definition ignores_mode (lint : option csettings -> Config.config -> dpath -> text -> list dup -> list adef -> list diag + err) : Prop :=
  forall st c c' p t ds us,
    Config.c_rules_to_apply c = Config.c_rules_to_apply c' -> Config.c_version c = Config.c_version c' ->
    Config.c_unfixable c = Config.c_unfixable c' -> Config.c_fixable c = Config.c_fixable c' ->
    lint st c p t ds us = lint st c' p t ds us.
(** [--fix] alone leaves out the rules whose fixes are unsafe (C17): none of them is in force, or their
    fixes are asked for too, or only fixable rules are. *)
Definition no_rule_left_out (a : Config.args) (cfg : Config.config) : Prop :=
  Config.a_fix_only a = true \/ Config.a_unsafe a = true \/
  forall r, In r (Config.c_rules cfg) -> Rules.rule_fix r <> Rules.FixUnsafe.
(** The two rules that look at all files of a package at once. *)
Definition package_rules_off (cfg : Config.config) : Prop :=
  forall r, In r (Config.c_rules cfg) ->
    Rules.rule_name r <> lit "duplicated_function_definition" /\ Rules.rule_name r <> lit "unused_function".
(** No checked file is itself a DESCRIPTION file. *)
Definition not_description (paths : list dpath) : Prop := forall p, In p paths -> last p [] <> lit "DESCRIPTION".
(** The project after the text [t] has been saved to the file [p]. *)
Definition saved (pr : project) (p : dpath) (t : text) : project :=
  mk_project (disk pr) (fun q => if peqb q p then Some t else text_at pr q).
