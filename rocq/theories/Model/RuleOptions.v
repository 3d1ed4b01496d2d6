(** crates/jarl-core/src/rule_options/*.rs: per-rule options (sets are lists used through membership). *)
From Verif Require Import Model.Text Model.Base.

(** rule_options/mod.rs:31-57 [resolve_with_extend]. *)
Definition resolve_with_extend (base extend : option (list text)) (defaults : list text) : res (list text) :=
  match base, extend with
  | Some _, Some _ => RErr
  | Some b, None => ROk b
  | None, Some e => ROk (defaults ++ e)
  | None, None => ROk defaults
  end.

(** The default lists: unreachable_code.rs:5-6, undesirable_function.rs:5, duplicated_arguments.rs:5,
    implicit_assignment.rs:5-13. *)
Definition default_stopping : list text := [lit "stop"; lit ".Defunct"; lit "abort"; lit "cli_abort"; lit "q"; lit "quit"].
Definition default_undesirable : list text := [lit "browser"].
Definition default_dup_args : list text := [lit "c"; lit "mutate"; lit "summarize"; lit "transmute"].
Definition default_implicit : list text :=
  [lit "expect_error"; lit "expect_warning"; lit "expect_message"; lit "expect_snapshot"; lit "quote";
   lit "suppressMessages"; lit "suppressWarnings"].

(** assignment.rs:70-89 [ResolvedAssignmentOptions::resolve] ([true]: arrow, [false]: equals sign);
    the outer option is the presence of the table. *)
Definition resolve_assignment (o : option (option text)) : res bool :=
  match o with
  | None | Some None => ROk true
  | Some (Some v) => if teqb v (lit "<-") then ROk true else if teqb v (lit "=") then ROk false else RErr
  end.

(** The (base, extend) pair of each table of the configuration file; [None]: table absent. *)
Definition table := option (option (list text) * option (list text)).
Definition resolve_table (t : table) (defaults : list text) : res (list text) :=
  match t with
  | None => resolve_with_extend None None defaults
  | Some (b, e) => resolve_with_extend b e defaults
  end.

Record rule_options := mk_options {
  o_assignment : bool; o_dup_args : list text; o_implicit : list text; o_undesirable : list text;
  o_stopping : list text; o_threshold : nat }.

(** mod.rs:75-97 [ResolvedRuleOptions::resolve]; unused_function.rs:27-29 for the threshold.  The regular
    expressions of [unused_function] are not modelled here. *)
Definition resolve_options (assignment : option (option text)) (dup imp und unr : table) (threshold : option nat)
  : res rule_options :=
  rbind (resolve_assignment assignment) (fun a =>
  rbind (resolve_table dup default_dup_args) (fun d =>
  rbind (resolve_table imp default_implicit) (fun i =>
  rbind (resolve_table und default_undesirable) (fun u =>
  rbind (resolve_table unr default_stopping) (fun s =>
  ROk (mk_options a d i u s (match threshold with Some n => n | None => 50 end))))))).
