(** What the options of a rule mean. *)
From Verif Require Import Model.Text Model.Base Model.RuleOptions.

(** The set in effect: the replacement list if given, otherwise the defaults plus the extension. *)
Definition in_effect (t : table) (defaults : list text) (x : text) : Prop :=
  match t with
  | None => In x defaults
  | Some (Some b, _) => In x b
  | Some (None, Some e) => In x defaults \/ In x e
  | Some (None, None) => In x defaults
  end.
Definition contradictory (t : table) : Prop := exists b e, t = Some (Some b, Some e).

(** The documented default lists (docs of the rules). *)
Definition documented_stopping : list text := [lit "stop"; lit ".Defunct"; lit "abort"; lit "cli_abort"; lit "q"; lit "quit"].
Definition documented_undesirable : list text := [lit "browser"].
Definition documented_dup_args : list text := [lit "c"; lit "mutate"; lit "summarize"; lit "transmute"].
Definition documented_implicit : list text :=
  [lit "expect_error"; lit "expect_warning"; lit "expect_message"; lit "expect_snapshot"; lit "quote";
   lit "suppressMessages"; lit "suppressWarnings"].
