(** The section of warnings: jarl/src/commands/check.rs:182-242, output_format.rs:86-96.
    Simplification: as in Model/Output.v, the colours are off. *)
From Verif Require Import Model.Text Model.Base Model.Rules Model.Cli Model.Output.

(** settings.rs:16-29: the fields of a discovered configuration used here.  [ws_legacy] is
    [deprecated_assignment_syntax]. *)
Record wsettings := mk_ws {
  ws_select : option (list text); ws_extend : option (list text); ws_ignore : option (list text); ws_legacy : bool }.
(** args.rs: the options used here.  [wa_assignment]: [--assignment] is given. *)
Record wargs := mk_wa { wa_select : text; wa_extend : text; wa_ignore : text; wa_assignment : bool }.

(** [BTreeSet::insert]; [String] is ordered by bytes, which is the order of the code points. *)
Fixpoint set_insert (n : text) (s : list text) : list text :=
  match s with
  | [] => [n]
  | m :: r => match tcmp n m with Lt => n :: s | Eq => s | Gt => m :: set_insert n r end
  end.
(** check.rs:211-231. *)
Definition given_names (a : wargs) (items : list wsettings) : list text :=
  flat_map (fun t => filter (fun n => match n with [] => false | _ => true end) (map trim (split_on 44%N t))) [wa_select a; wa_extend a; wa_ignore a] ++
  flat_map (fun i => flat_map or_nil [ws_select i; ws_extend i; ws_ignore i]) items.
Definition explicit_names (a : wargs) (items : list wsettings) : list text :=
  fold_left (fun s n => set_insert n s) (given_names a items) [].
(** check.rs:232-241. *)
Definition deprecated_line (name version replacement : text) : text :=
  lit "Rule `" ++ name ++ lit "` is deprecated since v" ++ version ++ lit ". Use `" ++ replacement ++ lit "` instead.".
Definition deprecated_warning (name : text) : list text :=
  match from_name name with
  | Some r => match rule_deprecation r with Some (v, by_) => [deprecated_line name v by_] | None => [] end
  | None => []
  end.
(** check.rs:192-200: four lines in one warning. *)
Definition hidden_warning (count : nat) : text :=
  decimal count ++ lit " `unused_function` diagnostics hidden (likely false positives)." ++ [nl] ++
  lit "To show them:" ++ [nl] ++
  lit "  - set 'threshold-ignore' in `[lint.unused_function]` in jarl.toml," ++ [nl] ++
  lit "  - or explicitly include 'unused_function' in the set of rules.".
Definition assignment_option : text := lit "`--assignment` is deprecated. Use `[lint.assignment]` in jarl.toml instead.".
Definition assignment_field : text := lit "Argument `assignment` in `[lint]` is deprecated. Use `[lint.assignment]` with `operator` instead.".
(** check.rs:183-241.  [hidden]: the number of hidden diagnostics ([o_hidden] of Model/Cli.v). *)
Definition warnings (a : wargs) (hidden : option nat) (items : list wsettings) : list text :=
  (if wa_assignment a then [assignment_option] else []) ++
  (match hidden with Some n => [hidden_warning n] | None => [] end) ++
  flat_map (fun i => if ws_legacy i then [assignment_field] else []) items ++
  flat_map deprecated_warning (explicit_names a items).
(** output_format.rs:86-96 [print_warnings]. *)
Definition print_warnings (ws : list text) : text :=
  match ws with
  | [] => []
  | _ => [nl] ++ section_header (lit "Warnings") ++ [nl] ++ concat (map (fun w => w ++ [nl]) ws)
  end.
