(** crates/jarl-core/src/config.rs, and the filtering of fixes of crates/jarl-core/src/check.rs:172-212.
    Sets of strings ([HashSet<String>]) are lists used through membership only. *)
From Verif Require Import Model.Text Model.Base Model.Rules Model.Description Model.Fix Model.Driver.

(** config.rs:24-50 [ArgsConfig] (the VCS flags are in [Model.Driver]). *)
Record args := mk_args {
  a_fix : bool; a_unsafe : bool; a_fix_only : bool;
  a_select : text; a_extend : text; a_ignore : text;
  a_min_r : option text; a_assignment : option text }.

(** settings.rs:16-29 [LinterSettings] (the fields used here). *)
Record settings := mk_settings {
  s_select : option (list text); s_extend : option (list text); s_ignore : option (list text);
  s_fixable : option (list text); s_unfixable : option (list text) }.

(** config.rs:391-422 [replace_group_rules]. *)
Definition expand_one (entry : text) : list text :=
  let t := trim entry in
  if teqb t (lit "ALL") then map rule_name all_rules
  else if mem t (map category_name all_categories) then
    match category_of_name t with
    | Some c => map rule_name (filter (fun r => has_category r c) all_rules)
    | None => []
    end
  else [t].
Definition replace_group_rules (entries : list text) : list text := flat_map expand_one entries.

(** config.rs:424-457 [get_invalid_rules]: [true] when there is at least one invalid name. *)
Definition invalid_name (n : text) : bool :=
  match trim n with [] => true | t => negb (mem t (map rule_name all_rules)) end.
Definition has_invalid (names : list text) : bool := existsb invalid_name names.

(** The block repeated in config.rs:168-229, 256-318, 344-386: expand, reject unknown names, keep the
    names of the rules of the table that are listed. *)
Definition resolve (entries : list text) : res (list text) :=
  let expanded := replace_group_rules entries in
  if has_invalid expanded then RErr
  else ROk (map rule_name (filter (fun r => mem (rule_name r) expanded) all_rules)).
Definition resolve_opt (o : option (list text)) : res (option (list text)) :=
  match o with
  | None => ROk None
  | Some l => rbind (resolve l) (fun x => ROk (Some x))
  end.
Definition or_empty (o : option (list text)) : list text := match o with Some l => l | None => [] end.

(** config.rs:16-21 [RuleSelection]. *)
Record selection := mk_sel { sel_selected : option (list text); sel_extended : option (list text); sel_ignored : list text }.

(** config.rs:161-236 [parse_rules_cli]: an empty string means "not given". *)
Definition cli_list (t : text) : option (list text) := match t with [] => None | _ => Some (split_on 44%N t) end.
Definition parse_rules_cli (select extend ignore : text) : res selection :=
  rbind (resolve_opt (cli_list select)) (fun s =>
  rbind (resolve_opt (cli_list extend)) (fun e =>
  rbind (resolve_opt (cli_list ignore)) (fun i => ROk (mk_sel s e (or_empty i))))).

(** config.rs:238-325 [parse_rules_toml]. *)
Definition parse_rules_toml (t : option settings) : res selection :=
  match t with
  | None => ROk (mk_sel None None [])
  | Some st =>
      rbind (resolve_opt (s_select st)) (fun s =>
      rbind (resolve_opt (s_extend st)) (fun e =>
      rbind (resolve_opt (s_ignore st)) (fun i => ROk (mk_sel s e (or_empty i)))))
  end.

(** config.rs:327-389 [parse_fixable_toml]. *)
Definition parse_fixable_toml (t : option settings) : res (option (list text) * list text) :=
  match t with
  | None => ROk (None, [])
  | Some st =>
      rbind (resolve_opt (s_fixable st)) (fun f =>
      rbind (resolve_opt (s_unfixable st)) (fun u => ROk (f, or_empty u)))
  end.

(** lints/mod.rs:8-14 [all_rules_enabled_by_default]. *)
Definition default_names : list text := map rule_name (filter rule_default all_rules).

(** config.rs:459-507 [reconcile_rules]. *)
Definition reconcile_rules (cli toml : selection) : list rule :=
  let base := match sel_selected cli with
              | Some s => s
              | None => match sel_selected toml with Some s => s | None => default_names end
              end in
  let ext := match sel_extended cli with
             | Some e => e
             | None => match sel_extended toml with Some e => e | None => [] end
             end in
  let ignored := (sel_ignored cli ++ sel_ignored toml)%list in
  let final := filter (fun n => negb (mem n ignored)) (base ++ ext)%list in
  filter (fun r => mem (rule_name r) final) all_rules.

(** Comparison of version triples (lexicographic), as derived for Rust tuples. *)
Definition version_leb (a b : r_version) : bool :=
  match a, b with
  | (a1, a2, a3), (b1, b2, b3) =>
      (a1 <? b1) || ((a1 =? b1) && ((a2 <? b2) || ((a2 =? b2) && (a3 <=? b3))))
  end.

(** config.rs:570-599 [filter_rules_by_version]. *)
Definition filter_rules_by_version (rules : list rule) (v : option r_version) : list rule :=
  match v with
  | None => filter (fun r => match rule_min_version r with None => true | Some _ => false end) rules
  | Some p => filter (fun r => match rule_min_version r with None => true | Some m => version_leb m p end) rules
  end.

(** config.rs:601-610 [parse_assignment_cli]: only "<-" and "=" are accepted. *)
Definition assignment_ok (o : option text) : bool :=
  match o with None => true | Some v => teqb v (lit "<-") || teqb v (lit "=") end.

(** config.rs:53-83 [Config]. *)
Record config := mk_config {
  c_rules : list rule; c_rules_to_apply : list rule;
  c_fix : bool; c_unsafe : bool; c_version : option r_version;
  c_unfixable : list text; c_fixable : option (list text) }.

(** config.rs:106-132: the rules that are run. *)
Definition rules_to_apply (a : args) (rules : list rule) : list rule :=
  if a_fix_only a then filter (fun r => negb (has_no_fix r)) rules
  else match a_fix a, a_unsafe a with
       | false, false => rules
       | true, false => filter (fun r => has_no_fix r || has_safe_fix r) rules
       | _, true => filter (fun r => has_no_fix r || has_safe_fix r || has_unsafe_fix r) rules
       end.

(** config.rs:85-159 [build_config]. *)
Definition build_config (a : args) (t : option settings) (descs : list (option text)) : res config :=
  rbind (determine_minimum_r_version (a_min_r a) descs) (fun v =>
  rbind (parse_rules_cli (a_select a) (a_extend a) (a_ignore a)) (fun cli =>
  rbind (parse_rules_toml t) (fun toml =>
  let rules := filter_rules_by_version (reconcile_rules cli toml) v in
  rbind (parse_fixable_toml t) (fun fu =>
  if assignment_ok (a_assignment a) then
    ROk (mk_config rules (rules_to_apply a rules) (a_fix a) (a_unsafe a) v (snd fu) (fst fu))
  else RErr)))).

(** check.rs:172-212: which fixes survive. *)
Definition drop_fix (d : diag) : diag := mk_diag (d_rule d) (d_start d) (d_end d) empty_fix.
Definition filter_fix (c : config) (d : diag) : diag :=
  let without_fix := map rule_name (filter has_no_fix (c_rules_to_apply c)) in
  let d1 := if mem (d_rule d) without_fix then drop_fix d else d in
  let d2 := if mem (d_rule d1) (c_unfixable c) then drop_fix d1 else d1 in
  let d3 := match c_fixable c with
            | Some s => if mem (d_rule d2) s then d2 else drop_fix d2
            | None => d2
            end in
  if f_skip (d_fix d3) then drop_fix d3 else d3.

(** check.rs:41-63 [check_path]: fixes are applied iff one of the two flags is set. *)
Definition fixing_mode (c : config) : bool := c_fix c || c_unsafe c.
