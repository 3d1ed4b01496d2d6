(** What rule names, groups and selections mean, independently of how they are resolved. *)
From Verif Require Import Model.Text Model.Base Model.Rules Model.Description Model.Config Model.Fix Model.Driver.

(** An entry of a list of rules given by the user designates a rule when, apart from surrounding
    white space, it is "ALL", the name of a group the rule belongs to, or the name of the rule. *)
Definition designates (entry : text) (r : rule) : Prop :=
  trim entry = lit "ALL" \/
  (exists c, trim entry = category_name c /\ In c (rule_categories r)) \/
  trim entry = rule_name r.
Definition lists (l : list text) (r : rule) : Prop := exists e, In e l /\ designates e r.
(** Entries that designate nothing are unknown. *)
Definition known (l : list text) : Prop := forall e, In e l -> exists r, designates e r.
Definition known_opt (o : option (list text)) : Prop := match o with Some l => known l | None => True end.

(** What the user wrote: the comma-separated command-line option ([None]: not given) and the fields of
    the configuration file. *)
Definition cli_entries (t : text) : option (list text) := match t with [] => None | _ => Some (split_on 44%N t) end.
Definition toml_field (f : settings -> option (list text)) (t : option settings) : option (list text) :=
  match t with Some s => f s | None => None end.

(** The first list that is given wins. *)
Definition first_given (a b : option (list text)) : option (list text) := match a with Some _ => a | None => b end.
Definition listed (o : option (list text)) (r : rule) : Prop := match o with Some l => lists l r | None => False end.

Definition selected (a : args) (t : option settings) (r : rule) : Prop :=
  match first_given (cli_entries (a_select a)) (toml_field s_select t) with
  | Some l => lists l r
  | None => rule_default r = true
  end.
Definition extended (a : args) (t : option settings) (r : rule) : Prop :=
  listed (first_given (cli_entries (a_extend a)) (toml_field s_extend t)) r.
Definition ignored (a : args) (t : option settings) (r : rule) : Prop :=
  listed (cli_entries (a_ignore a)) r \/ listed (toml_field s_ignore t) r.

(** Versions are compared component by component. *)
Definition version_le (a b : r_version) : Prop :=
  let '(a1, a2, a3) := a in let '(b1, b2, b3) := b in
  a1 < b1 \/ (a1 = b1 /\ (a2 < b2 \/ (a2 = b2 /\ a3 <= b3))).
Definition version_allows (v : option r_version) (r : rule) : Prop :=
  match rule_min_version r with
  | None => True
  | Some m => exists p, v = Some p /\ version_le m p
  end.

(** Every name the user gave is known. *)
Definition all_known (a : args) (t : option settings) : Prop :=
  known_opt (cli_entries (a_select a)) /\ known_opt (cli_entries (a_extend a)) /\ known_opt (cli_entries (a_ignore a)) /\
  known_opt (toml_field s_select t) /\ known_opt (toml_field s_extend t) /\ known_opt (toml_field s_ignore t) /\
  known_opt (toml_field s_fixable t) /\ known_opt (toml_field s_unfixable t).

(** A diagnostic offers a fix when its fix rewrites something. *)
Definition offers_fix (d : diag) : Prop := d_fix d <> empty_fix.
