(** The warnings a run must print. *)
From Verif Require Import Model.Text Model.Base Model.Rules Model.Cli Model.Output Model.Warnings.

(** [n] is one of the entries of [--select], [--extend-select] or [--ignore] (comma-separated, spaces
    around an entry do not count), or of one of these lists in a configuration file in use, written
    exactly so. *)
Definition among (t n : text) : Prop := exists e, In e (split_on 44%N t) /\ trim e = n.
Definition within (o : option (list text)) (n : text) : Prop := exists l, o = Some l /\ In n l.
Definition mentioned (a : wargs) (items : list wsettings) (n : text) : Prop :=
  among (wa_select a) n \/ among (wa_extend a) n \/ among (wa_ignore a) n \/
  exists i, In i items /\ (within (ws_select i) n \/ within (ws_extend i) n \/ within (ws_ignore i) n).

(** The texts. *)
Definition browser_text : text := lit "Rule `browser` is deprecated since v0.5.0. Use `undesirable_function` instead.".
Definition option_text : text := lit "`--assignment` is deprecated. Use `[lint.assignment]` in jarl.toml instead.".
Definition field_text : text := lit "Argument `assignment` in `[lint]` is deprecated. Use `[lint.assignment]` with `operator` instead.".
Definition hidden_text (n : nat) : text :=
  decimal n ++ lit " `unused_function` diagnostics hidden (likely false positives)." ++ [nl] ++
  lit "To show them:" ++ [nl] ++
  lit "  - set 'threshold-ignore' in `[lint.unused_function]` in jarl.toml," ++ [nl] ++
  lit "  - or explicitly include 'unused_function' in the set of rules.".
