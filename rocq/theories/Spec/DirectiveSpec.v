(** The documented grammar of suppression comments (doc comment of
    [parse_comment_directive], directive.rs:103-140, and docs/using-jarl.md). *)
From Verif Require Import Model.Text Model.Rules Model.Directive.

Definition blank (t : text) : Prop := forallb is_ws t = true.

(** [# jarl-ignore], [#jarl-ignore]; a comment may be indented. *)
Definition hash (p : text) : Prop := p = lit "# " \/ p = lit "#".

(** The keyword of each kind. *)
Definition keyword (k : kind) : text :=
  match k with
  | KIgnore => lit "jarl-ignore"
  | KChunk => lit "jarl-ignore-chunk"
  | KFile => lit "jarl-ignore-file"
  | KStart => lit "jarl-ignore-start"
  | KEnd => lit "jarl-ignore-end"
  end.

(** What may stand before the keyword: [#|] is reserved to the chunk form. *)
Definition opening (k : kind) (p : text) : Prop := hash p \/ (k = KChunk /\ p = lit "#| ").

(** [arg] is what follows the keyword and one space. *)
Definition directive_text (k : kind) (arg t : text) : Prop :=
  exists w p, blank w /\ opening k p /\ t = w ++ p ++ keyword k ++ lit " " ++ arg.

(** [<rule>: <reason>], blanks allowed around the rule. *)
Definition rule_and_reason (r : rule) (arg : text) : Prop :=
  exists a b reason, blank a /\ blank b /\ ~ blank reason /\
    arg = a ++ rule_name r ++ b ++ lit ":" ++ reason.
(** [<rule>], optionally followed by a colon and anything. *)
Definition rule_only (r : rule) (arg : text) : Prop :=
  exists a b, blank a /\ blank b /\
    (arg = a ++ rule_name r ++ b \/ exists rest, arg = a ++ rule_name r ++ b ++ lit ":" ++ rest).
(** A known rule without a reason. *)
Definition rule_no_reason (r : rule) (arg : text) : Prop :=
  exists a b c, blank a /\ blank b /\ blank c /\
    (arg = a ++ rule_name r ++ b \/ arg = a ++ rule_name r ++ b ++ lit ":" ++ c).
Definition no_blank_ends (w : text) : Prop :=
  (forall c r, w = c :: r -> is_ws c = false) /\ (forall r c, w = r ++ [c] -> is_ws c = false).
(** Something that is not a rule name before the colon or the end. *)
Definition unknown_rule (arg : text) : Prop :=
  exists a w b, blank a /\ blank b /\ w <> [] /\ (forall r, w <> rule_name r) /\
    no_blank_ends w /\ ~ In 58%N w /\
    (arg = a ++ w ++ b \/ exists rest, arg = a ++ w ++ b ++ lit ":" ++ rest).

(** A directive without a rule: [# jarl-ignore], [# jarl-ignore: ...], [# jarl-ignore : ...] and
    the same for [jarl-ignore-chunk]. *)
Definition blanket_text (t : text) : Prop :=
  exists k w p tail, (k = KIgnore \/ k = KChunk) /\ blank w /\ opening k p /\
    t = w ++ p ++ keyword k ++ tail /\
    (tail = [] \/ (exists x, tail = lit ":" ++ x) \/ (exists x, tail = lit " :" ++ x)).

(** The Quarto form of the chunk directive: a header line, then items. *)
Definition header_text (t : text) : Prop :=
  exists w w', blank w /\ blank w' /\ t = w ++ lit "#| jarl-ignore-chunk:" ++ w'.
(** [#|   - <item>] *)
Definition item_text (item t : text) : Prop :=
  exists w w' c, blank w /\ blank w' /\ is_ws c = true /\
    t = w ++ lit "#|" ++ w' ++ lit "-" ++ c :: item.
