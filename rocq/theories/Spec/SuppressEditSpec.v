(** Insertion of blocks of text into a file. *)
From Verif Require Import Model.Text Model.Base Model.Rules Model.SuppressEdit Spec.DirectiveSpec.

(** [woven base blocks t out]: [out] is [t] with each block inserted at its byte offset
    (offsets count from [base] at the start of [t] and do not decrease). *)
Inductive woven : nat -> list (nat * text) -> text -> text -> Prop :=
| woven_nil base t : woven base [] t t
| woven_cons base off block blocks a b out :
    base + blen a = off -> woven off blocks b out ->
    woven base ((off, block) :: blocks) (a ++ b) (a ++ block ++ out).

(** [p] is a character boundary of [t]. *)
Definition boundary (t : text) (p : nat) : Prop := exists a b, t = a ++ b /\ blen a = p.

(** The text before [p] on its line is [l]. *)
Definition on_line (t : text) (p : nat) (l : text) : Prop :=
  exists a b, t = a ++ l ++ b /\ blen (a ++ l) = p /\ ~ In nl l /\ (a = [] \/ exists a', a = a' ++ [nl]).

(** Where the comment goes, for a node starting at [p] (or the diagnostic itself when no node
    qualifies). *)
Inductive placed (src : text) (starts : list nat) (diag_start : nat) (pt : point) : Prop :=
| pl_above p l : In p starts -> on_line src p l -> blank l -> pt_newline pt = false -> pt_offset pt + blen l = p -> placed src starts diag_start pt
| pl_inline p : In p starts -> pt_newline pt = true -> pt_offset pt = p -> placed src starts diag_start pt
| pl_fallback l : on_line src diag_start l -> pt_newline pt = false -> pt_offset pt + blen l = diag_start -> placed src starts diag_start pt.

(** Inside a string literal after reading [t] (R strings delimited by double or single quotes,
    with backslash escapes; comments run to the end of the line; raw strings and backquoted
    names are left out). *)
Inductive lex := InCode | InComment | InString (quote : char) | InEscape (quote : char).
Definition lex_step (s : lex) (c : char) : lex :=
  match s with
  | InCode => if N.eqb c 35 then InComment
              else if N.eqb c 34 || N.eqb c 39 then InString c else InCode
  | InComment => if N.eqb c 10 then InCode else InComment
  | InString q => if N.eqb c 92 then InEscape q else if N.eqb c q then InCode else InString q
  | InEscape q => InString q
  end.
Definition lex_after (t : text) : lex := fold_left lex_step t InCode.
Definition in_string (s : lex) : Prop := match s with InString _ | InEscape _ => True | _ => False end.
