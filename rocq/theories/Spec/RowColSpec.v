(** Where a byte offset lies in a text: [a] is the text before it. *)
From Verif Require Import Model.Text.

Fixpoint count_nl (a : text) : nat :=
  match a with [] => 0 | c :: r => (if N.eqb c nl then 1 else 0) + count_nl r end.
(** The part of [a] after its last newline (all of [a] if there is none). *)
Fixpoint last_line (a : text) : text :=
  match a with
  | [] => []
  | c :: r => if existsb (N.eqb nl) r then last_line r else if N.eqb c nl then r else a
  end.
Definition true_row (a : text) : nat := 1 + count_nl a.
Definition true_col (a : text) : nat := blen (last_line a).
