(** Numbers written with and without a leading zero. *)
From Verif Require Export Spec.RPass.

(** R reads [.5] and [0.5] as the same number. *)
Definition decimals (I : interp) : Prop := forall w, nlit I (lit "." ++ w) = nlit I (lit "0." ++ w).

(** The text [b] is the text [a] with zeros added before some of the dots, and nothing else. *)
Inductive zeros_added : text -> text -> Prop :=
| added_end : zeros_added [] []
| added_same c a b : zeros_added a b -> zeros_added (c :: a) (c :: b)
| added_zero a b : zeros_added (lit "." ++ a) b -> zeros_added (lit "." ++ a) (lit "0" ++ b).

(** A number that starts with a dot and is not written as an integer ([.5L]). *)
Definition dotted_number (w : text) : Prop := (exists r, w = lit "." ++ r) /\ ~ exists r, w = r ++ lit "L".
