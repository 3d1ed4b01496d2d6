(** Which [T] and [F] are values. *)
From Verif Require Export Spec.RPass.

(** The name of one of the two variables that are easily taken for [TRUE] and [FALSE]. *)
Definition T_or_F (w : text) : Prop := w = lit "T" \/ w = lit "F".

(** The node is one side of a formula. *)
Definition formula_side (fs : list frame) : Prop :=
  match fs with (FBinL BTilde _ _ | FBinR BTilde _ _) :: _ => True | _ => False end.
