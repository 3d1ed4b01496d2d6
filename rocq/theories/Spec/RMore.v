(** Vocabulary for the properties of the rules of Model/MoreLints.v. *)
From Verif Require Export Spec.RFix Model.MoreLints.

Definition not_string {num other} (v : value num other) : Prop := match v with VStr _ => False | _ => True end.

(** Objects with a class do not redefine [&] and [|]. *)
Definition plain_logic (I : interp) : Prop := forall c v w, o_logic I c v w = None.

(** A number of R starts with a digit, or with a point and a digit; all the
    numbers of an expression do. *)
Definition numeral (t : text) : Prop :=
  exists d u, digit d /\ (t = d :: u \/ t = lit "." ++ d :: u).
Definition numerals (e : expr) : Prop := forall t, In (TAtom (ANum t)) (toks e) -> numeral t.
