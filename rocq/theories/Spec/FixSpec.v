(** What it means to apply a set of fixes to a text: a specification of [apply_fixes]
    that does not refer to its bookkeeping. *)
From Verif Require Import Model.Text Model.Fix.
From Coq Require Import Sorting.Sorted.

(** [Splice p fs t out]: [t] is the part of the original text that starts at byte [p];
    [out] is [t] where the ranges of [fs] (byte offsets in the original text, in
    increasing order and disjoint) have been replaced by their contents and
    everything else has been kept. *)
Inductive Splice : nat -> list rfix -> text -> text -> Prop :=
| Splice_nil p t : Splice p [] t t
| Splice_cons p f fs keep old rest out :
    p + blen keep = f_start f ->
    f_start f + blen old = f_end f ->
    Splice (f_end f) fs rest out ->
    Splice p (f :: fs) (keep ++ old ++ rest) (keep ++ f_content f ++ out).

(** Order-preserving selection. *)
Inductive Sublist {A} : list A -> list A -> Prop :=
| Sub_nil : Sublist [] []
| Sub_keep x a b : Sublist a b -> Sublist (x :: a) (x :: b)
| Sub_drop x a b : Sublist a b -> Sublist a (x :: b).

(** Two fixes that do not overlap, the first one coming first. *)
Definition before (f g : rfix) : Prop := f_end f <= f_start g.
(** All fixes are in increasing order and pairwise disjoint. *)
Definition ordered_disjoint (fs : list rfix) : Prop := ForallOrdPairs before fs.

(** Two fixes overlap when neither ends before the other starts. *)
Definition overlapping (f g : rfix) : Prop := f_start f < f_end g /\ f_start g < f_end f.

(** The range of the fix designates a piece of the text (valid slice). *)
Definition in_text (t : text) (f : rfix) : Prop :=
  exists old, bslice (f_start f) (f_end f) t = Some old.

(** Replacing the range by the content changes the number of bytes and the number of
    characters by the same amount (always true when everything is ASCII, and when the
    fix re-uses each non-ASCII part of the code it replaces exactly once). *)
Definition byte_neutral (t : text) (f : rfix) : Prop :=
  forall old, bslice (f_start f) (f_end f) t = Some old ->
  blen old + length (f_content f) = length old + blen (f_content f).

(** The fix of a diagnostic that has no fix ([Fix::empty()]). *)
Definition is_empty_fix (f : rfix) : bool :=
  match f_content f with [] => (f_start f =? 0) && (f_end f =? 0) | _ => false end.
(** The fixes that actually rewrite something. *)
Definition real_fixes (fs : list rfix) : list rfix := filter (fun f => negb (is_empty_fix f)) fs.
