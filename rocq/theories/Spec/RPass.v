(** Several fixes in one pass, and all the passes of a run. *)
From Verif Require Export Spec.RAlike Spec.RText Spec.FixSpec Spec.DriverSpec Model.Pipeline.

(** ** A fix as an edit of an expression of the file *)
Record edit := mk_edit { e_stmt : nat; e_frames : list frame; e_old : expr; e_new : expr; e_fix : rfix }.
(** The bytes of the fix are those of the expression [e_old] of the file [t]; the content of the fix is read
    as the expression [e_new], which may replace it; and it is in one of the usual places of C84. *)
Definition edit_ok (P : interp -> Prop) (t : text) (ed : edit) : Prop :=
  written t (e_stmt ed) (e_frames ed) (e_old ed) (f_start (e_fix ed)) (f_end (e_fix ed)) /\
  text_tokens (f_content (e_fix ed)) (toks (e_new ed)) /\ breaks_enclosed (f_content (e_fix ed)) /\
  (exists A B C, t = A ++ B ++ C /\ blen A = f_start (e_fix ed) /\ blen (A ++ B) = f_end (e_fix ed) /\
     starts_well A B (f_content (e_fix ed)) /\ ends_well (f_content (e_fix ed)) C) /\
  replaceable P (e_frames ed) (e_old ed) (e_new ed).

(** ** The fixes of a pass *)
(** Apart from each other and in order; replacing as many bytes as characters; each of an expression that may be
    replaced. *)
Definition good_fixes (P : interp -> Prop) (t : text) (fs : list rfix) : Prop :=
  ordered_disjoint (real_fixes fs) /\ Forall (byte_neutral t) (real_fixes fs) /\
  Forall (fun f => exists ed, e_fix ed = f /\ edit_ok P t ed) (real_fixes fs).
(** The texts a fixing run goes through. *)
Inductive visited (lint : path -> text -> option (list diag)) (p : path) (t : text) : text -> Prop :=
| visited_first : visited lint p t t
| visited_next c sk c' : visited lint p t c -> pass lint p c sk c' -> visited lint p t c'.
