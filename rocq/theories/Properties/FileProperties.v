(** Properties of [--fix] on the text of a file: C73 to C77. *)
From Verif Require Import Spec.RFile Spec.RSearch.
From Verif Require Import Proofs.FileProofs Proofs.FileRefute Proofs.HangRefute Proofs.CommentProofs Proofs.DriverProofs Proofs.TextProofs.

(** ** C73: [--fix] finishes *)
(** It finishes, for any linter, if every fix writes less than it removes. *)
Theorem C73_finishes_partial : forall lint writable p fs,
  (forall t ds, lint p t = Some ds -> Forall (fun d => shortening (d_fix d)) ds) ->
  exists n o fs', check_path lint writable n true p fs = (fs', Some o).
Proof. exact short_terminates. Qed.
Print Assumptions C73_finishes_partial.

(** [jarl check --fix --select ALL] never finishes on a file with this line: it adds
    [fixed = TRUE] to the outer call for ever, and the file grows beyond any size. *)
Theorem C73_finishes_refuted : forall c o unreach p fs,
  run_with (lit "ALL") c o -> has_rmd_extension p = false ->
  fs p = Some (lit "grepl('a', grepl('b', x, fixed = f), fixed = f)") ->
  (forall n, snd (jarl_check c o unreach n p fs) = None) /\
  (forall m, exists n t, fst (jarl_check c o unreach n p fs) p = Some t /\ m <= length t).
Proof. intros c o unreach p fs R X H. exact (hang_run_with c o unreach p fs R H X). Qed.
Print Assumptions C73_finishes_refuted.

Example C73_hypotheses_met : exists c o, run_with (lit "ALL") c o /\ readable (lit "grepl('a', grepl('b', x, fixed = f), fixed = f)") /\
  shortening (mk_fix (lit "anyNA(x)") 4 17 false) /\ shortening empty_fix.
Proof.
  exists hc, ho. split; [split; vm_compute; reflexivity|]. split; [reading|].
  split; [right; vm_compute; lia|left; reflexivity].
Qed.

(** ** C74: [--fix] leaves a file that R can read *)
(** If jarl reports no error then R can read what it has written. *)
Theorem C74_readable_partial : forall c o unreach n p fs fs' ds,
  jarl_check c o unreach n p fs = (fs', Some (Ok ds)) -> exists t, fs' p = Some t /\ readable t.
Proof. exact ok_readable. Qed.
Print Assumptions C74_readable_partial.

(** With the default rules: no space is put between [else] and the new code, ... *)
Theorem C74_readable_refuted : exists t t', readable t /\ fixed_into [] t t' (Err ELint) /\ ~ readable t'.
Proof. exists (lit "if (a) b else!(x > y)"), (lit "if (a) b elsex <= y"). exact else_glued. Qed.
Print Assumptions C74_readable_refuted.
(** ... two fixes are not compatible, ... *)
Theorem C74_comparison_refuted :
  let t := lit "!(any(duplicated(x)) == y)" in let t' := lit "anyDuplicated(x) > 0 != y" in
  readable t /\ fixed_into [] t t' (Err ELint) /\ ~ readable t'.
Proof. exact comparison_glued. Qed.
Print Assumptions C74_comparison_refuted.
(** ... or the fixes are applied at the wrong place: seven lines with [any(is.na(x))], then
    [any(is.na(any(is.na(y))))]. *)
Theorem C74_offsets_refuted :
  let t := of_lines (repeat (lit "any(is.na(x))") 7) ++ lit "any(is.na(any(is.na(y))))" in
  let t' := of_lines (lit "anyNA(x)" :: lit "any(is.na(x))" :: repeat (lit "anyNA(x)") 5) ++ lit "anyNAanyNA(y)))" in
  readable t /\ fixed_into [] t t' (Err ELint) /\ ~ readable t'.
Proof. exact offsets_wrong. Qed.
Print Assumptions C74_offsets_refuted.

Example C74_hypotheses_met : exists c o, run_with [] c o /\ forall unreach, exists n fs' ds,
  jarl_check c o unreach n (lit "a.R") (only_file (lit "a.R") (lit "any(is.na(x))")) = (fs', Some (Ok ds)) /\
  fs' (lit "a.R") = Some (lit "anyNA(x)").
Proof.
  exists c0, o0. split; [split; vm_compute; reflexivity|]. intros u.
  assert (H : exists n fs', jarl_check c0 o0 u n (lit "a.R") (only_file (lit "a.R") (lit "any(is.na(x))")) = (fs', Some (Ok [])) /\
    fs' (lit "a.R") = Some (lit "anyNA(x)")).
  { eapply fixed_once; [reflexivity|reflexivity|vm_compute; reflexivity|vm_compute; reflexivity|vm_compute; reflexivity]. }
  destruct H as (n & fs' & H). exists n, fs', []. exact H.
Qed.

(** ** C75: [--fix] does not remove comments *)
(** A fix is offered for code with a comment inside only if a comment comes right
    before or right after this code. *)
Theorem C75_comments_partial : forall c o unreach t ds d s, only_functions unreach ->
  get_checks c o unreach t = Some ds -> In d ds ->
  d_rule d <> lit "unreachable_code" -> d_rule d <> lit "assignment" -> is_empty_fix (d_fix d) = false ->
  comment_at t s -> f_start (d_fix d) <= fst s -> snd s <= f_end (d_fix d) ->
  comment_before t (f_start (d_fix d)) \/ comment_after t (f_end (d_fix d)).
Proof. exact comment_blocks_fix. Qed.
Print Assumptions C75_comments_partial.

(** A comment before the code is enough for the one inside to be lost. *)
Theorem C75_comments_refuted : fixed_into []
  (of_lines [lit "# foo"; lit "any(is.na(# bar"; lit "x))"]) (of_lines [lit "# foo"; lit "anyNA(x)"]) (Ok []).
Proof. exact comment_lost. Qed.
Print Assumptions C75_comments_refuted.
Theorem C75_assignment_refuted : fixed_into (lit "assignment")
  (of_lines [lit "x = # one"; lit "1"]) (of_lines [lit "x <- 1"]) (Ok []).
Proof. exact assignment_comment_lost. Qed.
Print Assumptions C75_assignment_refuted.

Example C75_hypotheses_met :
  let t := of_lines [lit "any(is.na(x)) # bar"; lit "# foo"; lit "any(is.na(# bar"; lit "x))"] in
  forall unreach, exists ds d, get_checks c0 o0 unreach t = Some ds /\ In d ds /\ d_rule d <> lit "assignment" /\
    is_empty_fix (d_fix d) = false /\ exists s, comment_at t s /\ f_start (d_fix d) <= fst s /\ snd s <= f_end (d_fix d).
Proof.
  cbn zeta. intros u. eexists. eexists. split; [vm_compute; reflexivity|]. split; [right; left; reflexivity|].
  split; [vm_compute; discriminate|]. split; [vm_compute; reflexivity|]. exists (36, 41). split; [|vm_compute; lia].
  eexists. eexists. split; [vm_compute; reflexivity|]. vm_compute. tauto.
Qed.

(** ** C76: running [--fix] again changes nothing *)
Theorem C76_again_partial : forall c o unreach n n' p fs fs' fs'' ds r,
  fixing_mode c = true -> jarl_check c o unreach n p fs = (fs', Some (Ok ds)) ->
  Forall (fun d => is_empty_fix (d_fix d) = true) ds ->
  jarl_check c o unreach n' p fs' = (fs'', r) -> forall q, fs'' q = fs' q.
Proof. exact again_same. Qed.
Print Assumptions C76_again_partial.

Theorem C76_again_refuted : exists ds,
  fixed_into [] (lit "ifelse(x > y, FALSE, TRUE)") (lit "!(x > y)") (Ok ds) /\
  fixed_into [] (lit "!(x > y)") (lit "x <= y") (Ok []).
Proof. exact second_run. Qed.
Print Assumptions C76_again_refuted.

(** [x == NA] becomes [is.na(x)] and that is all. *)
Example C76_hypotheses_met : fixed_into [] (lit "x == NA") (lit "is.na(x)") (Ok []).
Proof. default_rules. one_run. Qed.

(** ** C77: a diagnostic covers an expression of the file *)
Theorem C77_range_is_an_expression : forall c o unreach t ds d, only_functions unreach ->
  get_checks c o unreach t = Some ds -> In d ds -> d_rule d <> lit "unreachable_code" ->
  exists j fs e, written t j fs e (d_start d) (d_end d) /\ d_start d < d_end d /\ d_end d <= blen t /\
    (is_empty_fix (d_fix d) = true \/ f_start (d_fix d) = d_start d /\ f_end (d_fix d) = d_end d).
Proof. exact diag_written. Qed.
Print Assumptions C77_range_is_an_expression.

(** [y + any(is.na(x))]: the range is 4 to 17. *)
Example C77_hypotheses_met : forall unreach, exists ds d, get_checks c0 o0 unreach (lit "y + any(is.na(x))") = Some ds /\ In d ds /\
  d_rule d = lit "any_is_na" /\ d_start d = 4 /\ d_end d = 17.
Proof. intros u. eexists. eexists. split; [vm_compute; reflexivity|]. split; [left; reflexivity|]. repeat split. Qed.
