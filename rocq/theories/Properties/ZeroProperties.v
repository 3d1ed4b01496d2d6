(** A whole run of one rule, on every file R can read (C105). *)
From Verif Require Import Spec.RDecimals Spec.RSearch Spec.RDemo Proofs.FileRefute Proofs.ZeroSearch Proofs.ZeroFix Proofs.ZeroRun Proofs.ZeroCrash.
From Verif Require Import Proofs.LintNested.

(** ** C105: [jarl check --fix --select numeric_leading_zero] *)
(** On any file R can read, whatever is in it, the command ends without an error and with no diagnostic left: the new text of
    the file is the old one with zeros added before dots; R can read it, and it does the same thing if [.5] and [0.5] are the same number
    for R; no number in it starts with a dot, in the places jarl looks at; no other file changes. *)
Theorem C105_checked : forall c o u p fs t,
  run_with (lit "numeric_leading_zero") c o -> ~ document_path p -> fs p = Some t -> readable t ->
  exists n fs' t', jarl_check c o u n p fs = (fs', Some (Ok [])) /\ fs' p = Some t' /\
    harmless_text decimals t t' /\ zeros_added t t' /\ same_except p fs fs' /\
    (forall j fs w x y, written t' j fs (EAtom (ANum w)) x y -> Forall looked_into fs -> ~ dotted_number w).
Proof. exact zero_checked. Qed.
Print Assumptions C105_checked.

(** One pass: every fix it has is harmless in its place, and none of them is lost because of another one or of a comment. *)
Theorem C105_pass : forall c o u t, run_with (lit "numeric_leading_zero") c o -> readable t ->
  exists ds, get_checks c o u t = Some ds /\ good_fixes decimals t (map d_fix ds) /\ real_fixes (map d_fix ds) = map d_fix ds /\
    forall j fs w x y, written t j fs (EAtom (ANum w)) x y -> Forall looked_into fs -> dotted_number w ->
      exists d, In d ds /\ d_start d = x /\ d_end d = y /\ d_fix d = mk_fix (lit "0" ++ w) x y false.
Proof. exact zero_found. Qed.
Print Assumptions C105_pass.

(** Stopped at any moment: the file is as it was, or with some of the zeros added, and R can read it; the run never ends with an error. *)
Theorem C105_interrupted : forall c o u n p fs t fs' r,
  run_with (lit "numeric_leading_zero") c o -> ~ document_path p -> fs p = Some t -> readable t ->
  jarl_check c o u n p fs = (fs', r) ->
  (r = None \/ r = Some (Ok [])) /\ same_except p fs fs' /\
  exists t', fs' p = Some t' /\ harmless_text decimals t t' /\ zeros_added t t'.
Proof. exact zero_interrupted. Qed.
Print Assumptions C105_interrupted.

(** Many files at once, their steps interleaved in any way, stopped at any moment. *)
Theorem C105_several : forall c o u sched fs ps fs' js',
  run_with (lit "numeric_leading_zero") c o -> NoDup ps ->
  (forall p, In p ps -> ~ document_path p /\ exists t, fs p = Some t /\ readable t) ->
  sys_run (fun _ t => get_checks c o u t) (fun _ => true) (fixing_mode c) sched fs (map (fun p => (p, None)) ps) = (fs', js') ->
  (forall q, ~ In q ps -> fs' q = fs q) /\
  (forall p t, In p ps -> fs p = Some t -> exists t', fs' p = Some t' /\ harmless_text decimals t t' /\ zeros_added t t') /\
  (forall p x, In (p, Some (JDone x)) js' -> x = Ok []).
Proof. exact zero_several. Qed.
Print Assumptions C105_several.

(** A second run changes nothing. *)
Theorem C105_again : forall c o u n m p fs fs' fs'' r, run_with (lit "numeric_leading_zero") c o ->
  jarl_check c o u n p fs = (fs', Some (Ok [])) -> jarl_check c o u m p fs' = (fs'', r) -> forall q, fs'' q = fs' q.
Proof. exact zero_again. Qed.
Print Assumptions C105_again.

(** The hypotheses are met: a file of three lines, with a comment in the middle of an expression, and a number in a place jarl does not
    look at (what is before the bracket); R's numbers as decimal digits. *)
Example C105_hypotheses_met :
  let t := of_lines [lit "x <- c(.5, # half"; lit "  -.25e-3, f(y = .1)[.75])"; lit "if (x > .5) .1L else 1.5"] in
  let t' := of_lines [lit "x <- c(0.5, # half"; lit "  -0.25e-3, f(y = .1)[0.75])"; lit "if (x > 0.5) .1L else 1.5"] in
  readable t /\ (exists c o, run_with (lit "numeric_leading_zero") c o) /\ ~ document_path (lit "a.R") /\
  fixed_into (lit "numeric_leading_zero") t t' (Ok []) /\ decimals (demo (fun _ => None)).
Proof.
  cbv zeta. split; [reading|]. split; [exists c_zero, o0; split; vm_compute; reflexivity|]. split; [intros D; apply ExtensionProofs.has_rmd_iff in D; vm_compute in D; discriminate|]. split.
  - intros c o u p R E. destruct (run_zero _ _ R) as [-> ->]. one_run.
  - intros w. reflexivity.
Qed.

(** Two files; the first is done, the second has been read and not been written yet. *)
Example C105_several_met : exists c o, run_with (lit "numeric_leading_zero") c o /\
  let fs : fsys := fun p => if teqb p (lit "a.R") then Some (lit "x <- .5") else if teqb p (lit "b.R") then Some (lit "f(.1)") else None in
  let ps := [lit "a.R"; lit "b.R"] in
  NoDup ps /\ (forall p, In p ps -> ~ document_path p /\ exists t, fs p = Some t /\ readable t) /\
  exists fs' js', sys_run (fun _ t => get_checks c o (fun _ _ => ROk []) t) (fun _ => true) (fixing_mode c) [0; 1; 0; 1; 0; 0] fs (map (fun p => (p, None)) ps) = (fs', js') /\
    fs' (lit "a.R") = Some (lit "x <- 0.5") /\ fs' (lit "b.R") = Some (lit "f(.1)") /\
    js' = [(lit "a.R", Some (JDone (Ok []))); (lit "b.R", Some (JWrite false (lit "f(0.1)")))].
Proof.
  exists c_zero, o0. split; [split; vm_compute; reflexivity|]. cbv zeta. split; [repeat constructor; cbn [In]; intuition discriminate|]. split.
  - intros p [ <- | [ <- | [] ] ]; (split; [intros D; apply ExtensionProofs.has_rmd_iff in D; vm_compute in D; discriminate|]).
    + exists (lit "x <- .5"). split; [reflexivity|reading].
    + exists (lit "f(.1)"). split; [reflexivity|reading].
  - eexists. eexists. split; [vm_compute; reflexivity|]. split; [vm_compute; reflexivity|]. split; vm_compute; reflexivity.
Qed.
