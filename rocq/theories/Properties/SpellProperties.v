(** Rules that only report, and the [T] and [F] of a file (C106). *)
From Verif Require Import Model.Config Model.Rules Spec.RSpelling Spec.RSearch Proofs.ExtensionProofs Proofs.FileRefute Proofs.SpellRun.
From Verif Require Import Proofs.LintNested.

(** ** C106: [jarl check --fix] with rules that have no fix *)
(** Whatever is in the file, R code or not, and whenever the command is stopped, no file is changed. *)
Theorem C106_only_reports : forall c o u n p fs fs' r, only_functions u ->
  (forall r, In r (c_rules_to_apply c) -> has_no_fix r = true) -> jarl_check c o u n p fs = (fs', r) -> forall q, fs' q = fs q.
Proof. exact quiet_check. Qed.
Print Assumptions C106_only_reports.

(** The same for many files at once, their steps interleaved in any way, stopped at any moment. *)
Theorem C106_several : forall c o u sched fs ps fs' js', only_functions u ->
  (forall r, In r (c_rules_to_apply c) -> has_no_fix r = true) -> NoDup ps ->
  sys_run (fun _ t => get_checks c o u t) (fun _ => true) (fixing_mode c) sched fs (map (fun p => (p, None)) ps) = (fs', js') ->
  forall q, fs' q = fs q.
Proof. exact quiet_several. Qed.
Print Assumptions C106_several.

(** On a file R can read, true_false_symbol reports, each in its range, the [T] and [F] that are used as values, all of them and
    nothing else, in the places jarl looks at: not the function of a call, not what is after [$] or [@], not the name of an argument or of
    a parameter, and not a side of a formula; and the loops that run over [T] or [F].  (What is reported of such a loop is
    inside it: in the code it is the variable, in the model the loop.)  No fix comes with it. *)
Theorem C106_uses : forall c o u t, run_with (lit "true_false_symbol") c o -> only_functions u -> readable t ->
  exists ds, get_checks c o u t = Some ds /\ Forall (fun d => d_rule d = lit "true_false_symbol" /\ is_empty_fix (d_fix d) = true) ds /\
    (forall j fs w x y, written t j fs (EAtom (AId w)) x y -> Forall looked_into fs -> T_or_F w -> ~ formula_side fs ->
       exists d, In d ds /\ d_start d = x /\ d_end d = y) /\
    (forall j fs v s b x y, written t j fs (EFor v s b) x y -> Forall looked_into fs -> T_or_F v ->
       exists d, In d ds /\ x <= d_start d /\ d_end d <= y) /\
    (forall d, In d ds ->
       (exists j fs w, written t j fs (EAtom (AId w)) (d_start d) (d_end d) /\ Forall looked_into fs /\ T_or_F w /\ ~ formula_side fs) \/
       (exists j fs v s b x y, written t j fs (EFor v s b) x y /\ Forall looked_into fs /\ T_or_F v /\ x <= d_start d /\ d_end d <= y)).
Proof. exact spell_uses. Qed.
Print Assumptions C106_uses.

(** [jarl check --fix --select true_false_symbol] ends, shows these diagnostics, and leaves the files as they are. *)
Theorem C106_checked : forall c o u p fs t, run_with (lit "true_false_symbol") c o -> only_functions u -> ~ document_path p -> fs p = Some t -> readable t ->
  exists n fs' ds, jarl_check c o u n p fs = (fs', Some (Ok ds)) /\ get_checks c o u t = Some ds /\ forall q, fs' q = fs q.
Proof. exact spell_checked. Qed.
Print Assumptions C106_checked.

(** The hypotheses are met; four are reported. *)
Example C106_hypotheses_met :
  let t := of_lines [lit "x <- c(T, F) # T"; lit "lm(y ~ T)"; lit "f(T = F)"; lit "T()"; lit "d$F"; lit "T[1] <- 'T'"; lit "for (i in F) function(T) i"] in
  readable t /\ only_functions (fun _ _ => ROk []) /\ ~ document_path (lit "a.R") /\
  exists c o, run_with (lit "true_false_symbol") c o /\ (forall r, In r (c_rules_to_apply c) -> has_no_fix r = true) /\ c_rules_to_apply c <> [] /\
    exists ds, get_checks c o (fun _ _ => ROk []) t = Some ds /\ map (fun d => (d_start d, d_end d)) ds = [(7, 8); (10, 11); (33, 34); (66, 67)].
Proof.
  cbv zeta. split; [reading|]. split; [intros gs x; destruct x; try reflexivity; exact Logic.I|]. split; [intros D; apply has_rmd_iff in D; vm_compute in D; discriminate|].
  exists c_spell, o0. split; [split; vm_compute; reflexivity|]. split; [exact spell_no_fixes|]. split; [vm_compute; discriminate|].
  eexists. split; [vm_compute; reflexivity|]. vm_compute. reflexivity.
Qed.
