(** C01–C06, C35: applying fixes. *)
From Verif Require Import Model.Text Model.Fix Model.Driver Spec.FixSpec Spec.DriverSpec
  Proofs.FixProofs Proofs.FixWitness Proofs.DriverProofs Proofs.DriverWitness Proofs.ExtensionProofs.

(** C01, positive part: for ordered, disjoint fixes whose replacement text is byte-neutral, with
    fix-less diagnostics anywhere in the list. Missing for the full claim: overlapping/nested fixes
    (see C01_fix_splice_refuted) and fixes that drop or duplicate non-ASCII text. *)
Theorem C01_fix_splice_partial : forall fs t sk out,
  ordered_disjoint (real_fixes fs) ->
  Forall (in_text t) (real_fixes fs) -> Forall (byte_neutral t) (real_fixes fs) ->
  apply_fixes fs t = Some (sk, out) ->
  exists applied, Sublist applied (real_fixes fs) /\ Splice 0 applied t out /\
    (sk = false -> applied = real_fixes fs) /\ hd_error applied = hd_error (real_fixes fs).
Proof. exact apply_fixes_real. Qed.
Print Assumptions C01_fix_splice_partial.

(** ... and without fix-less diagnostics the code does not panic. *)
Theorem C01_no_panic_partial : forall fs t,
  ordered_disjoint fs -> Forall (in_text t) fs -> Forall (byte_neutral t) fs ->
  exists sk out, apply_fixes fs t = Some (sk, out).
Proof. exact apply_fixes_no_panic. Qed.
Print Assumptions C01_no_panic_partial.

Theorem C01_ascii_neutral : forall t f,
  ascii_text t = true -> ascii_text (f_content f) = true -> byte_neutral t f.
Proof. exact ascii_neutral. Qed.
Print Assumptions C01_ascii_neutral.

(** C01 is false of the code: a plain ASCII file with nested fixes is corrupted. *)
Theorem C01_fix_splice_refuted :
  exists fs t sk out,
    Forall (in_text t) fs /\ ascii_text t = true /\ Forall (fun f => ascii_text (f_content f) = true) fs /\
    apply_fixes fs t = Some (sk, out) /\
    ~ exists applied, Sublist applied fs /\ Splice 0 applied t out.
Proof. exact splice_refuted. Qed.
Print Assumptions C01_fix_splice_refuted.

(** C01 is false of the code: disjoint fixes of a file with non-ASCII names corrupt it ... *)
Theorem C01_fix_splice_nonascii_refuted :
  exists fs t sk out,
    Forall (in_text t) fs /\ ordered_disjoint fs /\
    apply_fixes fs t = Some (sk, out) /\
    ~ exists applied, Sublist applied fs /\ Splice 0 applied t out.
Proof. exact splice_nonascii_refuted. Qed.
Print Assumptions C01_fix_splice_nonascii_refuted.

(** ... or crash. *)
Theorem C01_no_panic_refuted :
  exists fs t, Forall (in_text t) fs /\ ordered_disjoint fs /\ apply_fixes fs t = None.
Proof. exact panic_refuted. Qed.
Print Assumptions C01_no_panic_refuted.

Example C01_hypotheses_met :
  ordered_disjoint (real_fixes ex_fixes) /\ Forall (in_text ex_text) (real_fixes ex_fixes) /\
  Forall (byte_neutral ex_text) (real_fixes ex_fixes) /\
  exists out, apply_fixes ex_fixes ex_text = Some (true, out).
Proof.
  split; [cbn; solve_ordered|]. split; [cbn; solve_in_text|]. split; [|exact ex_run].
  repeat constructor; apply ascii_neutral; vm_compute; reflexivity.
Qed.

(** C02: two overlapping fixes can both be applied, giving a text that is neither the original nor
    the result of one of them ([NA == T] becomes [is.na(TTRUE]). *)
Theorem C02_no_overlap_refuted :
  exists f g t sk out,
    overlapping f g /\ in_text t f /\ in_text t g /\
    apply_fixes (f :: g :: nil) t = Some (sk, out) /\
    out <> t /\ (forall o, Splice 0 (f :: nil) t o -> o <> out) /\ (forall o, Splice 0 (g :: nil) t o -> o <> out).
Proof. exact overlap_refuted. Qed.
Print Assumptions C02_no_overlap_refuted.

(** C02, positive part: fixes starting inside a first fix that does not lengthen the text are all
    skipped. Missing: several outer fixes, and outer fixes that lengthen the text. *)
Theorem C02_first_fix_wins_partial : forall f fs t old,
  bslice (f_start f) (f_end f) t = Some old ->
  List.length (f_content f) <= List.length old ->
  Forall (fun g => f_start g < f_end f) fs ->
  exists out, apply_fixes (f :: fs) t = Some (match fs with nil => false | _ => true end, out)
              /\ Splice 0 (f :: nil) t out.
Proof. exact first_wins. Qed.
Print Assumptions C02_first_fix_wins_partial.

Example C02_hypotheses_met :
  bslice 0 14 (w2_line ".5") = Some (w2_line ".5") /\
  List.length (lit "anyNA(.5)") <= List.length (w2_line ".5") /\
  Forall (fun g => f_start g < 14) (mk_fix (lit "0.5") 10 12 false :: nil).
Proof. split; [vm_compute; reflexivity|]. split; [vm_compute; lia|repeat constructor]. Qed.

(** C03 (for ordered, disjoint, byte-neutral fixes): without skipped fix everything is applied, and the
    first fix is never skipped. *)
Theorem C03_complete_and_progress_partial : forall fs t sk out,
  ordered_disjoint (real_fixes fs) ->
  Forall (in_text t) (real_fixes fs) -> Forall (byte_neutral t) (real_fixes fs) ->
  apply_fixes fs t = Some (sk, out) ->
  (sk = false -> Splice 0 (real_fixes fs) t out) /\
  (forall f rest, real_fixes fs = f :: rest -> exists more, Splice 0 (f :: more) t out /\ Sublist more rest).
Proof. exact complete_and_progress. Qed.
Print Assumptions C03_complete_and_progress_partial.

(** C04 / C05: what a fixing run leaves behind. *)
Theorem C04_reports_final_content : forall lint writable n fixing p fs fs' ds,
  check_path lint writable n fixing p fs = (fs', Some (Ok ds)) ->
  same_except p fs fs' /\
  exists c0 c, fs p = Some c0 /\ fs' p = Some c /\ lint p c = Some ds /\
    (fixing = true /\ ~ document_path p -> passes lint p c0 c) /\
    (fixing = false \/ document_path p -> c = c0).
Proof.
  intros lint writable n fixing p fs fs' ds H. apply fix_ok in H as (F & c0 & c & H1 & H2 & H3 & H4).
  split; auto. exists c0, c. repeat split; auto.
  - intros (-> & D). rewrite <- has_rmd_iff in D. apply Bool.not_true_is_false in D. now rewrite D in H4.
  - intros [->|D]; [now cbn in H4|]. apply has_rmd_iff in D. rewrite D, Bool.andb_false_r in H4. auto.
Qed.
Print Assumptions C04_reports_final_content.

Theorem C04_only_its_file : forall lint writable n fixing p fs fs' o,
  check_path lint writable n fixing p fs = (fs', o) -> same_except p fs fs'.
Proof. exact check_path_frame. Qed.
Print Assumptions C04_only_its_file.

(** The fix loop ends if every pass that leaves something to do decreases some measure of the file
    (that jarl's own rules decrease one is not proved). *)
Theorem C04_terminates_partial : forall lint writable (m : text -> nat) p fs,
  (forall c c', pass lint p c true c' -> m c' < m c) ->
  exists n o fs', check_path lint writable n true p fs = (fs', Some o).
Proof. exact check_path_terminates. Qed.
Print Assumptions C04_terminates_partial.

Example C04_hypotheses_met :
  (forall c c', pass toy_lint pa c true c' -> blen c' < blen c) /\
  exists fs', check_path toy_lint all_writable 4 true pa fs0 = (fs', Some (Ok nil)) /\ fs' pa = Some (lit "0.5").
Proof. split; [exact measure_case|exact toy_fix_runs]. Qed.

Theorem C05_readonly : forall lint writable n fixing p fs fs' o,
  fixing = false \/ document_path p ->
  check_path lint writable n fixing p fs = (fs', o) -> same_fs fs fs' /\ o = Some (lint_only lint fs p).
Proof.
  intros lint writable n fixing p fs fs' o H. apply check_path_readonly. apply Bool.andb_false_iff.
  destruct H as [H|H]; [now left|right]. apply has_rmd_iff in H. now rewrite H.
Qed.
Print Assumptions C05_readonly.

Theorem C05_nothing_to_fix : forall lint writable n p fs fs' o c ds,
  fs p = Some c -> lint p c = Some ds -> real_fixes (map d_fix ds) = nil ->
  check_path lint writable n true p fs = (fs', o) ->
  same_fs fs fs' /\ (3 <= n -> writable p = true -> o = Some (Ok ds)).
Proof. exact check_path_nofix. Qed.
Print Assumptions C05_nothing_to_fix.

Example C05_hypotheses_met :
  document_path (lit "doc/report.Rmd") /\ ~ document_path (lit "R/foo.R") /\
  real_fixes (map d_fix (mk_diag (lit "unused_function") 3 6 empty_fix :: nil)) = nil.
Proof.
  split; [left; exists (lit "doc/"), (lit "report"); repeat split; [right; now exists (lit "doc")|discriminate|ext_lit]|].
  split; [rewrite <- has_rmd_iff; discriminate|reflexivity].
Qed.

(** C06: the gate of one call of the checker is exactly the documented condition. *)
Theorem C06_gate : forall repo_of dirty_files fl fs ps,
  ps <> nil ->
  (gate_open repo_of dirty_files fl fs ps ->
     check_start repo_of dirty_files fl true fs ps = inr (map (fun p => (p, None)) ps)) /\
  (~ gate_open repo_of dirty_files fl fs ps ->
     exists e, check_start repo_of dirty_files fl true fs ps = inl e).
Proof. exact check_start_gate. Qed.
Print Assumptions C06_gate.
Example C06_hypotheses_met :
  gate_open repo1 dirty1 strict fs0 (pa :: pb :: nil) /\
  ~ gate_open repo1 dirty1 strict (upd fs0 pa (lit "0.5")) (pb :: nil).
Proof.
  split; [|exact gate_closed_case].
  right. split; [intros; exists root; reflexivity|]. right. intros p r _ _. vm_compute. reflexivity.
Qed.

(** C06 for the whole command is false: with two configuration files in one clean repository, the
    first group's fixes close the gate for the second group. *)
Theorem C06_whole_command_refuted :
  exists lint writable repo_of dirty_files fl fs groups n fs' os p q,
    gate_open repo_of dirty_files fl fs (concat groups) /\
    run_groups lint writable repo_of dirty_files fl n true fs groups = (fs', os) /\
    In (q, Some (Err EDirty)) os /\ fs' q = fs q /\ fs' p <> fs p /\ In p (concat groups) /\ In q (concat groups).
Proof. exact group_gate_refuted. Qed.
Print Assumptions C06_whole_command_refuted.

(** C35: files are processed in parallel; every schedule gives each file the outcome and the final
    content it gets when processed alone. *)
Theorem C35_schedule_independent : forall lint writable fixing sched fs ps fs' js',
  NoDup ps ->
  sys_run lint writable fixing sched fs (map (fun p => (p, None)) ps) = (fs', js') ->
  map fst js' = ps /\
  (forall q, ~ In q ps -> fs' q = fs q) /\
  (forall p o, In (p, Some (JDone o)) js' ->
     exists n fsp, check_path lint writable n fixing p fs = (fsp, Some o) /\ fs' p = fsp p).
Proof. exact schedule_independent. Qed.
Print Assumptions C35_schedule_independent.
Theorem C35_outcome_unique : forall lint writable n m fixing p fs f1 f2 o1 o2,
  check_path lint writable n fixing p fs = (f1, Some o1) ->
  check_path lint writable m fixing p fs = (f2, Some o2) -> o1 = o2 /\ f1 = f2.
Proof. exact check_path_det. Qed.
Print Assumptions C35_outcome_unique.
(** A run without fixes over all groups gives one result for each file, in order, and changes nothing. *)
Theorem C35_run_without_fixes : forall lint writable repo_of dirty_files fl n fs groups fs' os,
  run_groups lint writable repo_of dirty_files fl n false fs groups = (fs', os) ->
  fs' = fs /\ os = map (fun p => (p, Some (lint_only lint fs p))) (concat groups).
Proof. exact run_groups_nofix. Qed.
Print Assumptions C35_run_without_fixes.
Example C35_hypotheses_met :
  exists fs' js', sys_run toy_lint all_writable true (0 :: 1 :: 0 :: 1 :: 1 :: 1 :: 0 :: 0 :: 0 :: nil) fs0 ((pa, None) :: (pb, None) :: nil) = (fs', js')
   /\ js' = ((pa, Some (JDone (Ok nil))) :: (pb, Some (JDone (Ok nil))) :: nil) /\ NoDup (pa :: pb :: nil)
   /\ fs' pb = Some (lit "is.na(x)").
Proof. exact toy_schedule_runs. Qed.
