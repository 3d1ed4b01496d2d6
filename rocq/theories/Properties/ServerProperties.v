(** Properties of the threads of the language server: C78 to C83.  They hold for every linter,
    every number [n] of worker threads, every sequence of messages and every schedule. *)
From Verif Require Import Model.Text Model.Base Model.Lsp Model.Server Spec.ServerSpec.
From Verif Require Import Proofs.ServerProofs Proofs.ServerOrder Proofs.ServerShown Proofs.ServerRefute.
From Coq Require Import Permutation.

(** ** C78: every request is answered exactly once *)
(** Never twice, at any moment. *)
Theorem C78_at_most_once : forall D A enc (L : linter D A) n tr s, reaches enc L n tr s ->
  forall i, answers i tr <= requests i tr.
Proof. intros D A enc L n tr s. exact (answered_at_most_once enc L n tr s). Qed.
Print Assumptions C78_at_most_once.

(** If the linter does not panic and messages are well formed then, whatever the schedule, a point
    is reached where every request received so far has been answered exactly once; this holds
    after a [shutdown] as well. *)
Theorem C78_answered_partial : forall D A enc (L : linter D A) n tr s, healthy L -> 0 < n -> reaches enc L n tr s -> running s ->
  (forall m, In (Received m) tr -> well_formed m) ->
  inevitably L (fun tr' _ => forall i, answers i tr' = requests i tr') tr s.
Proof. intros D A enc L n tr s. exact (finally_answered enc L n tr s). Qed.
Print Assumptions C78_answered_partial.

(** A request with parameters of the wrong shape gets no answer at all, ... *)
Theorem C78_malformed_refuted : forall D A enc (L : linter D A) n i,
  exists tr s, reaches enc L n tr s /\ quiet s /\ requests i tr = 1 /\ answers i tr = 0.
Proof. intros D A enc L. exact (malformed_ignored enc L). Qed.
Print Assumptions C78_malformed_refuted.

(** ... and neither does one that makes the linter panic (C42 gives such a text). *)
Theorem C78_panic_refuted : forall D A enc (L : linter D A) n u t v r i, 0 < n -> acts L (Snap u (new_doc t v)) r Panicked ->
  exists tr s, reaches enc L n tr s /\ thread s = Waiting /\ (forall m, In (Received m) tr -> well_formed m) /\
    requests i tr = 1 /\ answers i tr = 0 /\ forall o s', ~ internal L s o s'.
Proof. intros D A enc L. exact (lost_request enc L). Qed.
Print Assumptions C78_panic_refuted.

Example C78_hypotheses_met : exists (L : linter text text) tr s, healthy L /\ reaches UTF16 L 4 tr s /\ running s /\
  (forall m, In (Received m) tr -> well_formed m) /\ requests 7 tr = 1 /\ answers 7 tr = 1.
Proof.
  exists (Linter _ _ (fun s o => o = Done ([dc_content (sn_doc s)], 0)) (fun s r o => o = Done [lit "fix"])).
  destruct (simple_session UTF16 (Linter text text (fun s o => o = Done ([dc_content (sn_doc s)], 0)) (fun s r o => o = Done [lit "fix"]))
    4 (lit "file") (lit "x = 1") 1 [lit "x = 1"] ((0, 0), (0, 1)) 7 [lit "fix"] ltac:(lia) eq_refl eq_refl) as (s & Q & R).
  eexists _, s. split; [|split; [exact R|]].
  - split; [intros x|intros x r]; (split; [eexists; reflexivity|discriminate]).
  - split; [destruct Q as ([T|T] & _); unfold running; rewrite T; exact Logic.I|].
    split; [|split; vm_compute; reflexivity]. intros m I. cbn [In] in I.
    repeat (destruct I as [I|I]; [try discriminate; injection I as <-; exact Logic.I|]). destruct I.
Qed.

(** ** C79: the editor shows the diagnostics of the text saved last *)
(** Diagnostics sent with a version are those of a text that was saved before, with this version. *)
Theorem C79_diagnostics_of_a_saved_text : forall D A enc (L : linter D A) n tr s tr1 tr2 u ds v,
  reaches enc L n tr s -> tr = tr1 ++ Sent (Publish u ds (Some v)) :: tr2 ->
  exists a b d k, tr1 = a ++ Received (Notif (DidSave u)) :: b /\ doc_at enc a u = Some d /\ dc_version d = v /\
    lints L (Snap u d) (Done (ds, k)).
Proof. intros D A enc L. exact (published_sound enc L). Qed.
Print Assumptions C79_diagnostics_of_a_saved_text.

(** Once the server is idle, each save has had its result, and nothing else was sent. *)
Theorem C79_every_save_checked_once : forall D A enc (L : linter D A) n tr s, reaches enc L n tr s -> quiet s ->
  exists p, results L (saves enc tr) p /\ Permutation p (published tr).
Proof. intros D A enc L. exact (all_published enc L). Qed.
Print Assumptions C79_every_save_checked_once.

(** With one worker the results come in the order of the saves. *)
Theorem C79_one_worker_in_order_partial : forall D A enc (L : linter D A) tr s, reaches enc L 1 tr s -> quiet s ->
  results L (saves enc tr) (published tr).
Proof. intros D A enc L. exact (one_worker_in_order enc L). Qed.
Print Assumptions C79_one_worker_in_order_partial.

(** With any number of workers: if the editor had received the results of the earlier saves of the
    file when it saved it for the last time, then what it shows is the result for this text. *)
Theorem C79_patient_editor_partial : forall D A enc (L : linter D A) n tr s u tr1 tr2 d, faultless L -> reaches enc L n tr s -> quiet s ->
  tr = tr1 ++ Received (Notif (DidSave u)) :: tr2 -> doc_at enc tr1 u = Some d ->
  received_times u tr1 = saved_times enc u tr1 -> not_saved u tr2 -> not_closed u tr2 ->
  exists ds k, lints L (Snap u d) (Done (ds, k)) /\ shown tr u = Some ds.
Proof. intros D A enc L. exact (patient enc L). Qed.
Print Assumptions C79_patient_editor_partial.

(** Under the same condition nothing is shown for a file that was closed. *)
Theorem C79_close_clears_partial : forall D A enc (L : linter D A) n tr s u tr1 tr2 d, faultless L -> reaches enc L n tr s ->
  tr = tr1 ++ Received (Notif (DidClose u)) :: tr2 -> doc_at enc tr1 u = Some d ->
  received_times u tr1 = saved_times enc u tr1 -> not_saved u tr2 -> shown tr u = Some [].
Proof. intros D A enc L. exact (close_clears enc L). Qed.
Print Assumptions C79_close_clears_partial.

(** Otherwise: the result of an earlier save can arrive last and stay, ... *)
Theorem C79_overtaken_refuted : forall D A enc (L : linter D A) n u t v ch v2 d2 ds1 ds2, 2 <= n ->
  apply_changes (new_doc t v) ch v2 enc = (d2, SOk) ->
  lints L (Snap u (new_doc t v)) (Done (ds1, 0)) -> lints L (Snap u d2) (Done (ds2, 0)) ->
  exists tr s tr1 tr2, reaches enc L n tr s /\ quiet s /\ tr = tr1 ++ Received (Notif (DidSave u)) :: tr2 /\
    not_saved u tr2 /\ not_closed u tr2 /\ doc_at enc tr1 u = Some d2 /\ shown tr u = Some ds1.
Proof. intros D A enc L. exact (overtaken enc L). Qed.
Print Assumptions C79_overtaken_refuted.

(** ... a file that was closed can get diagnostics again, for good, ... *)
Theorem C79_closed_refuted : forall D A enc (L : linter D A) n u t v ds, 0 < n -> lints L (Snap u (new_doc t v)) (Done (ds, 0)) ->
  exists tr s, reaches enc L n tr s /\ quiet s /\ doc_at enc tr u = None /\ shown tr u = Some ds /\
    exists tr1 tr2, tr = tr1 ++ Received (Notif (DidClose u)) :: tr2 /\ (forall m, ~ In (Received m) tr2) /\ doc_at enc tr1 u <> None.
Proof. intros D A enc L. exact (published_after_close enc L). Qed.
Print Assumptions C79_closed_refuted.

(** ... and the diagnostics of the old text stay when the new one cannot be parsed. *)
Theorem C79_failure_refuted : forall D A enc (L : linter D A) n u t v ch v2 d2 ds, 0 < n ->
  apply_changes (new_doc t v) ch v2 enc = (d2, SOk) ->
  lints L (Snap u (new_doc t v)) (Done (ds, 0)) -> lints L (Snap u d2) Failed ->
  exists tr s tr1 tr2, reaches enc L n tr s /\ quiet s /\ tr = tr1 ++ Received (Notif (DidSave u)) :: tr2 /\
    tr2 = [] /\ doc_at enc tr1 u = Some d2 /\ received_times u tr1 = saved_times enc u tr1 /\ shown tr u = Some ds.
Proof. intros D A enc L. exact (kept_after_failure enc L). Qed.
Print Assumptions C79_failure_refuted.

Example C79_hypotheses_met : exists (L : linter text text) tr s tr1 tr2 d, faultless L /\ reaches UTF16 L 4 tr s /\ quiet s /\
  tr = tr1 ++ Received (Notif (DidSave (lit "file"))) :: tr2 /\ doc_at UTF16 tr1 (lit "file") = Some d /\
  received_times (lit "file") tr1 = saved_times UTF16 (lit "file") tr1 /\ not_saved (lit "file") tr2 /\ not_closed (lit "file") tr2 /\
  shown tr (lit "file") = Some [lit "x = 1"] /\
  (exists d2, apply_changes (new_doc (lit "x = 1") 1) [Change (Some ((0, 0), (0, 0))) (lit "y")] 2 UTF16 = (d2, SOk)) /\
  exists sn, lints L sn (Done ([lit "x = 1"], 0)).
Proof.
  exists (Linter _ _ (fun s o => o = Done ([dc_content (sn_doc s)], 0)) (fun s r o => o = Done [lit "fix"])).
  destruct (simple_save UTF16 (Linter text text (fun s o => o = Done ([dc_content (sn_doc s)], 0)) (fun s r o => o = Done [lit "fix"]))
    4 (lit "file") (lit "x = 1") 1 [lit "x = 1"] ltac:(lia) eq_refl) as (s & Q & R).
  eexists _, s, [Received (Notif (DidOpen (lit "file") (lit "x = 1") 1))], _, _.
  split; [split; [split; [intros x|intros x r]; (split; [eexists; reflexivity|discriminate])|intros x; discriminate]|].
  split; [exact R|]. split; [exact Q|]. split; [reflexivity|]. split; [vm_compute; reflexivity|]. split; [vm_compute; reflexivity|].
  split; [intros [I|[]]; discriminate|]. split; [intros [I|[]]; discriminate|]. split; [vm_compute; reflexivity|].
  split; [eexists; vm_compute; reflexivity|]. exists (Snap (lit "file") (new_doc (lit "x = 1") 1)). reflexivity.
Qed.
Example C79_close_hypotheses_met : exists (L : linter text text) tr s tr1 tr2 d, faultless L /\ reaches UTF16 L 4 tr s /\
  tr = tr1 ++ Received (Notif (DidClose (lit "file"))) :: tr2 /\ doc_at UTF16 tr1 (lit "file") = Some d /\
  saved_times UTF16 (lit "file") tr1 = 1 /\
  received_times (lit "file") tr1 = saved_times UTF16 (lit "file") tr1 /\ not_saved (lit "file") tr2.
Proof.
  exists (Linter _ _ (fun s o => o = Done ([dc_content (sn_doc s)], 0)) (fun s r o => o = Done [lit "fix"])).
  destruct (simple_session UTF16 (Linter text text (fun s o => o = Done ([dc_content (sn_doc s)], 0)) (fun s r o => o = Done [lit "fix"]))
    4 (lit "file") (lit "x = 1") 1 [lit "x = 1"] ((0, 0), (0, 1)) 7 [lit "fix"] ltac:(lia) eq_refl eq_refl) as (s & Q & R).
  eexists _, s, [_; _; _; _; _], _, _.
  split; [split; [split; [intros x|intros x r]; (split; [eexists; reflexivity|discriminate])|intros x; discriminate]|].
  split; [exact R|]. split; [reflexivity|]. split; [vm_compute; reflexivity|]. split; [vm_compute; reflexivity|]. split; [vm_compute; reflexivity|].
  intros [I|[]]; discriminate.
Qed.

(** ** C80: the server never blocks *)
(** As long as the linter does not panic the server gets back to waiting for messages, whatever the
    schedule and however many tasks are queued. *)
Theorem C80_never_blocked_partial : forall D A enc (L : linter D A) n tr s, healthy L -> 0 < n -> reaches enc L n tr s -> running s ->
  thread s <> Stopped -> inevitably L (fun _ s' => thread s' = Waiting) tr s.
Proof. intros D A enc L n tr s. exact (finally_waiting enc L n tr s). Qed.
Print Assumptions C80_never_blocked_partial.

(** A text that makes the linter panic leads to a server that is there but does nothing any more:
    each panic ends one worker, and the channel of tasks has a bounded size. *)
Theorem C80_blocked_refuted : forall D A enc (L : linter D A) u t v, lints L (Snap u (new_doc t v)) Panicked ->
  forall n r i, exists tr s, reaches enc L n tr s /\ running s /\ thread s <> Stopped /\ (forall o s', ~ step enc L s o s') /\
    exists tr0, tr = tr0 ++ [Received (CodeAction i u r)].
Proof. intros D A enc L. exact (blocked enc L). Qed.
Print Assumptions C80_blocked_refuted.

Example C80_hypotheses_met : exists (L L' : linter text text) tr s, healthy L /\ reaches UTF16 L 4 tr s /\ running s /\ thread s <> Stopped /\
  exists t, lints L' (Snap (lit "file") (new_doc t 1)) Panicked.
Proof.
  exists (Linter _ _ (fun s o => o = Done ([], 0)) (fun s r o => o = Done [])), (Linter _ _ (fun s o => o = Panicked) (fun s r o => o = Done [])), [], (start 4).
  split; [split; [intros x|intros x r]; (split; [eexists; reflexivity|discriminate])|]. split; [constructor|].
  split; [exact Logic.I|]. split; [discriminate|]. exists []. reflexivity.
Qed.

(** ** C81: quick fixes are those for the text at the time of the request *)
Theorem C81_answer_for_the_requested_text : forall D A enc (L : linter D A) n tr s tr1 tr2 i l,
  reaches enc L n tr s -> tr = tr1 ++ Sent (Answer i l) :: tr2 ->
  exists a b u r d, tr1 = a ++ Received (CodeAction i u r) :: b /\ doc_at enc a u = Some d /\
    (acts L (Snap u d) r (Done l) \/ (acts L (Snap u d) r Failed /\ l = [])).
Proof. intros D A enc L. exact (answer_sound enc L). Qed.
Print Assumptions C81_answer_for_the_requested_text.

Example C81_hypotheses_met : exists (L : linter text text) tr s tr1 tr2, reaches UTF16 L 4 tr s /\ tr = tr1 ++ Sent (Answer 7 [lit "fix"]) :: tr2.
Proof.
  exists (Linter _ _ (fun s o => o = Done ([dc_content (sn_doc s)], 0)) (fun s r o => o = Done [lit "fix"])).
  destruct (simple_session UTF16 (Linter text text (fun s o => o = Done ([dc_content (sn_doc s)], 0)) (fun s r o => o = Done [lit "fix"]))
    4 (lit "file") (lit "x = 1") 1 [lit "x = 1"] ((0, 0), (0, 1)) 7 [lit "fix"] ltac:(lia) eq_refl eq_refl) as (s & Q & R).
  eexists _, s, [_; _; _; _], _. split; [exact R|reflexivity].
Qed.

(** ** C82: messages meant to be shown once per session are shown at most once *)
Theorem C82_shown_at_most_once : forall D A enc (L : linter D A) n tr s, reaches enc L n tr s ->
  config_messages tr <= 1 /\ hidden_messages tr <= 1.
Proof. intros D A enc L. exact (at_most_once enc L). Qed.
Print Assumptions C82_shown_at_most_once.

(** If every check hides some diagnostics, the message about it does come. *)
Theorem C82_shown_when_needed : forall D A enc (L : linter D A) n tr s, (forall sn ds k, lints L sn (Done (ds, k)) -> 0 < k) ->
  reaches enc L n tr s -> quiet s -> published tr <> [] -> hidden_messages tr = 1.
Proof. intros D A enc L. exact (shown_when_needed enc L). Qed.
Print Assumptions C82_shown_when_needed.

Example C82_hypotheses_met : exists (L : linter text text) tr s, (forall sn ds k, lints L sn (Done (ds, k)) -> 0 < k) /\
  reaches UTF16 L 1 tr s /\ quiet s /\ published tr <> [] /\ hidden_messages tr = 1 /\ config_messages tr = 1.
Proof.
  exists (Linter _ _ (fun s o => o = Done ([], 3)) (fun s r o => o = Done [])).
  destruct (hidden_session UTF16 (Linter text text (fun s o => o = Done ([], 3)) (fun s r o => o = Done []))
    (lit "file") [] 1 [] 3 (lit "elsewhere") ltac:(lia) eq_refl) as (s & Q & R).
  eexists _, s. split; [intros sn ds k E; injection E as _ ->; lia|]. split; [exact R|]. split; [exact Q|].
  split; [discriminate|]. split; vm_compute; reflexivity.
Qed.

(** ** C83: the end of a session *)
(** [shutdown] is answered at once and nothing is handled after it. *)
Theorem C83_shutdown_is_last : forall D A enc (L : linter D A) n tr s tr1 i tr2, reaches enc L n tr s ->
  tr = tr1 ++ Received (Shutdown i) :: tr2 ->
  thread s = Stopped /\ exists tr3, tr2 = Sent (AnswerNull i) :: tr3 /\ forall m, ~ In (Received m) tr3.
Proof. intros D A enc L. exact (shutdown_last enc L). Qed.
Print Assumptions C83_shutdown_is_last.

(** The protocol asks for exit code 1 when [exit] comes without [shutdown]; it is 0. *)
Theorem C83_exit_code_refuted : forall D A enc (L : linter D A) n, exists tr s, reaches enc L n tr s /\
  (forall i, ~ In (Received (Shutdown i)) tr) /\ thread s = Exited 0.
Proof. intros D A enc L. exact (exit_zero enc L). Qed.
Print Assumptions C83_exit_code_refuted.

Example C83_hypotheses_met : forall D A enc (L : linter D A), exists s,
  reaches enc L 2 ([] ++ Received (Shutdown 3) :: [Sent (AnswerNull 3)]) s.
Proof. intros. eexists. exact (do_receive enc L 2 [] (start 2) (Shutdown 3) None _ _ (r_start _ _ _) eq_refl eq_refl). Qed.
