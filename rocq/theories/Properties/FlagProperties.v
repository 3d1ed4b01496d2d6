(** Properties of what each rule reports: C71. *)
From Verif Require Import Spec.RFlagged Spec.RDemo.
From Verif Require Import Proofs.LintRefute Proofs.RFlaggedAll Proofs.FlagRefute.

(** ** C71: each rule reports the code it is meant to report *)
(** A rule reports an expression exactly if it is what Spec/RFlagged.v says. *)
Theorem C71_rules_exact : forall s n fs e, numerals e -> ((exists r, fires s n fs e r) <-> meant s n fs e).
Proof. exact fires_iff. Qed.
Print Assumptions C71_rules_exact.

(** So does the check of a file. *)
Theorem C71_reported_exactly : forall s p ds, only_functions (unreachable s) -> (forall e, In e p -> numerals e) ->
  check_file s p = ROk ds -> forall i n, (exists r, In (i, (n, r)) ds) <->
    exists e fs x, nth_error p i = Some e /\ plug fs x = e /\ reached fs x /\ meant s n fs x.
Proof. exact reported_iff. Qed.
Print Assumptions C71_reported_exactly.

(** [for (x in x + 1)] is not reported, [for (x in f(x = 1))] is. *)
Theorem C71_loop_index_missed_refuted : exists v q b, check_file everything_on [EFor v q b] = ROk [] /\ appears v q.
Proof. exact index_missed. Qed.
Print Assumptions C71_loop_index_missed_refuted.
Theorem C71_loop_index_wrong_refuted : exists v q b r,
  check_file everything_on [EFor v q b] = ROk [(0, (lit "for_loop_index", r))] /\ ~ appears v q.
Proof. exact index_wrong. Qed.
Print Assumptions C71_loop_index_wrong_refuted.
(** [if (c) (x <- 1)] is reported as an assignment in a condition. *)
Theorem C71_assignment_in_body_refuted : exists c l r d,
  check_file everything_on [EIf c (EParen (EBin (BAssign (lit "<-")) false l r)) None] = ROk [(0, (lit "implicit_assignment", d))].
Proof. exact body_assignment_reported. Qed.
Print Assumptions C71_assignment_in_body_refuted.

(** [function() sprintf("%d", 1, 2)]: two values for one specifier. *)
Example C71_hypotheses_met :
  let f := call (lit "sprintf") [pos (EAtom (AStr (lit """%d"""))); pos (EAtom (ANum (lit "1"))); pos (EAtom (ANum (lit "2")))] in
  only_functions (unreachable everything_on) /\ numerals (EFun [] f) /\ reached [FFunB []] f /\
  meant everything_on (lit "sprintf") [FFunB []] f /\
  exists r, check_file everything_on [EFun [] f] = ROk [(0, (lit "sprintf", r))].
Proof.
  cbn zeta. set (f := call _ _).
  assert (N : numerals (EFun [] f)).
  { intros t H. cbn in H.
    repeat (destruct H as [H|H]; [first [discriminate H|injection H as <-; eexists; eexists; split; [|left; reflexivity]; vm_compute; split; discriminate]|]).
    destruct H. }
  assert (R : exists r, check_file everything_on [EFun [] f] = ROk [(0, (lit "sprintf", r))]).
  { eexists. vm_compute. reflexivity. }
  split; [intros fs e; destruct e; exact eq_refl || exact Logic.I|]. split; [exact N|]. split; [left; repeat constructor|].
  split; [|exact R].
  apply fires_iff; [apply (RStopsProofs.plug_numerals [FFunB []]); exact N|].
  eexists. split; [reflexivity|]. exists (total sprintf_rule). eexists.
  split; [unfold all_rules; RSearchProofs.tail_in|]. split; [vm_compute; reflexivity|left; reflexivity].
Qed.
