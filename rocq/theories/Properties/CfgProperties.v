(** C23, C40, C41: unreachable code. *)
From Verif Require Import Model.Text Model.Base Model.Cfg Spec.CfgSpec Proofs.TextProofs
  Proofs.CfgGraph Proofs.CfgSem Proofs.CfgBuild Proofs.CfgReach Proofs.CfgReason Proofs.CfgComplete Proofs.CfgCause Proofs.CfgStraight Proofs.CfgWitness.
Import ListNotations.

(** C23: whatever functions other than the stopping ones do, however often loops run and whatever
    conditions evaluate to, a statement that starts executing does not begin in a reported range.
    Missing: bodies in which the word [return] stands alone (refuted below). *)
Theorem C23_unreachable_never_executes_partial : forall stopping cs body n rep,
  respects stopping cs -> well_ranged body -> no_bare_return body ->
  executed cs body n -> In rep (unreachable_code stopping body) -> ~ begins_in n (fst rep).
Proof. exact unreachable_code_sound. Qed.
Print Assumptions C23_unreachable_never_executes_partial.

Theorem C23_unreachable_top_level_never_executes_partial : forall stopping cs l n rep,
  respects stopping cs -> well_ranged_top l -> Forall no_bare_return l ->
  executed_top cs l n -> In rep (unreachable_code_top_level stopping l) -> ~ begins_in n (fst rep).
Proof. exact unreachable_code_top_sound. Qed.
Print Assumptions C23_unreachable_top_level_never_executes_partial.

(** C23: `function() { return; y }` runs [y] (in R, [return] alone is a variable), yet [y] is reported. *)
Theorem C23_bare_return_refuted : exists stopping cs body n rep,
  respects stopping cs /\ well_ranged body /\ executed cs body n /\
  In rep (unreachable_code stopping body) /\ begins_in n (fst rep).
Proof.
  exists [lit "stop"], base_calls, bare_body, (Simple (Rg 21 22)), (Rg 21 22, AfterReturn).
  split; [exact base_respects|]. split; [now apply rangedb_ok|]. split; [apply bare_executed|].
  split; [vm_compute; auto|]. unfold begins_in. cbn. lia.
Qed.
Print Assumptions C23_bare_return_refuted.

(** C23: the depth-first search visits exactly the blocks that a path of edges reaches. *)
Theorem C23_search_exact : forall g i, In i (find_reachable g) <-> path g entry i.
Proof. exact find_reachable_exact. Qed.
Print Assumptions C23_search_exact.

Example C23_hypotheses_met :
  respects [lit "stop"] base_calls /\ well_ranged ex_body /\ no_bare_return ex_body /\
  executed base_calls ex_body ex_stop /\
  unreachable_code [lit "stop"] ex_body
    = [(Rg 39 40, AfterBreak); (Rg 64 65, AfterReturn); (Rg 81 82, AfterBranchTerminating)].
Proof.
  split; [exact base_respects|]. split; [now apply rangedb_ok|]. split; [now apply no_returnb_ok|].
  split; [exact ex_executed|]. vm_compute. reflexivity.
Qed.

(** C40: statements after a [return()], a stopping call, a [break] or a [next] in the same braces
    are reported, wherever the braces are in the function. *)
Theorem C40_code_after_exit_is_reported : forall stopping body in_loop l pre d post n,
  well_ranged body -> sequence false body in_loop l ->
  l = pre ++ d :: post -> diverges stopping in_loop d -> In n post ->
  exists rep, In rep (unreachable_code stopping body) /\ begins_in n (fst rep).
Proof. exact unreachable_code_complete. Qed.
Print Assumptions C40_code_after_exit_is_reported.

Example C40_hypotheses_met :
  well_ranged ex_body /\ sequence false ex_body true [ex_u; ex_break; ex_v] /\
  diverges [lit "stop"] true ex_break /\
  sequence false ex_body false [ex_ret; ex_w] /\ diverges [lit "stop"] false ex_ret.
Proof.
  split; [now apply rangedb_ok|]. split.
  { eapply seq_in; [now left|]. apply inner_for, seq_here. }
  split; [now constructor|]. split.
  { eapply seq_in; [right; now left|]. apply inner_then, seq_here. }
  apply (div_call _ _ _ _ (lit "return")); try discriminate; [|now left].
  split; [|now left]. intros pre post H.
  assert (N : ~ In 58%N (lit "return")) by (cbv; intuition discriminate).
  apply N. rewrite H. apply in_or_app. right. apply in_or_app. left. now left.
Qed.

(** C41: the never-taken branch of `if (FALSE) x else return(1)` is not reported as such: the
    message says that a preceding if/else terminates in all branches. *)
Definition dead_then := Simple (Rg 24 25).
Definition dead_body := If (Rg 12 40) CFalse dead_then (Some (Call (Rg 31 40) (lit "return"))).
Theorem C41_reason_of_dead_branch_refuted :
  exists stopping body r t e, body = If r CFalse t (Some e) /\ well_ranged body /\
    unreachable_code stopping body = [(rng t, AfterBranchTerminating)].
Proof.
  exists [lit "stop"], dead_body, (Rg 12 40), dead_then, (Call (Rg 31 40) (lit "return")).
  split; [reflexivity|]. split; [now apply rangedb_ok|]. vm_compute. reflexivity.
Qed.
Print Assumptions C41_reason_of_dead_branch_refuted.

(** C41: the statement that a message mentions is there: a report saying that the code comes after a
    return (break, next, call of a stopping function, if) is only made in a function that contains
    one.
    Missing: that the statement precedes the reported code, and the other two messages. *)
Theorem C41_mentioned_statement_exists_partial : forall stopping body rep,
  In rep (unreachable_code stopping body) -> about_statement (snd rep) ->
  exists d, descendant body d /\ cause stopping (snd rep) d.
Proof. exact cause_exists. Qed.
Print Assumptions C41_mentioned_statement_exists_partial.
(** C41: the same outside of functions, where moreover nothing is reported for coming after a return
    (a return outside of a function is an error of its own). *)
Theorem C41_mentioned_statement_exists_top_level_partial : forall stopping l rep,
  In rep (unreachable_code_top_level stopping l) ->
  snd rep <> AfterReturn /\ snd rep <> NoPathFromEntry /\
  (about_statement (snd rep) -> exists s d, In s l /\ descendant s d /\ cause stopping (snd rep) d).
Proof.
  intros stopping l rep H. split; [|split].
  - intros E. unfold unreachable_code_top_level in H. apply filter_In in H as (_ & H). rewrite E in H. discriminate.
  - intros E. unfold unreachable_code_top_level in H. apply filter_In in H as (_ & H). rewrite E in H. discriminate.
  - intros A. eapply cause_exists_top; eauto.
Qed.
Print Assumptions C41_mentioned_statement_exists_top_level_partial.
Example C41_hypotheses_met :
  In (Rg 39 40, AfterBreak) (unreachable_code [lit "stop"] ex_body) /\ about_statement AfterBreak /\
  unreachable_code_top_level [lit "stop"] [Call (Rg 0 6) (lit "stop"); Simple (Rg 7 8)] = [(Rg 7 8, AfterStop)].
Proof. vm_compute. auto. Qed.

(** C41: where no condition of an if is constant, a report begins with the statement right after the one
    that its message mentions, in the same braces: a return, a stopping call or (in a loop) a break or a
    next; or an if/else with one of these in each branch.  In the last case the message is that the if/else
    terminates in all branches, or that the code is in a branch that is never executed (see below). *)
Theorem C41_report_follows_its_cause_partial : forall stopping body rep,
  well_ranged body -> no_constant_if body -> In rep (unreachable_code stopping body) ->
  exists in_loop l d n,
    sequence false body in_loop l /\ adjacent l d n /\ r_start (fst rep) = r_start (rng n) /\
    (leaves_here stopping in_loop (snd rep) d \/
     (exists r c t e, d = If r c t (Some e)) /\ blocked stopping in_loop d /\
     (snd rep = AfterBranchTerminating \/ snd rep = DeadBranch)).
Proof. exact explained. Qed.
Print Assumptions C41_report_follows_its_cause_partial.
Theorem C41_report_follows_its_cause_top_level_partial : forall stopping stmts rep,
  well_ranged_top stmts -> Forall no_constant_if stmts -> In rep (unreachable_code_top_level stopping stmts) ->
  exists in_loop l d n,
    (in_loop = false /\ l = stmts \/ exists s, In s stmts /\ inner false s in_loop l) /\
    adjacent l d n /\ r_start (fst rep) = r_start (rng n) /\
    (leaves_here stopping in_loop (snd rep) d \/
     (exists r c t e, d = If r c t (Some e)) /\ blocked stopping in_loop d /\
     (snd rep = AfterBranchTerminating \/ snd rep = DeadBranch)).
Proof. exact explained_top. Qed.
Print Assumptions C41_report_follows_its_cause_top_level_partial.
(** C41: after an if/else that always leaves, with plain statements before it: one report, for all the
    rest of the function, saying so. *)
Theorem C41_after_leaving_if_partial : forall stopping ro before ri c t e n rest,
  Forall (carries_on stopping) before -> undecided c -> always_leaves stopping true t -> always_leaves stopping true e ->
  unreachable_code stopping (Block ro (before ++ If ri c t (Some e) :: n :: rest)) =
    [(cover (rng n) (rng (last rest n)), AfterBranchTerminating)].
Proof. exact after_if. Qed.
Print Assumptions C41_after_leaving_if_partial.
Example C41_after_leaving_if_met : let stopping := [lit "stop"] in
  carries_on stopping (Simple (Rg 2 3)) /\ undecided COther /\
  always_leaves stopping true (Block (Rg 10 30) [Simple (Rg 12 13); Return (Rg 14 20)]) /\
  always_leaves stopping true (If (Rg 36 60) COther (Return (Rg 40 46)) (Some (Block (Rg 50 60) [Return (Rg 51 57)]))).
Proof.
  assert (U : undecided COther) by (split; constructor). split; [exact Logic.I|]. split; [exact U|]. split.
  - apply (al_braces _ _ [Simple (Rg 12 13)]); [repeat constructor|constructor].
  - apply al_if; [exact U|constructor|]. apply (al_braces _ _ []); constructor.
Qed.
(** C41: with a constant condition it is false: in [if (TRUE) return(1); repeat { x; if (c) next; y }], [x] is
    said to appear after a next, and the only next comes after it. *)
Theorem C41_before_the_next_refuted : exists stopping body rep,
  well_ranged body /\ In rep (unreachable_code stopping body) /\ snd rep = AfterNext /\
  forall d, descendant body d -> cause stopping AfterNext d -> r_end (fst rep) < r_start (rng d).
Proof.
  exists [lit "stop"], next_body, (Rg 43 44, AfterNext). split; [now apply rangedb_ok|].
  split; [vm_compute; auto|]. split; [reflexivity|]. intros d D K.
  apply desc_all in D. cbn [next_body all_desc flat_map app] in D.
  cbn [In] in D. repeat (destruct D as [<-|D]; [try (exfalso; inversion K; fail)|]); [| |destruct D].
  - exfalso. assert (U : unqualified (lit "return") (lit "next")) by now inversion K. destruct U as (_ & [U|(ns & U)]); [discriminate U|].
    assert (E : rev (lit "return") = rev (ns ++ lit "::" ++ lit "next")) by now rewrite U.
    rewrite !rev_app_distr in E. discriminate E.
  - cbn [rng fst r_start r_end]. lia.
Qed.
Print Assumptions C41_before_the_next_refuted.
(** C41: code is said to be in a branch that is never executed though no condition is constant: [x] in
    [while (c) { if (a) break else next; x }], and [z] in
    [if (c) { for (i in x) y; return(1) } else return(2); z]. *)
Theorem C41_never_executed_branch_refuted : exists stopping body rep,
  well_ranged body /\ no_constant_if body /\ In rep (unreachable_code stopping body) /\ snd rep = DeadBranch.
Proof.
  exists [lit "stop"], both_body, (Rg 49 50, DeadBranch). split; [now apply rangedb_ok|]. split; [now apply openb_ok|].
  split; [vm_compute; auto|reflexivity].
Qed.
Print Assumptions C41_never_executed_branch_refuted.
Theorem C41_terminating_if_refuted : exists stopping body r c t e n,
  body = Block (Rg 11 70) [If r c t (Some e); n] /\
  well_ranged body /\ no_constant_if body /\ blocked stopping false t /\ blocked stopping false e /\
  unreachable_code stopping body = [(rng n, DeadBranch)].
Proof.
  exists [lit "stop"], loop_body, (Rg 13 65), COther,
    (Block (Rg 20 50) [For (Rg 22 37) (Simple (Rg 36 37)); Call (Rg 39 48) (lit "return")]), (Call (Rg 56 65) (lit "return")), (Simple (Rg 67 68)).
  assert (R : forall r, blocked [lit "stop"] false (Call r (lit "return"))).
  { intros r. apply (bl_here _ _ AfterReturn). split; [|split; [discriminate|intros [?|?]; discriminate]].
    constructor. split; [|now left]. intros pre post H.
    assert (N : ~ In 58%N (lit "return")) by (cbv; intuition discriminate).
    apply N. rewrite H. apply in_or_app. right. apply in_or_app. left. now left. }
  split; [reflexivity|]. split; [now apply rangedb_ok|]. split; [now apply openb_ok|].
  split; [eapply bl_braces; [right; now left|apply R]|]. split; [apply R|]. vm_compute. reflexivity.
Qed.
Print Assumptions C41_terminating_if_refuted.
(** Cases the hypotheses meet. *)
Example C41_positions_met :
  well_ranged nested_body /\ no_constant_if nested_body /\
  unreachable_code [lit "stop"] nested_body = [(Rg 70 71, AfterBranchTerminating)] /\
  well_ranged ex_body /\ no_constant_if ex_body.
Proof.
  split; [now apply rangedb_ok|]. split; [now apply openb_ok|]. split; [vm_compute; reflexivity|].
  split; [now apply rangedb_ok|now apply openb_ok].
Qed.
