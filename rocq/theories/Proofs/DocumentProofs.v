From Verif Require Import Model.Text Model.Base Model.Rules Model.Directive Model.Fix Model.Driver Model.Suppress Model.Document
  Spec.DirectiveSpec Spec.SuppressSpec Spec.DocumentSpec Proofs.TextProofs Proofs.RulesProofs Proofs.DirectiveProofs
  Proofs.SuppressProofs Proofs.SuppressFilter Proofs.SuppressMain Proofs.SuppressOrder Proofs.SuppressWitness.

Theorem document_exact src n m enabled exprs unreachable dups unused :
  in_source src n -> from_node n src = Some m ->
  exists keep m', (forall d, keep d = true <-> ~ covered (visits src n true 0) d) /\
    check_document enabled m exprs unreachable dups unused =
      filter keep (document_diags enabled m exprs unreachable dups unused)
      ++ (if enabled R_OutdatedSuppression then map (comment_diag R_OutdatedSuppression) (get_unused m') else []) /\
    forall c, In c (get_unused m') <-> in_effect m c /\
      forall d, In d (document_diags enabled m exprs unreachable dups unused) -> ~ credited m d c.
Proof.
  intros Hs Hm. unfold check_document.
  destruct (filter_diagnostics m (document_diags enabled m exprs unreachable dups unused)) as [m' kept] eqn:F.
  destruct (filter_exact src n m Hs Hm _ _ _ F) as (keep & Hk & ->).
  exists keep, m'. split; auto. split; [reflexivity|]. intros c. now apply (outdated_exact src n m Hs Hm _ _ _ c F).
Qed.

(** A problem with a comment is reported, if its rule is enabled, unless it is itself suppressed. *)
Lemma problem_in enabled m exprs unreachable dups unused c r : problem m c r -> enabled r = true ->
  In (comment_diag r c) (document_diags enabled m exprs unreachable dups unused).
Proof.
  unfold document_diags, when_enabled. rewrite !in_app_iff.
  intros [H|H|H|H|H|H|H|H] ->.
  - do 2 right. left. now apply in_map.
  - do 3 right. left. now apply in_map.
  - do 8 right. left. apply in_or_app. left. now apply in_map.
  - do 8 right. left. apply in_or_app. right. now apply in_map.
  - do 4 right. left. now apply in_map.
  - do 5 right. left. now apply in_map.
  - do 6 right. left. now apply in_map.
  - do 7 right. left. now apply in_map.
Qed.
Theorem problem_reported src n m enabled exprs unreachable dups unused c r :
  in_source src n -> from_node n src = Some m -> problem m c r -> enabled r = true ->
  In (comment_diag r c) (check_document enabled m exprs unreachable dups unused) \/
  covered (visits src n true 0) (comment_diag r c).
Proof.
  intros Hs Hm Hp He. destruct (document_exact src n m enabled exprs unreachable dups unused Hs Hm) as (keep & m' & Hk & -> & _).
  pose proof (problem_in enabled m exprs unreachable dups unused c r Hp He) as Hin.
  destruct (keep (comment_diag r c)) eqn:K.
  - left. apply in_or_app. left. now apply filter_In.
  - right. pose proof (match_none _ m (from_node_describes src n m Hs Hm) (comment_diag r c)) as M.
    destruct (first_match m (comment_diag r c)) as [x|] eqn:F.
    + rewrite first_match_entries in F. destruct (find (entry_covers (comment_diag r c)) (entries m)) as [e|] eqn:E; [|discriminate].
      apply find_some in E. destruct E as (E1 & E2). destruct (entry_sound _ m (from_node_describes src n m Hs Hm) _ _ E1 E2) as (v & Hv & _).
      now exists v.
    + assert (keep (comment_diag r c) = true) by (apply Hk, M; reflexivity). congruence.
Qed.

(** A suppression of a rule that is not run is reported as outdated. *)
Definition only_outdated (r : rule) : bool := rule_eqb r R_OutdatedSuppression.
Definition file5 := lit "# jarl-ignore any_is_na: reason" ++ [nl] ++ c3 ++ [nl].
Definition tree5 : node :=
  Node (0, blen file5) false [] [] []
    [Node (0, blen file5) false [] [] []
      [leaf (lit "# jarl-ignore any_is_na: reason" ++ [nl]) c3 [after [] (lit "# jarl-ignore any_is_na: reason")]]].
Definition lint5 (r : rule) : list diag :=
  match r with R_AnyIsNa => [diag_at R_AnyIsNa (lit "# jarl-ignore any_is_na: reason" ++ [nl]) c3] | _ => [] end.
Theorem outdated_disabled_refuted : exists src n m lint enabled c,
  in_source src n /\ from_node n src = Some m /\
  (forall r d, In d (lint r) -> d_rule d = rule_name r) /\
  In (comment_diag R_OutdatedSuppression c) (check_document enabled m (lints_of lint enabled) [] [] []) /\
  ~ In (comment_diag R_OutdatedSuppression c) (check_document (fun _ => true) m (lints_of lint (fun _ => true)) [] [] []) /\
  (exists d, In d (check_document (fun _ => true) (without [c] m) (lints_of lint (fun _ => true)) [] [] []) /\ In d (lint R_AnyIsNa)).
Proof.
  exists file5, tree5. eexists. exists lint5, only_outdated, (0, blen (lit "# jarl-ignore any_is_na: reason")).
  split; [apply in_source_b_ok; vm_compute; reflexivity|]. split; [vm_compute; reflexivity|].
  split; [intros [] d; cbn; intros H; try (destruct H; fail); destruct H as [<-|[]]; reflexivity|].
  split; [vm_compute; auto|]. split; [vm_compute; tauto|].
  eexists. split; [vm_compute; left; reflexivity|]. vm_compute. auto.
Qed.

(** A file-level suppression is accepted after an opening brace. *)
Definition fb := lit "# jarl-ignore-file any_is_na: reason".
Definition file6 := lit "{" ++ [nl] ++ fb ++ [nl] ++ lit "x" ++ [nl] ++ lit "}" ++ [nl] ++ c3 ++ [nl].
Definition tree6 : node :=
  Node (0, blen file6) false [] [] []
    [Node (0, blen file6) false [] [] []
      [Node (0, 41) true [] [] []
        [Node (0, 41) false [] [] [] [leaf (lit "{" ++ [nl] ++ fb ++ [nl]) (lit "x") [after (lit "{" ++ [nl]) fb]]];
       leaf (lit "{" ++ [nl] ++ fb ++ [nl] ++ lit "x" ++ [nl] ++ lit "}" ++ [nl]) c3 []]].
Theorem file_after_code_refuted : exists src n m a b s,
  in_source src n /\ from_node n src = Some m /\ In s (m_files m) /\
  src = a ++ b /\ blen a = fst (w_comment s) /\ ~ no_code a.
Proof.
  exists file6, tree6. eexists. exists (lit "{" ++ [nl]), (fb ++ [nl] ++ lit "x" ++ [nl] ++ lit "}" ++ [nl] ++ c3 ++ [nl]), (Wide R_AnyIsNa (2, 2 + blen fb)).
  split; [apply in_source_b_ok; vm_compute; reflexivity|]. split; [vm_compute; reflexivity|].
  split; [vm_compute; auto|]. split; [reflexivity|]. split; [reflexivity|]. vm_compute. discriminate.
Qed.

(** A rule name forgotten in [# jarl-ignore-file], [-start] or [-end] goes unnoticed. *)
Theorem forgotten_rule_refuted : forall k, k = KFile \/ k = KStart \/ k = KEnd ->
  parse_comment_directive (lit "# " ++ keyword k) = None /\
  parse_comment_directive (lit "# " ++ keyword k ++ lit ": a reason") = None.
Proof. intros k [->|[->| ->]]; vm_compute; auto. Qed.
Theorem forgotten_rule_blanket : forall k w tail, k = KIgnore \/ k = KChunk -> blank w ->
  tail = [] \/ (exists x, tail = lit ":" ++ x) \/ (exists x, tail = lit " :" ++ x) ->
  parse_comment_directive (w ++ lit "# " ++ keyword k ++ tail) = Some PBlanket.
Proof.
  intros k w tail Hk Hw Ht. apply parse_blanket. exists k, w, (lit "# "), tail. split; auto. split; auto.
  split; [left; left; reflexivity|]. auto.
Qed.
