(** Several fixes at once, and whole fixing runs (C86). *)
From Verif Require Import Spec.RPass Spec.RMore Spec.RWellFormed Proofs.TextProofs Proofs.RParse Proofs.RFuel Proofs.RAlike Proofs.FixProofs Proofs.DriverProofs Proofs.ExtensionProofs Proofs.WholeProofs Proofs.PassProofs Proofs.PassExample.
From Verif Require Import Proofs.LintSyntax Proofs.LintFixes Proofs.LintLogic Proofs.LintMore Proofs.LintAssign Proofs.FileRefute.
From Verif Require Import Proofs.LintNested.

(** ** C86: fixes that are harmless one by one are harmless together *)
(** Any number of expressions of the file are replaced at once, each by one that may replace it, at
    byte positions of the original text.  Then R can read the new text, and it does the same thing. *)
Theorem C86_several_fixes : forall P t t' p eds,
  reads_text t p -> Forall (edit_ok P t) eds -> Splice 0 (map e_fix eds) t t' -> harmless_text P t t'.
Proof. exact pass_harmless. Qed.
Print Assumptions C86_several_fixes.

(** One pass of jarl, and all the passes of a run, for a linter whose fixes are good on the texts of the run. *)
Theorem C86_pass_partial : forall P lint p t sk t', pass lint p t sk t' -> readable t ->
  (forall ds, lint p t = Some ds -> good_fixes P t (map d_fix ds)) -> harmless_text P t t'.
Proof. exact one_pass_harmless. Qed.
Print Assumptions C86_pass_partial.
Theorem C86_run_partial : forall P lint writable n p fs fs' ds t,
  check_path lint writable n true p fs = (fs', Some (Ok ds)) -> ~ document_path p -> fs p = Some t -> readable t ->
  (forall c ds, visited lint p t c -> lint p c = Some ds -> good_fixes P c (map d_fix ds)) ->
  exists t', fs' p = Some t' /\ harmless_text P t t'.
Proof.
  intros P lint w n p fs fs' ds t H D F Rd G. apply fix_ok in H as (_ & c0 & c & H1 & H2 & _ & H4).
  rewrite <- has_rmd_iff in D. apply Bool.not_true_is_false in D. rewrite D in H4. cbn in H4. rewrite F in H1. injection H1 as <-.
  exists c. split; [exact H2|]. exact (run_harmless P lint p t c H4 Rd G).
Qed.
Print Assumptions C86_run_partial.

(** The fixes of C58 to C63, C66 and C67 may be made, under the same conditions, wherever the surroundings look the
    same: so they can be made together. *)
Theorem C86_comparison_negation : forall p e r nl c x y,
  node_of_file p e -> comparison_negation (frames p) e = Some r ->
  e = EUn UNot (EParen (EBin c nl x y)) ->
  loose_left (left_op (frames p)) = true -> loose_right (right_op (frames p)) = true ->
  right_op (frames p) = None \/ swallows y = false ->
  enclosed (frames p) = true \/ breaks x = false /\ breaks y = false ->
  fix_replaceable (fun I => yields I x plain /\ yields I y plain) r.
Proof. intros. eapply both_replaceable, comparison_negation_harmless; eauto. Qed.
Print Assumptions C86_comparison_negation.
Theorem C86_outer_negation : forall p e r f x,
  node_of_file p e -> outer_negation (frames p) e = Some r ->
  e = ECall f [(None, Some (EUn UNot x))] -> loose_right (right_op (frames p)) = true ->
  assigned (frames p) = false -> pipe_target (frames p) = false ->
  fix_replaceable (fun I => yields I x numeric_like) r.
Proof. intros. eapply both_replaceable, outer_negation_harmless; eauto. Qed.
Print Assumptions C86_outer_negation.
Theorem C86_redundant_ifelse : forall p e r f n args formals x,
  node_of_file p e -> redundant_ifelse (frames p) e = Some r ->
  e = ECall f args -> fname f = Some n -> conditional n formals ->
  assigned (frames p) = false -> callee (frames p) = false -> pipe_target (frames p) = false ->
  r_args formals args = Some [Some x; Some (EAtom ATrue); Some (EAtom AFalse)] ->
  enclosed (frames p) = true \/ breaks x = false ->
  primary x = true \/ free_left (left_op (frames p)) = true /\ right_op (frames p) = None ->
  fix_replaceable (fun I => yields I x logical) r.
Proof.
  intros p e r f n args formals x H Hr He Hf. pose proof (fname_name _ _ Hf) as Hn. subst n.
  intros. eapply both_replaceable, redundant_ifelse_harmless; eauto.
Qed.
Print Assumptions C86_redundant_ifelse.
Theorem C86_any_is_na : forall p e r x fs' e',
  node_of_file p e -> any_is_na (frames p) e = Some r ->
  nested_form (lit "any") (lit "is.na") (frames p) e fs' e' x ->
  assigned fs' = false -> pipe_target fs' = false -> fix_replaceable (fun _ => True) r.
Proof. intros. eapply both_replaceable, any_is_na_harmless; eauto. Qed.
Print Assumptions C86_any_is_na.
Theorem C86_any_duplicated : forall p e r x fs' e',
  node_of_file p e -> any_duplicated (frames p) e = Some r ->
  nested_form (lit "any") (lit "duplicated") (frames p) e fs' e' x ->
  loose_left (left_op fs') = true -> loose_right (right_op fs') = true ->
  assigned fs' = false -> fix_replaceable (fun _ => True) r.
Proof. intros. eapply both_replaceable, any_duplicated_harmless; eauto. Qed.
Print Assumptions C86_any_duplicated.
Theorem C86_coalesce : forall p e r x y,
  node_of_file p e -> coalesce (frames p) e = Some r -> null_default e x y ->
  primary x = true -> primary y = true -> (forall z, y <> EBraces [z]) ->
  looser_than_special (left_op (frames p)) = true ->
  enclosed (frames p) = true \/ breaks x = false /\ breaks y = false ->
  fix_replaceable (fun I => pure I x) r.
Proof. intros. eapply both_replaceable, coalesce_harmless; eauto. Qed.
Print Assumptions C86_coalesce.
Theorem C86_true_false : forall p e r,
  node_of_file p e -> true_false_symbol (frames p) e = Some r ->
  assigned (frames p) = false -> fix_replaceable usual_T_F r.
Proof. intros. eapply both_replaceable, true_false_harmless; eauto. Qed.
Print Assumptions C86_true_false.
Theorem C86_equals_to_arrow : forall p nl x v r,
  let e := EBin BEq nl x v in
  node_of_file p e -> assignment true (frames p) e = Some r ->
  primary x = true -> (forall nl' a b, v <> EBin BEq nl' a b) -> fix_replaceable (fun _ => True) r.
Proof. intros. eapply both_replaceable, equals_to_arrow_harmless; eauto. Qed.
Print Assumptions C86_equals_to_arrow.
Theorem C86_unnecessary_nesting : forall p c1 c2 t r,
  let e := EIf c1 (EBraces [EIf c2 t None]) None in
  node_of_file p e -> unnecessary_nesting (frames p) e = Some r ->
  fix_replaceable (fun I =>
    yields I c1 (fun v => not_string v /\ cond I v <> None) /\ yields I c2 not_string) r.
Proof. intros. eapply both_replaceable, unnecessary_nesting_harmless; eauto. Qed.
Print Assumptions C86_unnecessary_nesting.

(** [jarl check --fix --select any_is_na] on a file with three findings, of which the second is too close to the
    first: two passes. *)
Example C86_hypotheses_met : forall unreach p, exists c o,
  run_with (lit "any_is_na") c o /\ readable ex0 /\
  (let lint := fun (_ : path) t => get_checks c o unreach t in
   forall d ds, visited lint p ex0 d -> lint p d = Some ds -> good_fixes (fun _ => True) d (map d_fix ds)) /\
  fixed_into (lit "any_is_na") ex0 ex2 (Ok []).
Proof.
  intros u p. exists c_na, o0. split; [split; vm_compute; reflexivity|]. split; [reading|]. split.
  - destruct (lint0 u) as (ds0 & L0 & E0). destruct (lint1 u) as (ds1 & L1 & E1).
    exact (good_run (fun _ t => get_checks c_na o0 u t) p ds0 ds1 L0 E0 L1 E1 (lint2 u)).
  - intros c o u' q R X. apply run_na in R. destruct R as [-> ->]. destruct (lint0 u') as (ds0 & L0 & E0). destruct (lint1 u') as (ds1 & L1 & E1).
    eapply fixed_more; [exact X|reflexivity|exact L0|rewrite E0; exact apply0|].
    eapply fixed_once; [exact X|reflexivity|exact L1|rewrite E1; exact apply1|rewrite (lint2 u'); reflexivity].
Qed.
