(** All the rules together: what is reported in a file is exactly what the rules are meant to report. *)
From Verif Require Import Spec.RFlagged Proofs.RSearchProofs Proofs.RStopsProofs Proofs.RFlaggedProofs
  Proofs.RFlaggedCompare Proofs.RFlaggedCalls Proofs.RFlaggedMore Proofs.RFlaggedTestthat
  Proofs.RFlaggedRest Proofs.RFlaggedLast Proofs.RFlaggedEnd Proofs.RFlaggedSprintf.

Definition reports (rule : rule_fn) (fs : list frame) (e : expr) : Prop :=
  exists rs r, rule fs e = ROk rs /\ In r rs.
Lemma total_reports : forall f (P : list frame -> expr -> Prop) fs e, (some (f fs e) <-> P fs e) -> (reports (total f) fs e <-> P fs e).
Proof.
  intros f P fs e H. rewrite <- H. unfold reports, total, some. split.
  - intros [rs [r [E I]]]. injection E as <-. destruct (f fs e) as [r'|]; [eauto|destruct I].
  - intros [r E]. rewrite E. exists [r], r. split; [reflexivity|left; reflexivity].
Qed.
Lemma failing_reports : forall f (P : list frame -> expr -> Prop) fs e, (ok_some (f fs e) <-> P fs e) -> (reports (failing f) fs e <-> P fs e).
Proof.
  intros f P fs e H. rewrite <- H. unfold reports, failing, ok_some. split.
  - intros [rs [r [E I]]]. destruct (f fs e) as [[r'|]| |]; cbn in E; try discriminate E; injection E as <-; [eauto|destruct I].
  - intros [r E]. rewrite E. exists [r], r. split; [reflexivity|left; reflexivity].
Qed.

(** The two lists name the same rules in the same order. *)
Definition pairs (fs : list frame) (e : expr) (a : text * rule_fn) (b : text * (list frame -> expr -> Prop)) : Prop :=
  fst a = fst b /\ (reports (snd a) fs e <-> snd b fs e).
Lemma paired : forall s fs e, numerals e -> Forall2 (pairs fs e) (all_rules s) (meanings s).
Proof.
  intros s fs e N. unfold all_rules, meanings.
  repeat match goal with
  | |- Forall2 _ [] [] => constructor
  | |- Forall2 _ (_ :: _) (_ :: _) => constructor; [split; [reflexivity|cbn [snd]]|]
  end.
  all: try (apply total_reports with (P := fun fs e => _ fs e));
       try (apply failing_reports with (P := fun fs e => _ fs e)).
  1: apply all_equal_flags.
  1: apply any_duplicated_flags.
  1: apply any_is_na_flags.
  1: apply na_in_flags.
  1: apply assignment_flags.
  1: apply browser_flags.
  1: apply class_equals_flags.
  1: apply class_identical_flags.
  1: apply coalesce_flags.
  1: apply comparison_negation_flags.
  1: apply download_file_flags.
  1: apply duplicated_arguments_flags.
  1: apply empty_assignment_flags.
  1: apply equals_na_flags.
  1: apply equals_nan_flags.
  1: apply equals_null_flags.
  1: apply expect_length_flags.
  1: apply expect_match_flags.
  1: apply expect_named_flags.
  1: apply expect_no_match_flags.
  1: apply expect_not_flags.
  1: apply expect_null_flags.
  1: apply expect_s3_class_flags.
  1: apply expect_true_false_flags.
  1: apply expect_type_flags.
  1: apply fixed_regex_flags.
  1: apply for_loop_dup_index_flags.
  1: apply for_loop_index_flags.
  1: apply grepv_flags.
  1: apply if_always_true_flags; exact N.
  1: apply implicit_assignment_flags.
  1: apply internal_function_flags.
  1: apply is_numeric_flags.
  1: apply length_levels_flags.
  1: apply length_test_flags.
  1: apply lengths_flags.
  1: apply list2df_flags.
  1: apply matrix_apply_flags.
  1: apply numeric_leading_zero_flags.
  1: apply outer_negation_flags.
  1: apply redundant_equals_flags.
  1: apply redundant_ifelse_flags.
  1: apply repeat_flags.
  1: apply sample_int_flags.
  1: apply seq_flags.
  1: apply seq2_flags.
  1: apply sort_flags.
  1: apply sprintf_flags.
  1: apply string_boundary_flags.
  1: apply system_file_flags.
  1: apply true_false_flags.
  1: apply true_false_variable_flags.
  1: apply undesirable_flags.
  1: apply unnecessary_nesting_flags.
  2: apply vector_logic_flags.
  2: apply which_grepl_flags.
  unfold reports. split.
  - intros [rs [r [E I]]]. destruct rs as [|r' rs]; [destruct I|eauto].
  - intros [r [rs E]]. exists (r :: rs), r. split; [exact E|left; reflexivity].
Qed.

Lemma forall2_exists : forall {A B} (R : A -> B -> Prop) l m, Forall2 R l m ->
  (forall a, In a l -> exists b, In b m /\ R a b) /\ (forall b, In b m -> exists a, In a l /\ R a b).
Proof.
  induction 1 as [|a b l m Rab F [I J]]; split; intros x H.
  - destruct H.
  - destruct H.
  - destruct H as [ <- |H]; [exists b; split; [left; reflexivity|exact Rab]|].
    destruct (I x H) as [y [K L]]. exists y. split; [right; exact K|exact L].
  - destruct H as [ <- |H]; [exists a; split; [left; reflexivity|exact Rab]|].
    destruct (J x H) as [y [K L]]. exists y. split; [right; exact K|exact L].
Qed.
Theorem fires_iff : forall s n fs e, numerals e -> ((exists r, fires s n fs e r) <-> meant s n fs e).
Proof.
  intros s n fs e N. destruct (forall2_exists _ _ _ (paired s fs e N)) as [A B]. unfold fires, meant. split.
  - intros [r [O [rule [rs [I [E R]]]]]]. split; [exact O|].
    destruct (A _ I) as [[n' m] [J [K L]]]. cbn in K, L. subst n'. exists m. split; [exact J|]. apply L. exists rs, r. split; assumption.
  - intros [O [m [I M]]]. destruct (B _ I) as [[n' rule] [J [K L]]]. cbn in K, L. subst n'.
    apply L in M. destruct M as [rs [r [E R]]]. exists r. split; [exact O|]. exists rule, rs. repeat split; assumption.
Qed.
Theorem reported_iff : forall s p ds, only_functions (unreachable s) -> (forall e, In e p -> numerals e) ->
  check_file s p = ROk ds -> forall i n, (exists r, In (i, (n, r)) ds) <->
    exists e fs x, nth_error p i = Some e /\ plug fs x = e /\ reached fs x /\ meant s n fs x.
Proof.
  intros s p ds U N C i n. split.
  - intros [r I]. apply (proj1 (check_file_exact s p ds U C i n r)) in I. destruct I as [e [fs [x [E [P [R F]]]]]].
    exists e, fs, x. split; [exact E|]. split; [exact P|]. split; [exact R|]. apply fires_iff; [|exists r; exact F].
    apply (plug_numerals fs); rewrite P; apply N; exact (nth_error_In _ _ E).
  - intros [e [fs [x [E [P [R M]]]]]]. apply fires_iff in M.
    + destruct M as [r F]. exists r. apply (check_file_exact s p ds U C i n r). exists e, fs, x.
      split; [exact E|]. split; [exact P|]. split; [exact R|exact F].
    + apply (plug_numerals fs); rewrite P; apply N; exact (nth_error_In _ _ E).
Qed.
