(** What fixes mention, for a whole file and for all the rules. *)
From Verif Require Import Spec.RMention Proofs.TextProofs Proofs.RContext Proofs.MentionProofs Proofs.MentionRules Proofs.MentionKeep.

Lemma edited_mentions : forall t p c, mentions t (edited p c) = mentions t (edited p []) + mentions t c.
Proof. intros t p c. unfold edited. rewrite !mentions_app. cbn [app mentions]. lia. Qed.
Lemma tame_file : forall t p e r c, tame t (frames p) e r -> new_text r = Some c ->
  mentions t (edited (fix_place p r) c) <= mentions t (edited p (toks e)).
Proof.
  intros t p e r c [E T] Hc. specialize (T c Hc).
  assert (Q : edited p (toks e) = edited (fix_place p r) (toks (at_node r))).
  { rewrite !edited_toks. unfold file_with, fix_place. cbn [before frames after]. rewrite E. reflexivity. }
  rewrite Q, (edited_mentions t _ c), (edited_mentions t _ (toks _)). lia.
Qed.
Lemma listed_in : forall o r, In r (listed o) -> o = Some r.
Proof. intros [a|] r H; cbn in H; [destruct H as [->|[]]; reflexivity|destruct H]. Qed.
Lemma total_in_rs : forall f fs e rs r, total f fs e = ROk rs -> In r rs -> f fs e = Some r.
Proof. intros f fs e rs r H I. unfold total in H. injection H as <-. apply listed_in, I. Qed.
Lemma failing_in_rs : forall f fs e rs r, failing f fs e = ROk rs -> In r rs -> f fs e = ROk (Some r).
Proof. intros f fs e rs r H I. unfold failing in H. destruct (f fs e) as [o| |]; cbn in H; try discriminate. injection H as <-. apply listed_in in I. rewrite I. reflexivity. Qed.

(** Rules without a fix. *)
Lemma silent : forall t fs e (o : option report) r, (o = None \/ o = reported fs e) -> o = Some r -> tame t fs e r.
Proof. intros t fs e o r [-> | ->] H; [discriminate|]. unfold reported in H. apply some_inj in H. rewrite H. apply tame_none. Qed.
Lemma browser_quiet : forall fs e, browser fs e = None \/ browser fs e = reported fs e.
Proof. intros fs e. unfold browser. destruct e; auto. destruct (teqb _ _); auto. Qed.
Lemma undesirable_quiet : forall l fs e, undesirable_function l fs e = None \/ undesirable_function l fs e = reported fs e.
Proof. intros l fs e. unfold undesirable_function. destruct e; auto. destruct (mem _ _); auto. Qed.
Lemma internal_quiet : forall fs e, internal_function fs e = None \/ internal_function fs e = reported fs e.
Proof. intros fs e. unfold internal_function. destruct e as [[| | | | | | |p [] m|]| | | | | | | | | | | |]; auto. Qed.
Lemma download_quiet : forall fs e, download_file fs e = None \/ download_file fs e = reported fs e.
Proof.
  intros fs e. unfold download_file. destruct e; auto. destruct (teqb _ _); auto. cbv zeta.
  match goal with |- context [if ?b then None else _] => destruct b; auto end.
  destruct (arg_value _) as [m|]; auto. destruct (str_in _ m); auto.
Qed.
Lemma empty_assignment_quiet : forall fs e, empty_assignment fs e = None \/ empty_assignment fs e = reported fs e.
Proof.
  intros fs e. unfold empty_assignment. destruct e as [| | |o nl l r| | | | | | | | |]; auto. destruct o; auto.
  - destruct (is_empty_block r); auto.
  - destruct (_ && _); auto.
  - destruct (_ && _); auto.
Qed.
Lemma implicit_quiet : forall l fs e, implicit_assignment l fs e = None \/ implicit_assignment l fs e = reported fs e.
Proof.
  intros l fs e. unfold implicit_assignment. destruct e; auto. destruct (negb (arrow_op o)); auto. cbv zeta.
  destruct (_ && _); auto. match goal with |- context [if ?b then None else _] => destruct b; auto end.
Qed.
Lemma for_loop_index_quiet : forall fs e, for_loop_index fs e = None \/ for_loop_index fs e = reported fs e.
Proof. intros fs e. unfold for_loop_index. destruct e; auto. destruct (contains_identifier _ _); auto. Qed.
Lemma for_loop_dup_index_quiet : forall fs e, for_loop_dup_index fs e = None \/ for_loop_dup_index fs e = reported fs e.
Proof. intros fs e. unfold for_loop_dup_index. destruct e; auto. destruct (existsb _ _); auto. Qed.
Lemma vector_logic_quiet : forall fs e, vector_logic fs e = None \/ vector_logic fs e = reported fs e.
Proof. intros fs e. unfold vector_logic. destruct e; auto. destruct o; auto; destruct (_ || _); auto; destruct (parent_is_condition fs); auto. Qed.
Lemma duplicated_tame : forall t l fs e r, duplicated_arguments l fs e = ROk (Some r) -> tame t fs e r.
Proof.
  intros t l fs e r H. unfold duplicated_arguments in H. destruct e; try discriminate. destruct (callee_text e); cbn [rbind] in H; try discriminate.
  destruct (_ || _); [discriminate|]. destruct (has_duplicate _); [|discriminate]. unfold reported in H. injection H as <-. apply tame_none.
Qed.
Lemma if_always_true_tame : forall t fs e r, if_always_true fs e = ROk (Some r) -> tame t fs e r.
Proof.
  intros t fs e r H. unfold if_always_true in H. destruct e as [| | | | | | |c a [|]| | | | |]; try discriminate.
  destruct (evaluate_constant_condition c) as [[[]|]| |]; cbn [rbind] in H; try discriminate. unfold reported in H. injection H as <-. apply tame_none.
Qed.

Lemma rule_tame : forall s n rule t, In (n, rule) (all_rules s) -> n <> lit "unreachable_code" -> punctuation t = false -> ~ adds n t ->
  forall fs e rs r, (n = lit "sample_int" -> first_or_named (lit "n") e) -> rule fs e = ROk rs -> In r rs -> tame t fs e r.
Proof.
  intros s n rule t I U P A fs e rs r F H R.
  assert (Ha : forall u, adds n u -> mentions t [u] = 0) by (intros u Hu; apply mentions_other; intros ->; contradiction).
  unfold all_rules in I. cbn [In] in I.
  repeat (destruct I as [I|I]; [injection I as <- <-; try (exfalso; apply U; reflexivity);
    first [apply (total_in_rs _ _ _ _ _ H) in R | apply (failing_in_rs _ _ _ _ _ H) in R];
    first [ solve [eapply all_equal_tame; eauto] | solve [eapply any_duplicated_tame; eauto] | solve [eapply any_is_na_tame; eauto] | solve [eapply any_is_na_2_tame; eauto]
          | solve [eapply assignment_tame; eauto] | solve [eapply silent; [apply browser_quiet|exact R]] | solve [eapply class_equals_tame; eauto] | solve [eapply class_identical_tame; eauto]
          | solve [eapply coalesce_tame; eauto] | solve [eapply comparison_negation_tame; eauto] | solve [eapply silent; [apply download_quiet|exact R]]
          | solve [eapply duplicated_tame; eauto] | solve [eapply silent; [apply empty_assignment_quiet|exact R]]
          | solve [eapply equals_na_tame; eauto] | solve [eapply equals_nan_tame; eauto] | solve [eapply equals_null_tame; eauto]
          | solve [eapply expect_length_tame; eauto] | solve [eapply (expect_grepl_tame t P _ Ha); [|exact R]; intros; constructor; auto]
          | solve [eapply expect_named_tame; eauto] | solve [eapply expect_not_tame; eauto]
          | solve [eapply expect_null_tame; eauto] | solve [eapply expect_s3_class_tame; eauto] | solve [eapply expect_true_false_tame; eauto] | solve [eapply expect_type_tame; eauto]
          | solve [eapply fixed_regex_tame; eauto] | solve [eapply silent; [apply for_loop_dup_index_quiet|exact R]] | solve [eapply silent; [apply for_loop_index_quiet|exact R]]
          | solve [eapply grepv_tame; eauto] | solve [eapply if_always_true_tame; eauto] | solve [eapply silent; [apply implicit_quiet|exact R]] | solve [eapply silent; [apply internal_quiet|exact R]]
          | solve [eapply is_numeric_tame; eauto] | solve [eapply length_levels_tame; eauto] | solve [eapply length_test_tame; eauto] | solve [eapply lengths_tame; eauto]
          | solve [eapply list2df_tame; eauto] | solve [eapply matrix_apply_tame; eauto] | solve [eapply numeric_leading_zero_tame; eauto] | solve [eapply outer_negation_tame; eauto]
          | solve [eapply redundant_equals_tame; eauto] | solve [eapply redundant_ifelse_tame; eauto] | solve [eapply repeat_tame; eauto] | solve [eapply sample_int_tame; eauto]
          | solve [eapply seq_tame; eauto] | solve [eapply seq2_tame; eauto] | solve [eapply sort_tame; eauto] | solve [eapply sprintf_tame; eauto]
          | solve [eapply string_boundary_tame; eauto] | solve [eapply system_file_tame; eauto] | solve [eapply true_false_symbol_tame; eauto] | solve [eapply true_false_symbol_for_tame; eauto]
          | solve [eapply silent; [apply undesirable_quiet|exact R]] | solve [eapply unnecessary_nesting_tame; eauto] | solve [eapply silent; [apply vector_logic_quiet|exact R]]
          | solve [eapply which_grepl_tame; eauto] ] |]).
  destruct I.
Qed.

Lemma rule_keeps : forall s rule dropped, In (rule, dropped) (keeping s) ->
  forall fs e rs r, rule fs e = ROk rs -> In r rs -> keeps dropped r.
Proof.
  intros s rule d I fs e rs r H R. unfold keeping in I. cbn [In] in I.
  repeat (destruct I as [I|I]; [injection I as <- <-; apply (total_in_rs _ _ _ _ _ H) in R;
    first [ solve [eapply any_is_na_2_keeps; eauto] | solve [eapply assignment_keeps; eauto] | solve [eapply coalesce_keeps; eauto] | solve [eapply comparison_negation_keeps; eauto]
          | solve [eapply equals_na_keeps; eauto] | solve [eapply equals_nan_keeps; eauto] | solve [eapply equals_null_keeps; eauto]
          | solve [eapply expect_grepl_keeps; [reflexivity|discriminate|exact R]] | solve [eapply expect_not_keeps; eauto] | solve [eapply is_numeric_keeps; eauto]
          | solve [eapply list2df_keeps; eauto] | solve [eapply matrix_apply_keeps; eauto] | solve [eapply numeric_leading_zero_keeps; eauto] | solve [eapply outer_negation_keeps; eauto]
          | solve [eapply redundant_equals_keeps; eauto] | solve [eapply redundant_ifelse_keeps; eauto] | solve [eapply repeat_keeps; eauto]
          | solve [eapply seq_keeps; eauto] | solve [eapply seq2_keeps; eauto] | solve [eapply true_false_symbol_keeps; eauto] | solve [eapply true_false_symbol_for_keeps; eauto]
          | solve [eapply unnecessary_nesting_keeps; eauto] ] |]).
  destruct I.
Qed.
