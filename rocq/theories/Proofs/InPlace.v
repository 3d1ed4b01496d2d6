(** What a rule reports is a part of the expression it looks at, or of what the
    expression is in (a pipe). *)
From Verif Require Import Spec.RSearch Proofs.TextProofs.

Definition in_place (fs : list frame) (e : expr) (r : report) : Prop :=
  plug (at_frames r) (at_node r) = plug fs e.
Definition placed_rule (f : list frame -> expr -> option report) : Prop :=
  forall fs e r, f fs e = Some r -> in_place fs e r.
Definition placed_failing (f : list frame -> expr -> res (option report)) : Prop :=
  forall fs e r, f fs e = ROk (Some r) -> in_place fs e r.

Ltac split_matches :=
  repeat match goal with
  | H : None = Some _ |- _ => discriminate H
  | H : RErr = ROk _ |- _ => discriminate H
  | H : RPanic = ROk _ |- _ => discriminate H
  | H : ROk None = ROk (Some _) |- _ => discriminate H
  | H : context [match ?x with _ => _ end] |- _ =>
      match type of H with
      | _ = Some _ => destruct x eqn:?
      | _ = ROk (Some _) => destruct x eqn:?
      end
  end.
Ltac placed f := intros fs e r H; unfold f in H; timeout 60 split_matches;
  try (injection H as <-); try reflexivity.
Lemma nested_in_place : forall fs e o i c fs' e',
  get_nested_functions_content fs e o i = Some (c, (fs', e')) -> plug fs' e' = plug fs e.
Proof.
  intros fs e o i c fs' e' H. unfold get_nested_functions_content in H.
  destruct e; try discriminate. destruct (negb _); [discriminate|].
  destruct (nested_content args i); [injection H as _ <- <-; reflexivity|].
  destruct fs as [|f fs]; [discriminate|]. destruct f; try discriminate; destruct o0; try discriminate.
  - destruct (teqb _ i); [injection H as _ <- <-; reflexivity|discriminate].
  - split_matches; injection H as _ <- <-; reflexivity.
Qed.
Lemma place_all_equal : placed_rule all_equal.
Proof.
  intros fs e r H. unfold all_equal in H.
  destruct (get_nested_functions_content fs e _ _) as [[c [fs' e']]|] eqn:E.
  { injection H as <-. exact (nested_in_place _ _ _ _ _ _ _ E). }
  destruct e; try discriminate. destruct (teqb _ _); [|discriminate]. destruct (parent_is_bang_unary fs) eqn:B.
  - destruct fs as [|[] fs]; try discriminate. injection H as <-.
    unfold parent_is_bang_unary in B. destruct u; try discriminate; reflexivity.
  - destruct (parent_is_condition fs); [|discriminate]. injection H as <-. reflexivity.
Qed.
Lemma place_any_duplicated : placed_rule any_duplicated.
Proof. placed any_duplicated. eapply nested_in_place; eassumption. Qed.
Lemma place_any_is_na : placed_rule any_is_na.
Proof. placed any_is_na. eapply nested_in_place; eassumption. Qed.
Lemma place_any_is_na_2 : placed_rule any_is_na_2.
Proof. placed any_is_na_2. Qed.
Lemma place_assignment : forall b, placed_rule (assignment b).
Proof. intros b; placed assignment. Qed.
Lemma place_browser : placed_rule browser.
Proof. placed browser. Qed.
Lemma place_class_equals : placed_rule class_equals.
Proof. placed class_equals. Qed.
Lemma place_class_identical : placed_rule class_identical.
Proof. placed class_identical. Qed.
Lemma place_coalesce : placed_rule coalesce.
Proof. placed coalesce. Qed.
Lemma place_comparison_negation : placed_rule comparison_negation.
Proof. placed comparison_negation. Qed.
Lemma place_download_file : placed_rule download_file.
Proof. placed download_file. Qed.
Lemma place_duplicated_arguments : forall b, placed_failing (duplicated_arguments b).
Proof. intros b; intros fs e r H; unfold duplicated_arguments, rbind in H; split_matches; unfold reported in *; injection H as <-; reflexivity. Qed.
Lemma place_empty_assignment : placed_rule empty_assignment.
Proof. placed empty_assignment. Qed.
Lemma place_equals_na : placed_rule equals_na.
Proof. placed equals_na. Qed.
Lemma place_equals_nan : placed_rule equals_nan.
Proof. placed equals_nan. Qed.
Lemma place_equals_null : placed_rule equals_null.
Proof. placed equals_null. Qed.
Lemma place_expect_length : placed_rule expect_length.
Proof. placed expect_length. Qed.
Lemma place_expect_match : placed_rule expect_match.
Proof. unfold expect_match. placed expect_grepl; eapply nested_in_place; eassumption. Qed.
Lemma place_expect_named : placed_rule expect_named.
Proof. placed expect_named. Qed.
Lemma place_expect_no_match : placed_rule expect_no_match.
Proof. unfold expect_no_match. placed expect_grepl; eapply nested_in_place; eassumption. Qed.
Lemma place_expect_not : placed_rule expect_not.
Proof. placed expect_not. Qed.
Lemma place_expect_null : placed_rule expect_null.
Proof. placed expect_null. Qed.
Lemma place_expect_s3_class : placed_rule expect_s3_class.
Proof. placed expect_s3_class. Qed.
Lemma place_expect_true_false : placed_rule expect_true_false.
Proof. placed expect_true_false. Qed.
Lemma place_expect_type : placed_rule expect_type.
Proof. placed expect_type. Qed.
Lemma place_fixed_regex : placed_rule fixed_regex.
Proof. placed fixed_regex. Qed.
Lemma place_for_loop_dup_index : placed_rule for_loop_dup_index.
Proof. placed for_loop_dup_index. Qed.
Lemma place_for_loop_index : placed_rule for_loop_index.
Proof. placed for_loop_index. Qed.
Lemma place_grepv : placed_rule grepv.
Proof. placed grepv. Qed.
Lemma place_if_always_true : placed_failing if_always_true.
Proof. intros fs e r H; unfold if_always_true, rbind in H; split_matches; unfold reported in *; injection H as <-; reflexivity. Qed.
Lemma place_implicit_assignment : forall b, placed_rule (implicit_assignment b).
Proof. intros b; placed implicit_assignment. Qed.
Lemma place_internal_function : placed_rule internal_function.
Proof. placed internal_function. Qed.
Lemma place_is_numeric : placed_rule is_numeric.
Proof. placed is_numeric. Qed.
Lemma place_length_levels : placed_rule length_levels.
Proof. placed length_levels. eapply nested_in_place; eassumption. Qed.
Lemma place_length_test : placed_failing length_test.
Proof. placed length_test. Qed.
Lemma place_lengths_rule : placed_failing lengths_rule.
Proof. placed lengths_rule. Qed.
Lemma place_list2df : placed_rule list2df.
Proof. placed list2df. Qed.
Lemma place_matrix_apply : placed_rule matrix_apply.
Proof. placed matrix_apply. Qed.
Lemma place_numeric_leading_zero : placed_rule numeric_leading_zero.
Proof. placed numeric_leading_zero. Qed.
Lemma place_outer_negation : placed_rule outer_negation.
Proof. placed outer_negation. Qed.
Lemma place_redundant_equals : placed_rule redundant_equals.
Proof. placed redundant_equals. Qed.
Lemma place_redundant_ifelse : placed_rule redundant_ifelse.
Proof. placed redundant_ifelse. Qed.
Lemma place_repeat_loop : placed_rule repeat_loop.
Proof. placed repeat_loop. Qed.
Lemma place_sample_int : placed_failing sample_int.
Proof. placed sample_int. Qed.
Lemma place_seq_rule : placed_rule seq_rule.
Proof. placed seq_rule. Qed.
Lemma place_seq2_rule : placed_rule seq2_rule.
Proof. placed seq2_rule. Qed.
Lemma place_sort_rule : placed_rule sort_rule.
Proof. placed sort_rule. Qed.
Lemma place_sprintf_rule : placed_rule sprintf_rule.
Proof. placed sprintf_rule. Qed.
Lemma place_string_boundary : placed_rule string_boundary.
Proof. placed string_boundary. Qed.
Lemma place_system_file : placed_rule system_file.
Proof. placed system_file. Qed.
Lemma place_true_false_symbol : placed_rule true_false_symbol.
Proof. placed true_false_symbol. Qed.
Lemma place_true_false_symbol_for : placed_rule true_false_symbol_for.
Proof. placed true_false_symbol_for. Qed.
Lemma place_undesirable_function : forall b, placed_rule (undesirable_function b).
Proof. intros b; placed undesirable_function. Qed.
Lemma place_unnecessary_nesting : placed_rule unnecessary_nesting.
Proof. placed unnecessary_nesting. Qed.
Lemma place_vector_logic : placed_rule vector_logic.
Proof. placed vector_logic. Qed.
Lemma place_which_grepl : placed_rule which_grepl.
Proof. placed which_grepl. eapply nested_in_place; eassumption. Qed.

(** All the rules; unreachable_code is not one of them here. *)
Lemma fires_in_place : forall s n fs e r, fires s n fs e r -> n <> lit "unreachable_code" -> in_place fs e r.
Proof.
  intros s n fs e r (_ & rule & rs & I & H & J) N.
  assert (T : forall f, placed_rule f -> rule = total f -> in_place fs e r).
  { intros f P ->. unfold total in H. destruct (f fs e) as [r'|] eqn:E; injection H as <-; [|contradiction].
    destruct J as [<-|[]]. exact (P _ _ _ E). }
  assert (F : forall f, placed_failing f -> rule = failing f -> in_place fs e r).
  { intros f P ->. unfold failing in H. destruct (f fs e) as [[r'|]| |] eqn:E; try discriminate; injection H as <-; [|contradiction].
    destruct J as [<-|[]]. exact (P _ _ _ E). }
  unfold all_rules in I. cbn [In] in I.
  repeat (destruct I as [I|I]; [injection I as En Er; try (exfalso; apply N; symmetry; exact En);
    solve [ eapply T; [|symmetry; exact Er]; first [apply place_all_equal|apply place_any_duplicated|apply place_any_is_na|apply place_any_is_na_2
      |apply place_assignment|apply place_browser|apply place_class_equals|apply place_class_identical|apply place_coalesce
      |apply place_comparison_negation|apply place_download_file|apply place_empty_assignment|apply place_equals_na|apply place_equals_nan
      |apply place_equals_null|apply place_expect_length|apply place_expect_match|apply place_expect_named|apply place_expect_no_match
      |apply place_expect_not|apply place_expect_null|apply place_expect_s3_class|apply place_expect_true_false|apply place_expect_type
      |apply place_fixed_regex|apply place_for_loop_dup_index|apply place_for_loop_index|apply place_grepv|apply place_implicit_assignment
      |apply place_internal_function|apply place_is_numeric|apply place_length_levels|apply place_list2df|apply place_matrix_apply
      |apply place_numeric_leading_zero|apply place_outer_negation|apply place_redundant_equals|apply place_redundant_ifelse
      |apply place_repeat_loop|apply place_seq_rule|apply place_seq2_rule|apply place_sort_rule|apply place_sprintf_rule
      |apply place_string_boundary|apply place_system_file|apply place_true_false_symbol|apply place_true_false_symbol_for
      |apply place_undesirable_function|apply place_unnecessary_nesting|apply place_vector_logic|apply place_which_grepl]
    | eapply F; [|symmetry; exact Er]; first [apply place_duplicated_arguments|apply place_if_always_true|apply place_length_test
      |apply place_lengths_rule|apply place_sample_int] ] |]).
  contradiction.
Qed.
Lemma fill_inj : forall f a b, fill f a = fill f b -> a = b.
Proof.
  intros f a b H. destruct f; cbn [fill] in H; injection H; auto; intros E; try apply app_inv_head in E; injection E; auto.
Qed.
Lemma plug_inj : forall fs a b, plug fs a = plug fs b -> a = b.
Proof. induction fs as [|f fs IH]; intros a b H; [exact H|]. apply (fill_inj f), IH, H. Qed.
Lemma at_same : forall fs e r, in_place fs e r -> at_frames r = fs -> at_node r = e.
Proof. intros fs e r H A. unfold in_place in H. rewrite A in H. exact (plug_inj _ _ _ H). Qed.
