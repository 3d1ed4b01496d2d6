From Verif Require Import Model.Messages Spec.AdviceSpec Spec.OutputSpec Proofs.TextProofs Proofs.AdviceProofs Proofs.OutputProofs Proofs.AdviceForms Proofs.AdviceExpect.

(** * No newline in what a rule says *)
Definition plain (t : text) : bool := forallb (fun c => negb (ceqb c 10%N)) t.
Definition plain_words (w : words) : bool := plain (fst w) && match snd w with Some a => plain a | None => true end.
Lemma plain_line t : plain t = true -> one_line t.
Proof.
  unfold plain, one_line. intros H I. apply (proj1 (forallb_forall _ _)) with (x := nl) in H; [|exact I].
  vm_compute in H. discriminate.
Qed.
Lemma plain_app a b : plain (a ++ b) = plain a && plain b.
Proof. apply forallb_app. Qed.
Lemma plain_decimal n : plain (decimal n) = true.
Proof.
  apply forallb_forall. intros c I. apply decimal_digits in I. unfold ceqb.
  destruct (N.eqb_spec c 10); [exfalso; subst; lia|reflexivity].
Qed.
Ltac plainly := unfold plain_words, just, instead; cbn [fst snd]; rewrite ?plain_app, ?plain_decimal; reads.

Lemma plain_comparison e : plain_words (say_comparison_negation e) = true.
Proof. destruct e; try reads. destruct u; try reads. destruct e; try reads. destruct e; try reads. destruct o; try reads. destruct c; reads. Qed.
Lemma plain_outer e : plain_words (say_outer_negation e) = true.
Proof. unfold say_outer_negation. destruct (teqb _ _); reads. Qed.
Lemma formals_cases n x : ifelse_formals n = Some x -> n = lit "ifelse" \/ n = lit "if_else" \/ n = lit "fifelse".
Proof.
  unfold ifelse_formals. destruct (teqb n (lit "ifelse")) eqn:A; [left; now apply teqb_eq|].
  destruct (teqb n (lit "if_else")) eqn:B; [right; left; now apply teqb_eq|].
  destruct (teqb n (lit "fifelse")) eqn:C; [right; right; now apply teqb_eq|]. discriminate.
Qed.
Lemma plain_ifelse e : plain_words (say_redundant_ifelse e) = true.
Proof.
  unfold say_redundant_ifelse. destruct e; try reads. cbv zeta.
  destruct (ifelse_formals (get_function_name e)) as [[[? ?] ?]|] eqn:F; [|reads]. apply formals_cases in F.
  set (n := get_function_name e) in *. clearbody n.
  assert (P : plain n = true) by (destruct F as [ -> |[ -> | -> ]]; reads).
  assert (K : forall x y, plain x = true -> plain y = true -> plain_words (lit "This `" ++ n ++ x, Some y) = true).
  { intros x y X Y. unfold plain_words. cbn [fst snd]. rewrite !plain_app, P, X, Y. reads. }
  repeat match goal with |- plain_words (match ?x with _ => _ end) = true => destruct x end; apply K; reads.
Qed.
Lemma plain_any_is_na e : plain_words (say_any_is_na e) = true.
Proof. destruct e; reads. Qed.
Lemma plain_coalesce e : plain_words (say_coalesce e) = true.
Proof. destruct (say_coalesce_cases e) as [ -> | -> ]; reads. Qed.
Lemma plain_all_equal fs e : plain_words (say_all_equal fs e) = true.
Proof. unfold say_all_equal. destruct (get_nested_functions_content _ _ _ _); reads. Qed.
Lemma plain_class_equals e : plain_words (say_class_equals e) = true.
Proof. destruct e; reads. Qed.
Lemma plain_matrix e : plain_words (say_matrix_apply e) = true.
Proof.
  unfold say_matrix_apply. destruct e; try reads.
  repeat match goal with |- plain_words (match ?x with _ => _ end) = true => destruct x end; reads.
Qed.
Lemma plain_implicit fs : plain_words (say_implicit_assignment fs) = true.
Proof. unfold say_implicit_assignment, just, plain_words. cbn [fst snd]. repeat (match goal with |- context [if ?c then _ else _] => destruct c end; [reads|]). reads. Qed.
Lemma plain_assignment a e : plain_words (say_assignment a e) = true.
Proof. unfold say_assignment. destruct e; try (destruct a; reads). destruct o; try (destruct a; reads); reads. Qed.
Lemma plain_download e : plain_words (say_download_file e) = true.
Proof. unfold say_download_file. destruct e; try reads. destruct (arg_value _); [destruct (str_in _ _)|]; reads. Qed.
Lemma plain_sprintf e : plain_words (say_sprintf e) = true.
Proof.
  unfold say_sprintf. destruct e; cbv iota beta; lazymatch goal with |- context [parse_sprintf_format] => idtac | _ => reads end.
  destruct (get_arg_by_name_then_position _ _ _) as [[? [v|]]|]; cbv iota beta; lazymatch goal with |- context [parse_sprintf_format] => idtac | _ => reads end.
  destruct v; cbv iota beta; lazymatch goal with |- context [parse_sprintf_format] => idtac | _ => reads end.
  destruct a; cbv iota beta; lazymatch goal with |- context [parse_sprintf_format] => idtac | _ => reads end.
  cbv zeta. destruct (invalid _); [reads|]. generalize (parse_sprintf_format t). intros k. destruct (specs k); [reads|].
  unfold decimal_N, plain_words. cbn [fst snd].
  generalize (N.to_nat (if positional k then max_position k else N.of_nat (list_sum (n :: l)))).
  intros u. match goal with |- context [decimal (match o with _ => _ end)] => generalize (match o with Some _ => length (get_unnamed_args args) | None => length (get_unnamed_args args) - 1 end) end.
  intros v. rewrite !plain_app, !plain_decimal. reads.
Qed.
Lemma plain_not e : plain_words (say_expect_not e) = true.
Proof. unfold say_expect_not. destruct (teqb _ _); reads. Qed.
(** Names of functions that are reported. *)
Lemma plain_size n : is_size n -> plain n = true.
Proof. intros [ -> |[ -> |[ -> |[ -> | -> ]]]]; reads. Qed.
Lemma plain_equal n : is_equal_name n -> plain n = true.
Proof. intros [ -> | -> ]; reads. Qed.
Lemma plain_seq fs e r : seq_rule fs e = Some r -> plain_words (say_seq e) = true.
Proof.
  intros H. unfold seq_rule in H. destruct e; try discriminate. destruct o; try discriminate. destruct e2; try discriminate.
  destruct (_ && _) eqn:C; [|discriminate]. apply andb_true_iff in C. destruct C as [_ C]. apply size_cases in C.
  unfold say_seq, called. set (n := get_function_name e2) in *. clearbody n.
  destruct C as [ -> |[ -> |[ -> |[ -> | -> ]]]]; reads.
Qed.
Lemma plain_seq2 fs e r : seq2_rule fs e = Some r -> plain_words (say_seq2 e) = true.
Proof.
  intros H. unfold seq2_rule in H. destruct e; try discriminate.
  destruct args as [|[[k|] [v|]] [|]]; try discriminate; destruct v; try discriminate.
  destruct (_ && _) eqn:C; [|discriminate]. apply andb_true_iff in C. destruct C as [_ C]. apply size_cases in C.
  unfold say_seq2, called. set (n := get_function_name v) in *. clearbody n.
  destruct C as [ -> |[ -> |[ -> |[ -> | -> ]]]]; reads.
Qed.
Lemma plain_vector fs e r : vector_logic fs e = Some r -> plain_words (say_vector_logic fs e) = true.
Proof.
  intros H. unfold vector_logic in H. destruct e; try discriminate. destruct o; try discriminate;
    (unfold say_vector_logic; destruct fs as [|f fs]; [reads|destruct f; reads]).
Qed.
Lemma mem_two n a b : mem n [a; b] = true -> n = a \/ n = b.
Proof.
  unfold mem. cbn [existsb]. rewrite orb_false_r. intros H. apply orb_true_iff in H. destruct H as [H|H]; apply teqb_eq in H; auto.
Qed.
Lemma plain_boundary fs e r : string_boundary fs e = Some r -> plain_words (say_string_boundary e) = true.
Proof.
  intros H. assert (X : forall f (args : list arg), mem (get_function_name f) [lit "substr"; lit "substring"] = true ->
    plain_words (match args with
      | _ :: (_, Some start) :: _ =>
          if is_literal_one start
          then (lit "Using `" ++ get_function_name f ++
                  lit "()` to detect an initial substring is hard to read and inefficient.",
                Some (lit "Use `startsWith()` instead."))
          else (lit "Using `" ++ get_function_name f ++
                  lit "()` to detect a terminal substring is hard to read and inefficient.",
                Some (lit "Use `endsWith()` instead."))
      | _ => ([], None) end) = true).
  { intros f args M. apply mem_two in M. set (n := get_function_name f) in *. clearbody n.
    destruct args as [|x [|[? [v|]] l]]; try reads. destruct (is_literal_one v); destruct M as [ -> | -> ]; reads. }
  unfold string_boundary in H. destruct e; try discriminate. destruct o; try discriminate. cbv zeta in H.
  assert (Y : exists f (args : list arg), mem (get_function_name f) [lit "substr"; lit "substring"] = true /\
     (match e1 with ECall _ _ => e1 | _ => e2 end) = ECall f args).
  { destruct c; try discriminate;
    (destruct e1; try (destruct e2; try discriminate; eexists _, _; split; [|reflexivity]; destruct (mem _ _); [reflexivity|discriminate]);
     eexists _, _; (split; [|reflexivity]); destruct (mem _ _); [reflexivity|discriminate]). }
  destruct Y as (f & args & M & K). unfold say_string_boundary. cbv zeta. rewrite K. exact (X f args M).
Qed.
Lemma plain_null fs e r : expect_null fs e = Some r -> plain_words (say_expect_null e) = true.
Proof.
  intros H. unfold say_expect_null. destruct (teqb (called e) (lit "expect_true")) eqn:C1; [reads|].
  assert (C : is_equal_name (called e)).
  { unfold expect_null in H. destruct e; try discriminate. destruct (is_expect_equal e) eqn:X; [now apply expect_equal_cases|].
    change (called (ECall e args)) with (get_function_name e) in C1. rewrite C1 in H. discriminate. }
  destruct C as [ -> | -> ]; reads.
Qed.
Lemma plain_type fs e r : expect_type fs e = Some r -> plain_words (say_expect_type e) = true.
Proof.
  intros H. unfold say_expect_type. destruct (teqb (called e) (lit "expect_true")) eqn:C1; [reads|].
  assert (C : is_equal_name (called e)).
  { unfold expect_type in H. destruct e; try discriminate. destruct (is_expect_equal e) eqn:X; [now apply expect_equal_cases|].
    change (called (ECall e args)) with (get_function_name e) in C1. rewrite C1 in H. discriminate. }
  destruct C as [ -> | -> ]; reads.
Qed.
Ltac equal_call H := match type of H with ?rule _ ?e = Some _ =>
  assert (is_equal_name (called e)) by
    (unfold rule in H; destruct e as [| | | |f l| | | | | | | |]; try discriminate;
     let X := fresh in destruct (is_expect_equal f) eqn:X; [|discriminate]; exact (expect_equal_cases _ X)) end.
Lemma plain_length s sh fs e r : expect_length fs e = Some r -> plain_words (said s sh (lit "expect_length") fs e) = true.
Proof. intros H. equal_call H. set (n := called e) in *. change (plain_words (lit "`expect_length(x, n)` is better than `" ++ n ++ lit "(length(x), n)`.", Some (lit "Use `expect_length(x, n)` instead.")) = true). clearbody n. destruct H0 as [ -> | -> ]; reads. Qed.
Lemma plain_named s sh fs e r : expect_named fs e = Some r -> plain_words (said s sh (lit "expect_named") fs e) = true.
Proof. intros H. equal_call H. set (n := called e) in *. change (plain_words (lit "`expect_named(x, n)` is better than `" ++ n ++ lit "(names(x), n)`.", Some (lit "Use `expect_named(x, n)` instead.")) = true). clearbody n. destruct H0 as [ -> | -> ]; reads. Qed.
Lemma plain_s3 s sh fs e r : expect_s3_class fs e = Some r -> plain_words (said s sh (lit "expect_s3_class") fs e) = true.
Proof. intros H. equal_call H. set (n := called e) in *. change (plain_words (lit "`" ++ n ++ lit "(class(x), 'y')` may fail if `x` gets more classes in the future.", Some (lit "Use `expect_s3_class(x, 'y')` instead.")) = true). clearbody n. destruct H0 as [ -> | -> ]; reads. Qed.
Lemma plain_truth fs e r : expect_true_false fs e = Some r -> plain_words (say_expect_true_false e) = true.
Proof.
  intros H. equal_call H. destruct (say_some_truth e) as [w X]. { intros X. rewrite X in H0. destruct H0 as [C|C]; vm_compute in C; discriminate. }
  rewrite X. set (n := called e) in *. clearbody n. destruct H0 as [ -> | -> ]; destruct w; reads.
Qed.

Theorem plain_said : forall s sh n f fs e rs r,
  In (n, f) (node_rules s) -> n <> lit "duplicated_arguments" -> n <> lit "undesirable_function" ->
  f fs e = ROk rs -> In r rs -> plain_words (said s sh n fs e) = true.
Proof.
  intros s sh n f fs e rs r Hn D U Hf Hr.
  unfold node_rules, on_call, on_binary, on_value, on_identifier, on_namespace, on_for, on_if, on_subset, on_unary, on_while in Hn.
  cbn [app] in Hn.
  Ltac step3 H := match type of H with In _ (_ :: _) => destruct H as [H|H] | In _ [] => destruct H end.
  repeat step3 Hn;
    match type of Hn with (?m, ?g) = _ =>
      assert (H : f = g) by (now inversion Hn);
      let N := fresh in assert (N : n = m) by (now inversion Hn); clear Hn; subst n
    end.
  - exact (plain_all_equal fs e).
  - reads.
  - exact (plain_any_is_na e).
  - reads.
  - exact (plain_class_equals e).
  - exact (plain_download e).
  - exfalso. apply D. reflexivity.
  - pose proof (listed_one f r rs expect_length fs e H Hf Hr) as K. exact (plain_length s sh fs e r K).
  - reads.
  - pose proof (listed_one f r rs expect_named fs e H Hf Hr) as K. exact (plain_named s sh fs e r K).
  - reads.
  - exact (plain_not e).
  - pose proof (listed_one f r rs expect_null fs e H Hf Hr) as K. exact (plain_null fs e r K).
  - pose proof (listed_one f r rs expect_s3_class fs e H Hf Hr) as K. exact (plain_s3 s sh fs e r K).
  - pose proof (listed_one f r rs expect_type fs e H Hf Hr) as K. exact (plain_type fs e r K).
  - pose proof (listed_one f r rs expect_true_false fs e H Hf Hr) as K. exact (plain_truth fs e r K).
  - reads.
  - reads.
  - reads.
  - reads.
  - reads.
  - reads.
  - exact (plain_matrix e).
  - exact (plain_outer e).
  - exact (plain_ifelse e).
  - reads.
  - pose proof (listed_one f r rs seq2_rule fs e H Hf Hr) as K. exact (plain_seq2 fs e r K).
  - exact (plain_sprintf e).
  - reads.
  - exfalso. apply U. reflexivity.
  - reads.
  - exact (plain_any_is_na e).
  - exact (plain_assignment _ e).
  - exact (plain_class_equals e).
  - pose proof (listed_one f r rs vector_logic fs e H Hf Hr) as K. exact (plain_vector fs e r K).
  - reads.
  - reads.
  - reads.
  - reads.
  - exact (plain_implicit fs).
  - reads.
  - reads.
  - pose proof (listed_one f r rs seq_rule fs e H Hf Hr) as K. exact (plain_seq fs e r K).
  - pose proof (listed_one f r rs string_boundary fs e H Hf Hr) as K. exact (plain_boundary fs e r K).
  - reads.
  - reads.
  - reads.
  - reads.
  - reads.
  - reads.
  - exact (plain_coalesce e).
  - reads.
  - reads.
  - reads.
  - exact (plain_comparison e).
  - reads.
Qed.

(** * duplicated_arguments *)
Lemma join_listing l : join (lit ", ") (map (fun n => [34%N] ++ n ++ [34%N]) l) = listing l.
Proof.
  induction l as [|x l IH]; [reflexivity|]. destruct l as [|y l]; [reflexivity|].
  change (join (lit ", ") (map (fun n => [34%N] ++ n ++ [34%N]) (x :: y :: l))) with
    (([34%N] ++ x ++ [34%N]) ++ lit ", " ++ join (lit ", ") (map (fun n => [34%N] ++ n ++ [34%N]) (y :: l))).
  rewrite IH. change (listing (x :: y :: l)) with ([34%N] ++ x ++ [34%N] ++ lit ", " ++ listing (y :: l)).
  now rewrite <- !app_assoc.
Qed.
Definition text_dec : forall x y : text, {x = y} + {x <> y} := list_eq_dec N.eq_dec.
Lemma count_filter n l : length (filter (teqb n) l) = count_occ text_dec l n.
Proof.
  induction l as [|x l IH]; [reflexivity|]. cbn [filter count_occ]. destruct (text_dec x n) as [E|E].
  - subst. rewrite teqb_refl. cbn [length]. now rewrite IH.
  - assert (X : teqb n x = false) by (apply teqb_neq; congruence). now rewrite X.
Qed.
Lemma repeated_iff l n : In n (repeated_names l) <-> 2 <= count_occ text_dec l n.
Proof.
  unfold repeated_names. rewrite nodup_In, filter_In, count_filter, Nat.ltb_lt. split; [intros [_ H]; lia|].
  intros H. split; [|lia]. apply (count_occ_In text_dec). lia.
Qed.
Lemma repeated_nodup l : NoDup (repeated_names l).
Proof. apply NoDup_nodup. Qed.

(** * sprintf *)
Lemma sprintf_differ s sh fs e r a : sprintf_rule fs e = Some r ->
  said s sh (lit "sprintf") fs e = (lit "Mismatch between number of special characters and number of arguments.", Some a) ->
  exists n m, n <> m /\ a = lit "Found " ++ decimal n ++ lit " special character(s) and " ++ decimal m ++ lit " argument(s).".
Proof.
  intros H W. assert (W' : say_sprintf e = (lit "Mismatch between number of special characters and number of arguments.", Some a)) by exact W.
  clear W. unfold sprintf_rule in H. unfold say_sprintf in W'. destruct e; try discriminate.
  destruct (negb _); [discriminate|]. destruct (has_previous_pipe fs); [discriminate|].
  destruct (get_arg_by_name_then_position args (lit "fmt") 1) as [[nm [v|]]|]; try discriminate.
  destruct v; try discriminate. destruct a0; try discriminate. cbv zeta in H, W'.
  generalize dependent (parse_sprintf_format t). intros k H W.
  destruct (invalid k); [discriminate|]. destruct (specs k) as [|x l]; [discriminate|].
  set (given := match nm with Some _ => length (get_unnamed_args args) | None => length (get_unnamed_args args) - 1 end) in *.
  set (expected := if positional k then max_position k else N.of_nat (list_sum (x :: l))) in *.
  clearbody given expected. destruct (N.eqb_spec expected (N.of_nat given)) as [E|E]; [discriminate|].
  exists (N.to_nat expected), given. split; [lia|]. symmetry. exact (some_of _ _ (f_equal snd W)).
Qed.

(** For the examples. *)
Definition is_na_y : expr := ECall (EAtom (AId (lit "is.na"))) [(None, Some (EAtom (AId (lit "y"))))].
Definition is_na_reading : reading := mk_reading (fun _ => is_na_y) [].
