From Verif Require Import Model.Messages Spec.AdviceSpec Proofs.TextProofs Proofs.AdviceProofs Proofs.AdviceForms.

Lemma forms_expect_s3_class : forms expect_s3_class (lit "expect_s3_class").
Proof.
  intros s sh fs e r t b a q p g H T W Q K E _ _ Z.
  saying W (lit "`" ++ called e ++ lit "(class(x), 'y')` may fail if `x` gets more classes in the future.", Some (lit "Use `expect_s3_class(x, 'y')` instead.")).
  assert (C : is_equal_name (called e)).
  { unfold expect_s3_class in H. destruct e; try discriminate. destruct (is_expect_equal e) eqn:X; [|discriminate]. now apply expect_equal_cases. }
  set (f := called e) in *. words W.
  assert (P : p = EAtom (AId (lit "x")) \/
              p = pair_call f (lit "class") (EAtom (AId (lit "x"))) (EAtom (AStr (lit "'y'")))) by (find_form C Q K f).
  destruct P as [P|P]; [exfalso; exact (Z _ P)|]. subst p. clearbody f.
  assert (E' : e = pair_call f (lit "class") (stands g (lit "x")) (stands g (lit "'y'"))) by (rewrite E; clear - C; two C; reflexivity).
  eapply (as_shown expect_s3_class fs _ r t g _ _ _ (call2 (lit "expect_s3_class") (EAtom (AId (lit "x"))) (EAtom (AStr (lit "'y'")))) H T); [reads|reads|].
  rewrite E', run_expect_s3_class in * by exact C. destruct (is_s3_class _); [reflexivity|discriminate].
Qed.
Lemma forms_expect_type : forms expect_type (lit "expect_type").
Proof.
  intros s sh fs e r t b a q p g H T W Q K E _ _ Z.
  saying W (say_expect_type e). unfold say_expect_type in W.
  destruct (teqb (called e) (lit "expect_true")) eqn:C1.
  { words W. quoted Q. repeat each_quote Q. no_form K. }
  assert (C : is_equal_name (called e)).
  { unfold expect_type in H. destruct e; try discriminate. destruct (is_expect_equal e) eqn:X; [now apply expect_equal_cases|].
    change (called (ECall e args)) with (get_function_name e) in C1. rewrite C1 in H. discriminate. }
  set (f := called e) in *. words W.
  assert (P : p = pair_call f (lit "typeof") (EAtom (AId (lit "x"))) (EAtom (AId (lit "t"))) \/ p = EAtom ANull) by (find_form C Q K f).
  destruct P as [P|P]; [|exfalso; exact (Z _ P)]. subst p. clearbody f.
  assert (E' : e = pair_call f (lit "typeof") (stands g (lit "x")) (stands g (lit "t"))) by (rewrite E; clear - C; two C; reflexivity).
  eapply (as_shown expect_type fs _ r t g _ _ _ (call2 (lit "expect_type") (EAtom (AId (lit "x"))) (EAtom (AId (lit "t")))) H T); [reads|reads|].
  rewrite E', run_expect_type in * by exact C. reflexivity.
Qed.
Lemma run_expect_null fs f x : is_equal_name f -> expect_null fs (call2 f x (EAtom ANull)) =
  Some (mk_report fs (call2 f x (EAtom ANull)) (Some (toks (ECall (EAtom (AId (lit "expect_null"))) [(None, Some x)])))).
Proof. intros C. two C; (destruct x; try reflexivity; destruct a; reflexivity). Qed.
Lemma run_expect_true_null fs x : expect_null fs (x_in (lit "expect_true") (x_in (lit "is.null") x)) =
  Some (mk_report fs (x_in (lit "expect_true") (x_in (lit "is.null") x)) (Some (toks (ECall (EAtom (AId (lit "expect_null"))) [(None, Some x)])))).
Proof. reflexivity. Qed.
Lemma forms_expect_null : forms expect_null (lit "expect_null").
Proof.
  intros s sh fs e r t b a q p g H T W Q K E _ _ Z.
  saying W (say_expect_null e). unfold say_expect_null in W.
  destruct (teqb (called e) (lit "expect_true")) eqn:C1.
  - words W. quoted Q. repeat each_quote Q.
    + form K (x_in (lit "expect_true") (x_in (lit "is.null") (EAtom (AId (lit "x"))))).
      eapply (as_shown expect_null fs _ r t g _ _ _ (ECall (EAtom (AId (lit "expect_null"))) [hole (lit "x")]) H T); [reads|reads|].
      rewrite one_x by reads. apply run_expect_true_null.
    + form K (x_in (lit "expect_null") (EAtom (AId (lit "x")))). discriminate.
  - assert (C : is_equal_name (called e)).
    { unfold expect_null in H. destruct e; try discriminate. destruct (is_expect_equal e) eqn:X; [now apply expect_equal_cases|].
      change (called (ECall e args)) with (get_function_name e) in C1. rewrite C1 in H. discriminate. }
    set (f := called e) in *. words W.
    assert (P : p = call2 f (EAtom (AId (lit "x"))) (EAtom ANull) \/ p = x_in (lit "expect_null") (EAtom (AId (lit "x")))) by (find_form C Q K f).
    destruct P as [ -> | -> ]; [clearbody f|exfalso; rewrite E in H; discriminate].
    assert (E' : e = call2 f (stands g (lit "x")) (EAtom ANull)) by (rewrite E; clear - C; two C; reflexivity).
    eapply (as_shown expect_null fs _ r t g _ _ _ (ECall (EAtom (AId (lit "expect_null"))) [hole (lit "x")]) H T); [reads|reads|].
    rewrite one_x by reads. rewrite E', run_expect_null by exact C. reflexivity.
Qed.
Lemma run_expect_not fs f h x : (f = lit "expect_true" /\ h = lit "expect_false") \/ (f = lit "expect_false" /\ h = lit "expect_true") ->
  expect_not fs (x_in f (EUn UNot x)) =
  match x with EUn UNot _ => None
  | EParen y => Some (mk_report fs (x_in f (EUn UNot x)) (Some (toks (x_in h y))))
  | _ => Some (mk_report fs (x_in f (EUn UNot x)) (Some (toks (x_in h x)))) end.
Proof. intros [[ -> -> ]|[ -> -> ]]; destruct x; try reflexivity; destruct u; reflexivity. Qed.
Lemma forms_expect_not : forms expect_not (lit "expect_not").
Proof.
  intros s sh fs e r t b a q p g H T W Q K E B _ Z.
  saying W (say_expect_not e). unfold say_expect_not in W.
  assert (D : exists f h, ((f = lit "expect_true" /\ h = lit "expect_false") \/ (f = lit "expect_false" /\ h = lit "expect_true")) /\ called e = f /\
     (lit "`" ++ f ++ lit "(!x)` is not as clear as `" ++ h ++ lit "(x)`.", Some (instead (h ++ lit "(x)"))) = (b, Some a)).
  { unfold expect_not in H. destruct e; try discriminate. cbv zeta in H. destruct (mem _ _) eqn:X; [|discriminate].
    change (called (ECall e args)) with (get_function_name e) in *.
    unfold mem in X. cbn [existsb] in X. apply orb_true_iff in X. destruct X as [X|X].
    - rewrite X in W. exists (lit "expect_true"), (lit "expect_false"). split; [now left|]. split; [now apply teqb_eq|]. exact W.
    - rewrite orb_false_r in X. exists (lit "expect_false"), (lit "expect_true"). split; [now right|]. apply teqb_eq in X.
      split; [exact X|]. rewrite X in W. exact W. }
  clear W. destruct D as (f & h & D & F & W). words W.
  assert (P : p = x_in f (EUn UNot (EAtom (AId (lit "x")))) \/ p = x_in h (EAtom (AId (lit "x")))).
  { clear - Q K D. destruct D as [[ -> -> ]|[ -> -> ]]; quoted Q; repeat each_quote Q;
      solve [left; apply some_of; rewrite <- K; reads | right; apply some_of; rewrite <- K; reads]. }
  destruct P as [ -> | -> ].
  - assert (E' : e = x_in f (EUn UNot (stands g (lit "x")))) by (rewrite E; destruct D as [[ -> -> ]|[ -> -> ]]; reflexivity).
    eapply (as_shown expect_not fs _ r t g _ (h ++ lit "(x)") [] (x_in h (EAtom (AId (lit "x")))) H T).
    + destruct D as [[ -> -> ]|[ -> -> ]]; reads.
    + destruct D as [[ -> -> ]|[ -> -> ]]; reads.
    + replace (read_as g (x_in h (EAtom (AId (lit "x"))))) with (x_in h (stands g (lit "x"))) by (destruct D as [[ -> -> ]|[ -> -> ]]; reflexivity).
      rewrite E' in *. rewrite (run_expect_not _ _ _ _ D) in *. specialize (B (lit "x")).
      destruct (stands g (lit "x")); try reflexivity; try contradiction. destruct u; try reflexivity. discriminate.
  - exfalso. assert (E' : called e = h) by (rewrite E; destruct D as [[ -> -> ]|[ -> -> ]]; reflexivity).
    rewrite F in E'. destruct D as [[ -> -> ]|[ -> -> ]]; vm_compute in E'; discriminate.
Qed.
Lemma run_expect_true fs f x : is_equal_name f -> x <> EAtom AFalse -> expect_true_false fs (call2 f x (EAtom ATrue)) =
  Some (mk_report fs (call2 f x (EAtom ATrue)) (Some (toks (x_in (lit "expect_true") x)))).
Proof. intros C N. two C; (destruct x; try reflexivity; destruct a; try reflexivity; contradiction). Qed.
Lemma run_expect_false fs f x : is_equal_name f -> x <> EAtom ATrue -> expect_true_false fs (call2 f x (EAtom AFalse)) =
  Some (mk_report fs (call2 f x (EAtom AFalse)) (Some (toks (x_in (lit "expect_false") x)))).
Proof. intros C N. two C; (destruct x; try reflexivity; destruct a; try reflexivity; contradiction). Qed.
Definition truth (v : bool) : expr := EAtom (if v then ATrue else AFalse).
Definition truth_name (v : bool) : text := if v then lit "expect_true" else lit "expect_false".
Lemma run_expect_truth fs f x v : is_equal_name f -> x <> truth (negb v) -> expect_true_false fs (call2 f x (truth v)) =
  Some (mk_report fs (call2 f x (truth v)) (Some (toks (x_in (truth_name v) x)))).
Proof. intros C N. destruct v; [now apply run_expect_true|now apply run_expect_false]. Qed.
Lemma say_truth f x v : say_expect_true_false (call2 f x (truth v)) =
  let w := match x with EAtom ATrue => true | EAtom AFalse => false | _ => v end in
  (lit "`" ++ f ++ lit "(x, " ++ (if w then lit "TRUE" else lit "FALSE") ++ lit ")` is not as clear as `" ++ truth_name w ++ lit "(x)`.",
   Some (instead (truth_name w ++ lit "(x)"))).
Proof. destruct v; (destruct x; try reflexivity; destruct a; try reflexivity). Qed.
Lemma say_some_truth e : called e <> [] -> exists w : bool, say_expect_true_false e =
  (lit "`" ++ called e ++ lit "(x, " ++ (if w then lit "TRUE" else lit "FALSE") ++ lit ")` is not as clear as `" ++ truth_name w ++ lit "(x)`.",
   Some (instead (truth_name w ++ lit "(x)"))).
Proof.
  intros N. destruct e; try (now contradict N). unfold say_expect_true_false. cbv zeta.
  destruct (object_expected args) as [[u v]|]; [|exists false; reflexivity].
  destruct u; try (destruct v; try (exists false; reflexivity); destruct a; first [exists true; reflexivity | exists false; reflexivity]).
  destruct a; try (exists true; reflexivity); try (exists false; reflexivity);
    (destruct v; try (exists false; reflexivity); destruct a; first [exists true; reflexivity | exists false; reflexivity]).
Qed.
Lemma forms_expect_true_false : forms expect_true_false (lit "expect_true_false").
Proof.
  intros s sh fs e r t b a q p g H T W Q K E _ _ Z.
  saying W (say_expect_true_false e).
  assert (C : is_equal_name (called e)).
  { unfold expect_true_false in H. destruct e; try discriminate. destruct (is_expect_equal e) eqn:X; [|discriminate]. now apply expect_equal_cases. }
  destruct (say_some_truth e) as [w X]. { intros X. rewrite X in C. destruct C as [C|C]; vm_compute in C; discriminate. }
  pose proof X as Y. rewrite X in W. clear X. set (f := called e) in *. words W.
  assert (P : p = call2 f (EAtom (AId (lit "x"))) (truth w) \/ p = x_in (truth_name w) (EAtom (AId (lit "x")))).
  { clear - C Q K. clearbody f. two C; destruct w; quoted Q; repeat each_quote Q;
      solve [left; apply some_of; rewrite <- K; reads | right; apply some_of; rewrite <- K; reads]. }
  destruct P as [ -> | -> ]; [clearbody f|exfalso; rewrite E in H; destruct w; discriminate].
  assert (E' : e = call2 f (stands g (lit "x")) (truth w)) by (rewrite E; clear - C; two C; destruct w; reflexivity).
  eapply (as_shown expect_true_false fs _ r t g _ (truth_name w ++ lit "(x)") [] (x_in (truth_name w) (EAtom (AId (lit "x")))) H T).
  - destruct w; reads.
  - destruct w; reads.
  - replace (read_as g (x_in (truth_name w) (EAtom (AId (lit "x"))))) with (x_in (truth_name w) (stands g (lit "x"))) by (destruct w; reflexivity).
    rewrite E'. apply run_expect_truth; [exact C|]. intros N. rewrite E', N, say_truth in Y. cbv zeta in Y.
    apply (f_equal snd) in Y. destruct w; vm_compute in Y; discriminate.
Qed.

(** All of them. *)
Lemma shown_rules s : filter (named_in shown) (node_rules s) =
  [ (lit "any_duplicated", total any_duplicated); (lit "any_is_na", total any_is_na);
    (lit "class_equals", total class_identical); (lit "expect_length", total expect_length);
    (lit "expect_named", total expect_named); (lit "expect_not", total expect_not); (lit "expect_null", total expect_null);
    (lit "expect_s3_class", total expect_s3_class); (lit "expect_type", total expect_type);
    (lit "expect_true_false", total expect_true_false); (lit "length_levels", total length_levels);
    (lit "list2df", total list2df); (lit "matrix_apply", total matrix_apply);
    (lit "outer_negation", total outer_negation); (lit "seq2", total seq2_rule); (lit "which_grepl", total which_grepl);
    (lit "any_is_na", total any_is_na_2); (lit "class_equals", total class_equals); (lit "is_numeric", total is_numeric);
    (lit "seq", total seq_rule); (lit "coalesce", total coalesce); (lit "sort", total sort_rule);
    (lit "comparison_negation", total comparison_negation) ].
Proof. reflexivity. Qed.
Theorem forms_followed : forall s sh n f fs e rs r t b a q p g,
  In (n, f) (node_rules s) -> In n shown -> f fs e = ROk rs -> In r rs -> new_text r = Some t ->
  said s sh n fs e = (b, Some a) -> a <> instead (lit "seq_len(nrow((...))") ->
  In q (quotations b) -> code q = Some p -> (forall x, p <> EAtom x) -> e = read_as g p -> bare g ->
  at_node r = e /\ rewritten_as_shown g a t.
Proof.
  intros s sh n f fs e rs r t b a q p g Hn Ha Hf Hr T W R Q K Z E B.
  pose proof (in_named _ _ _ _ Hn Ha) as J. rewrite shown_rules in J.
  Ltac step2 H := match type of H with In _ (_ :: _) => destruct H as [H|H] | In _ [] => destruct H end.
  assert (F : exists rule, f = total rule /\ forms rule n).
  { clear - J. repeat step2 J;
    match type of J with (?m, total ?g) = _ => exists g;
      let E := fresh in assert (E : f = total g) by (now inversion J);
      let N := fresh in assert (N : n = m) by (now inversion J); clear J; rewrite N in *; split; [exact E|]
    end.
    - exact forms_any_duplicated.
    - exact forms_any_is_na.
    - exact forms_class_identical.
    - exact forms_expect_length.
    - exact forms_expect_named.
    - exact forms_expect_not.
    - exact forms_expect_null.
    - exact forms_expect_s3_class.
    - exact forms_expect_type.
    - exact forms_expect_true_false.
    - exact forms_length_levels.
    - exact forms_list2df.
    - exact forms_matrix_apply.
    - exact forms_outer_negation.
    - exact forms_seq2.
    - exact forms_which_grepl.
    - exact forms_any_is_na_2.
    - exact forms_class_equals.
    - exact forms_is_numeric.
    - exact forms_seq.
    - exact forms_coalesce.
    - exact forms_sort.
    - exact forms_comparison_negation.
  }
  destruct F as (rule & F & X). pose proof (listed_one f r rs rule fs e F Hf Hr) as L. subst f.
  exact (X s sh fs e r t b a q p g L T W Q K E B R Z).
Qed.
