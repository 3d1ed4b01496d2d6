From Verif Require Import Model.Messages Spec.AdviceSpec Proofs.TextProofs Proofs.AdviceProofs.

(** The code reported, and its fix, are of the forms that the message shows. *)
Definition forms (rule : list frame -> expr -> option report) (n : text) : Prop :=
  forall s sh fs e r t b a q p g, rule fs e = Some r -> new_text r = Some t ->
  said s sh n fs e = (b, Some a) -> In q (quotations b) -> code q = Some p -> e = read_as g p -> bare g ->
  a <> instead (lit "seq_len(nrow((...))") -> (forall x, p <> EAtom x) ->
  at_node r = e /\ rewritten_as_shown g a t.

Ltac words W :=
  match type of W with (?x, Some ?y) = (?b, Some ?a) =>
    let A := fresh "Wa" in let B := fresh "Wb" in
    assert (A : a = y) by (symmetry; apply some_of; exact (f_equal snd W));
    assert (B : b = x) by (symmetry; exact (f_equal fst W)); clear W; subst a b end.
Ltac quoted Q := match type of Q with In ?q (quotations ?b) =>
  let v := eval vm_compute in (quotations b) in
  let X := fresh in assert (X : quotations b = v) by reads; rewrite X in Q; clear X end.
Ltac each_quote Q := match type of Q with In _ (_ :: _) => destruct Q as [Q|Q]; [subst|] | In _ [] => destruct Q end.
Ltac form K P := match type of K with code _ = Some ?p =>
  let X := fresh in assert (X : P = p) by (apply some_of; rewrite <- K; reads); subst p; clear K end.
Ltac saying W v := match type of W with ?x = _ =>
  let X := fresh in assert (X : x = v) by reads; rewrite X in W; clear X end.
Ltac no_form K := exfalso; vm_compute in K; discriminate.

(** The report of a rule on code of a form. *)
Lemma as_shown (rule : list frame -> expr -> option report) fs e r t g a q more p2 :
  rule fs e = Some r -> new_text r = Some t ->
  quotations a = q :: more -> code q = Some p2 ->
  rule fs e = Some (mk_report fs e (Some (toks (read_as g p2)))) ->
  at_node r = e /\ rewritten_as_shown g a t.
Proof.
  intros H T A B X. rewrite X in H. apply some_of in H. subst r. cbn [new_text] in T. apply some_of in T. subst t.
  split; [reflexivity|]. now exists q, more, p2.
Qed.

Lemma dots_end g f : stands_for_code f = false ->
  read_as g (ECall (EAtom (AId f)) [any_args]) = ECall (EAtom (AId f)) (dots g).
Proof. intros N. transitivity (ECall (read_as g (EAtom (AId f))) (dots g ++ [])); [reflexivity|]. rewrite app_nil_r. cbn [read_as]. now rewrite N. Qed.
Lemma one_x g f : stands_for_code f = false ->
  read_as g (ECall (EAtom (AId f)) [hole (lit "x")]) = ECall (EAtom (AId f)) [(None, Some (stands g (lit "x")))].
Proof. intros N. cbn [read_as flat_map hole is_dots app]. rewrite N. reflexivity. Qed.
Lemma nested_dots g f h : stands_for_code f = false -> stands_for_code h = false ->
  read_as g (ECall (EAtom (AId f)) [(None, Some (ECall (EAtom (AId h)) [any_args]))]) =
  ECall (EAtom (AId f)) [(None, Some (ECall (EAtom (AId h)) (dots g)))].
Proof.
  intros N M. transitivity (ECall (read_as g (EAtom (AId f))) [(None, Some (read_as g (ECall (EAtom (AId h)) [any_args])))]); [reflexivity|].
  rewrite dots_end by exact M. cbn [read_as]. now rewrite N.
Qed.
Definition nested (f h : text) : expr := ECall (EAtom (AId f)) [(None, Some (ECall (EAtom (AId h)) [any_args]))].

Lemma forms_any_is_na : forms any_is_na (lit "any_is_na").
Proof.
  intros s sh fs e r t b a q p g H T W Q K E _ _ _.
  destruct e as [| | | |f args| | | | | | | |]; try discriminate.
  saying W (lit "`any(is.na(...))` is inefficient.", Some (lit "Use `anyNA(...)` instead.")).
  words W. quoted Q. repeat each_quote Q. form K (nested (lit "any") (lit "is.na")).
  eapply (as_shown any_is_na fs _ r t g _ _ _ (ECall (EAtom (AId (lit "anyNA"))) [any_args]) H T); [reads|reads|].
  rewrite E. unfold nested. rewrite nested_dots, dots_end by reads. reads.
Qed.
Definition x_in (f : text) (v : expr) : expr := ECall (EAtom (AId f)) [(None, Some v)].
Lemma forms_any_is_na_2 : forms any_is_na_2 (lit "any_is_na").
Proof.
  intros s sh fs e r t b a q p g H T W Q K E _ _ _.
  destruct e as [| | |o nl l rr| | | | | | | | |]; try discriminate.
  saying W (lit "`NA %in% x` is inefficient.", Some (lit "Use `anyNA(x)` instead.")).
  words W. quoted Q. repeat each_quote Q.
  form K (EBin (BSpecial (lit "%in%")) false (EAtom (ANa (lit "NA"))) (EAtom (AId (lit "x")))).
  eapply (as_shown any_is_na_2 fs _ r t g _ _ _ (ECall (EAtom (AId (lit "anyNA"))) [hole (lit "x")]) H T); [reads|reads|].
  rewrite one_x by reads. rewrite E in *.
  change (read_as g _) with (EBin (BSpecial (lit "%in%")) false (EAtom (ANa (lit "NA"))) (stands g (lit "x"))) in *.
  unfold any_is_na_2 in *. change (teqb (lit "%in%") (lit "%in%")) with true in *. cbn iota in *.
  destruct (stands g (lit "x")); try reflexivity. destruct a; try reflexivity. discriminate.
Qed.
Lemma forms_any_duplicated : forms any_duplicated (lit "any_duplicated").
Proof.
  intros s sh fs e r t b a q p g H T W Q K E _ _ _.
  saying W (lit "`any(duplicated(...))` is inefficient.", Some (lit "Use `anyDuplicated(...) > 0` instead.")).
  words W. quoted Q. repeat each_quote Q. form K (nested (lit "any") (lit "duplicated")).
  eapply (as_shown any_duplicated fs _ r t g _ _ _ (EBin (BCmp CGt) false (ECall (EAtom (AId (lit "anyDuplicated"))) [any_args]) (EAtom (ANum (lit "0")))) H T); [reads|reads|].
  change (read_as g (EBin (BCmp CGt) false ?x (EAtom (ANum (lit "0"))))) with (EBin (BCmp CGt) false (read_as g x) (EAtom (ANum (lit "0")))).
  unfold nested. rewrite nested_dots, dots_end by reads. reads.
Qed.
Lemma forms_length_levels : forms length_levels (lit "length_levels").
Proof.
  intros s sh fs e r t b a q p g H T W Q K E _ _ _.
  saying W (lit "`length(levels(...))` is less readable than `nlevels(...)`.", Some (lit "Use `nlevels(...)` instead.")).
  words W. quoted Q. repeat each_quote Q.
  - form K (nested (lit "length") (lit "levels")).
    eapply (as_shown length_levels fs _ r t g _ _ _ (ECall (EAtom (AId (lit "nlevels"))) [any_args]) H T); [reads|reads|].
    unfold nested. rewrite nested_dots, dots_end by reads. reads.
  - form K (ECall (EAtom (AId (lit "nlevels"))) [any_args]). rewrite dots_end in H by reads. discriminate.
Qed.
Lemma forms_which_grepl : forms which_grepl (lit "which_grepl").
Proof.
  intros s sh fs e r t b a q p g H T W Q K E _ _ _.
  saying W (lit "`which(grepl(pattern, x))` is less efficient than `grep(pattern, x)`.", Some (lit "Use `grep(pattern, x)` instead.")).
  words W. quoted Q. repeat each_quote Q.
  - form K (ECall (EAtom (AId (lit "which"))) [(None, Some (ECall (EAtom (AId (lit "grepl"))) [hole (lit "pattern"); hole (lit "x")]))]).
    eapply (as_shown which_grepl fs _ r t g _ _ _ (ECall (EAtom (AId (lit "grep"))) [hole (lit "pattern"); hole (lit "x")]) H T); [reads|reads|].
    reads.
  - form K (ECall (EAtom (AId (lit "grep"))) [hole (lit "pattern"); hole (lit "x")]). discriminate.
Qed.
Lemma forms_comparison_negation : forms comparison_negation (lit "comparison_negation").
Proof.
  intros s sh fs e r t b a q p g H T W Q K E _ _ _.
  pose proof H as H'. unfold comparison_negation in H. destruct e; try discriminate. destruct u; try discriminate.
  destruct e; try discriminate. destruct e; try discriminate. destruct o; try discriminate.
  saying W (say_comparison_negation (EUn UNot (EParen (EBin (BCmp c) nl e1 e2)))).
  unfold say_comparison_negation in W. words W.
  assert (P : p = EUn UNot (EParen (EBin (BCmp c) false (EAtom (AId (lit "x"))) (EAtom (AId (lit "y")))))).
  { destruct c; quoted Q; repeat each_quote Q; apply some_of; rewrite <- K; reads. }
  subst p. change (read_as g _) with (EUn UNot (EParen (EBin (BCmp c) false (stands g (lit "x")) (stands g (lit "y"))))) in E.
  inversion E. subst.
  eapply (as_shown comparison_negation fs _ r t g _ (lit "x " ++ comparison_text (negated c) ++ lit " y") [] (EBin (BCmp (negated c)) false (EAtom (AId (lit "x"))) (EAtom (AId (lit "y")))) H' T).
  - destruct c; reads.
  - destruct c; reads.
  - reflexivity.
Qed.
Lemma forms_outer_negation : forms outer_negation (lit "outer_negation").
Proof.
  intros s sh fs e r t b a q p g H T W Q K E _ _ _.
  saying W (say_outer_negation e). unfold say_outer_negation in W.
  assert (Y : forall v, outer_negation fs (x_in v (EUn UNot (stands g (lit "x")))) = Some r -> v = lit "any" \/ v = lit "all" ->
    outer_negation fs (x_in v (EUn UNot (stands g (lit "x")))) =
    Some (mk_report fs (x_in v (EUn UNot (stands g (lit "x"))))
      (Some (TBang :: call_text (if teqb v (lit "any") then lit "all" else lit "any") (toks (stands g (lit "x"))))))).
  { intros v X [ -> | -> ]; unfold x_in, outer_negation in *; destruct (parent_is_bang_unary fs); try discriminate;
      destruct (stands g (lit "x")); try reflexivity; discriminate. }
  destruct (teqb (called e) (lit "any")) eqn:N; words W; quoted Q; repeat each_quote Q.
  - form K (x_in (lit "any") (EUn UNot (EAtom (AId (lit "x"))))).
    eapply (as_shown outer_negation fs _ r t g _ _ _ (EUn UNot (ECall (EAtom (AId (lit "all"))) [hole (lit "x")])) H T); [reads|reads|].
    exact (Y (lit "any") H (or_introl eq_refl)).
  - form K (x_in (lit "all") (EUn UNot (EAtom (AId (lit "x"))))).
    eapply (as_shown outer_negation fs _ r t g _ _ _ (EUn UNot (ECall (EAtom (AId (lit "any"))) [hole (lit "x")])) H T); [reads|reads|].
    exact (Y (lit "all") H (or_intror eq_refl)).
Qed.
Lemma tok_same t : same_text t t = true.
Proof. unfold same_text. destruct (list_eq_dec tok_eq_dec t t); congruence. Qed.
Lemma single_bare g x : bare g -> single_expression (stands g x) = stands g x.
Proof. intros B. specialize (B x). destruct (stands g x); try reflexivity. contradiction. Qed.
Lemma several_bare g x : bare g -> has_multiple_expressions (stands g x) = false.
Proof. intros B. specialize (B x). destruct (stands g x); try reflexivity. contradiction. Qed.
Definition isn (v : expr) : expr := ECall (EAtom (AId (lit "is.null"))) [(None, Some v)].
Definition or_else (x y : expr) : expr := EBin (BSpecial (lit "%||%")) false x y.
Lemma is_isn : teqb (get_function_name (EAtom (AId (lit "is.null")))) (lit "is.null") = true.
Proof. reads. Qed.
Lemma run_coalesce_1 fs x y : single_expression x = x -> single_expression y = y ->
  has_multiple_expressions x = false -> has_multiple_expressions y = false ->
  coalesce fs (EIf (EUn UNot (isn x)) x (Some y)) =
  Some (mk_report fs (EIf (EUn UNot (isn x)) x (Some y)) (Some (toks (or_else x y)))).
Proof.
  intros A B C D. unfold coalesce, isn. cbv zeta. rewrite is_isn. cbn iota. unfold given_values. cbn [flat_map snd app].
  rewrite ?A, ?B, ?C, ?D, ?tok_same. reflexivity.
Qed.
Lemma run_coalesce_2 fs x y : single_expression x = x -> single_expression y = y ->
  has_multiple_expressions x = false -> has_multiple_expressions y = false ->
  coalesce fs (EIf (isn x) y (Some x)) =
  Some (mk_report fs (EIf (isn x) y (Some x)) (Some (toks (or_else x y)))).
Proof.
  intros A B C D. unfold coalesce, isn. cbv zeta. rewrite is_isn. cbn iota. unfold given_values. cbn [flat_map snd app].
  rewrite ?A, ?B, ?C, ?D, ?tok_same. reflexivity.
Qed.
Lemma read_coalesce_1 g : read_as g (EIf (EUn UNot (isn (EAtom (AId (lit "x"))))) (EAtom (AId (lit "x"))) (Some (EAtom (AId (lit "y"))))) =
  EIf (EUn UNot (isn (stands g (lit "x")))) (stands g (lit "x")) (Some (stands g (lit "y"))).
Proof. reflexivity. Qed.
Lemma read_coalesce_2 g : read_as g (EIf (isn (EAtom (AId (lit "x")))) (EAtom (AId (lit "y"))) (Some (EAtom (AId (lit "x"))))) =
  EIf (isn (stands g (lit "x"))) (stands g (lit "y")) (Some (stands g (lit "x"))).
Proof. reflexivity. Qed.
Lemma read_or_else g : read_as g (or_else (EAtom (AId (lit "x"))) (EAtom (AId (lit "y")))) = or_else (stands g (lit "x")) (stands g (lit "y")).
Proof. reflexivity. Qed.
Lemma say_coalesce_cases e :
  say_coalesce e = (lit "`if (!is.null(x)) x else y` can be simplified.", Some (lit "Use `x %||% y` instead.")) \/
  say_coalesce e = (lit "`if (is.null(x)) y else x` can be simplified.", Some (lit "Use `x %||% y` instead.")).
Proof. destruct e; try (right; reflexivity). destruct e1; first [left; reflexivity|right; reflexivity]. Qed.
Lemma forms_coalesce : forms coalesce (lit "coalesce").
Proof.
  intros s sh fs e r t b a q p g H T W Q K E B _ _.
  assert (W' : say_coalesce e = (b, Some a)) by (rewrite <- W; reads). clear W.
  destruct (say_coalesce_cases e) as [X|X]; rewrite X in W'; clear X; words W'; quoted Q; repeat each_quote Q.
  - form K (EIf (EUn UNot (isn (EAtom (AId (lit "x"))))) (EAtom (AId (lit "x"))) (Some (EAtom (AId (lit "y"))))).
    eapply (as_shown coalesce fs _ r t g _ _ _ (or_else (EAtom (AId (lit "x"))) (EAtom (AId (lit "y")))) H T); [reads|reads|].
    rewrite read_or_else, read_coalesce_1. apply run_coalesce_1; first [now apply single_bare|now apply several_bare].
  - form K (EIf (isn (EAtom (AId (lit "x")))) (EAtom (AId (lit "y"))) (Some (EAtom (AId (lit "x"))))).
    eapply (as_shown coalesce fs _ r t g _ _ _ (or_else (EAtom (AId (lit "x"))) (EAtom (AId (lit "y")))) H T); [reads|reads|].
    rewrite read_or_else, read_coalesce_2. apply run_coalesce_2; first [now apply single_bare|now apply several_bare].
Qed.
(** The advice of seq and seq2 on a size function. *)
Definition size_advice (n : text) : text := if teqb n (lit "length") then lit "seq_along(...)" else lit "seq_len(" ++ n ++ lit "(...))".
Definition size_form (n : text) : expr :=
  if teqb n (lit "length") then ECall (EAtom (AId (lit "seq_along"))) [any_args]
  else ECall (EAtom (AId (lit "seq_len"))) [(None, Some (ECall (EAtom (AId n)) [any_args]))].
Definition is_size (n : text) : Prop :=
  n = lit "length" \/ n = lit "nrow" \/ n = lit "ncol" \/ n = lit "NROW" \/ n = lit "NCOL".
Lemma size_code n : is_size n -> quotations (instead (size_advice n)) = [size_advice n] /\ code (size_advice n) = Some (size_form n).
Proof. intros [ -> |[ -> |[ -> |[ -> | -> ]]]]; split; reads. Qed.
Lemma size_toks g n : is_size n -> toks (read_as g (size_form n)) = seq_text n (args_toks (dots g)).
Proof.
  intros [ -> |[ -> |[ -> |[ -> | -> ]]]];
    (match goal with |- toks (read_as g (size_form ?n)) = _ => let v := eval cbv [size_form] in (size_form n) in change (size_form n) with v end;
     match goal with |- context [teqb ?a ?b] => let v := eval vm_compute in (teqb a b) in change (teqb a b) with v end; cbn iota;
     rewrite ?nested_dots, ?dots_end by reads; reflexivity).
Qed.
Lemma forms_seq : forms seq_rule (lit "seq").
Proof.
  intros s sh fs e r t b a q p g H T W Q K E _ R _.
  pose proof H as H'. unfold seq_rule in H. destruct e; try discriminate. destruct o; try discriminate. destruct e2; try discriminate.
  destruct (_ && _) eqn:C; [|discriminate]. apply andb_true_iff in C. destruct C as [_ C]. apply size_cases in C.
  saying W (say_seq (EBin BColon nl e1 (ECall e2 args))). unfold say_seq, called in W.
  set (n := get_function_name e2) in *. clearbody n.
  assert (X : (lit "`1:" ++ n ++ lit "(...)` can be wrong if the RHS is 0.", Some (instead (size_advice n))) = (b, Some a)).
  { destruct C as [ -> |[ -> |[ -> |[ -> | -> ]]]]; try exact W. exfalso. apply R. symmetry. exact (some_of _ _ (f_equal snd W)). }
  clear W R. words X.
  assert (P : p = EBin BColon false (EAtom (ANum (lit "1"))) (ECall (EAtom (AId n)) [any_args])).
  { clear - Q K C. destruct C as [ -> |[ -> |[ -> |[ -> | -> ]]]]; quoted Q; repeat each_quote Q; apply some_of; rewrite <- K; reads. }
  subst p. destruct (size_code n C) as [S1 S2].
  eapply (as_shown seq_rule fs _ r t g _ _ _ (size_form n) H' T S1 S2). rewrite E.
  change (read_as g (EBin BColon false ?u ?v)) with (EBin BColon false (read_as g u) (read_as g v)).
  rewrite dots_end by (destruct C as [ -> |[ -> |[ -> |[ -> | -> ]]]]; reads).
  unfold seq_rule. cbn [get_function_name]. rewrite size_toks by exact C.
  destruct C as [ -> |[ -> |[ -> |[ -> | -> ]]]]; reflexivity.
Qed.
Lemma forms_seq2 : forms seq2_rule (lit "seq2").
Proof.
  intros s sh fs e r t b a q p g H T W Q K E _ R _.
  pose proof H as H'. unfold seq2_rule in H. destruct e; try discriminate.
  destruct args as [|[[k|] [v|]] [|]]; try discriminate; destruct v; try discriminate.
  destruct (_ && _) eqn:C; [|discriminate]. apply andb_true_iff in C. destruct C as [_ C]. apply size_cases in C.
  saying W (say_seq2 (ECall e [(None, Some (ECall v args))])). unfold say_seq2, called in W.
  set (n := get_function_name v) in *. clearbody n.
  assert (X : (lit "`seq(" ++ n ++ lit "(...))` can be wrong if the argument has length 0.", Some (instead (size_advice n))) = (b, Some a)).
  { destruct C as [ -> |[ -> |[ -> |[ -> | -> ]]]]; exact W. }
  clear W R. words X.
  assert (P : p = nested (lit "seq") n).
  { clear - Q K C. destruct C as [ -> |[ -> |[ -> |[ -> | -> ]]]]; quoted Q; repeat each_quote Q; apply some_of; rewrite <- K; reads. }
  subst p. destruct (size_code n C) as [S1 S2].
  eapply (as_shown seq2_rule fs _ r t g _ _ _ (size_form n) H' T S1 S2). rewrite E. unfold nested.
  rewrite nested_dots by first [reads|destruct C as [ -> |[ -> |[ -> |[ -> | -> ]]]]; reads].
  unfold seq2_rule. cbn [get_function_name]. rewrite size_toks by exact C.
  destruct C as [ -> |[ -> |[ -> |[ -> | -> ]]]]; reflexivity.
Qed.
Lemma forms_sort : forms sort_rule (lit "sort").
Proof.
  intros s sh fs e r t b a q p g H T W Q K E _ _ _.
  saying W (lit "`x[order(x)]` is inefficient.", Some (lit "Use `sort(x)` instead.")).
  words W. quoted Q. repeat each_quote Q.
  form K (ESub false (EAtom (AId (lit "x"))) [(None, Some (ECall (EAtom (AId (lit "order"))) [hole (lit "x")]))]).
  eapply (as_shown sort_rule fs _ r t g _ _ _ (ECall (EAtom (AId (lit "sort"))) [hole (lit "x")]) H T); [reads|reads|].
  rewrite one_x by reads.
  change (read_as g (ESub _ _ _)) with (ESub false (stands g (lit "x")) [(None, Some (ECall (EAtom (AId (lit "order"))) [(None, Some (stands g (lit "x")))]))]).
  generalize (stands g (lit "x")). intros x. unfold sort_rule.
  change (teqb (get_function_name (EAtom (AId (lit "order")))) (lit "order")) with true. cbn iota.
  change (get_unnamed_args [(None, Some x)]) with [(None : option text, Some x)]. cbn iota.
  change (arg_toks (None, Some x)) with (toks x). rewrite tok_same. reflexivity.
Qed.
Lemma forms_list2df : forms list2df (lit "list2df").
Proof.
  intros s sh fs e r t b a q p g H T W Q K E _ _ _.
  saying W (lit "`do.call(cbind.data.frame, x)` is inefficient and can be hard to read.", Some (lit "Use `list2DF(x)` instead.")).
  words W. quoted Q. repeat each_quote Q.
  form K (ECall (EAtom (AId (lit "do.call"))) [hole (lit "cbind.data.frame"); hole (lit "x")]).
  eapply (as_shown list2df fs _ r t g _ _ _ (ECall (EAtom (AId (lit "list2DF"))) [hole (lit "x")]) H T); [reads|reads|].
  reads.
Qed.
Lemma forms_is_numeric : forms is_numeric (lit "is_numeric").
Proof.
  intros s sh fs e r t b a q p g H T W Q K E _ _ _.
  saying W (lit "`is.numeric(x) || is.integer(x)` is redundant.",
     Some (lit "Use `is.numeric(x)` instead. Use `is.double(x)` to test for objects stored as 64-bit floating point")).
  words W. quoted Q. repeat each_quote Q.
  form K (EBin BOr2 false (ECall (EAtom (AId (lit "is.numeric"))) [hole (lit "x")]) (ECall (EAtom (AId (lit "is.integer"))) [hole (lit "x")])).
  eapply (as_shown is_numeric fs _ r t g _ _ _ (ECall (EAtom (AId (lit "is.numeric"))) [hole (lit "x")]) H T); [reads|reads|].
  rewrite one_x by reads.
  change (read_as g (EBin _ _ _ _)) with (EBin BOr2 false (ECall (EAtom (AId (lit "is.numeric"))) [(None, Some (stands g (lit "x")))]) (ECall (EAtom (AId (lit "is.integer"))) [(None, Some (stands g (lit "x")))])).
  unfold is_numeric. rewrite tok_same. reflexivity.
Qed.
Lemma forms_matrix_apply : forms matrix_apply (lit "matrix_apply").
Proof.
  intros s sh fs e r t b a q p g H T W Q K E _ _ _.
  saying W (say_matrix_apply e).
  assert (D : exists m k n, In (m, k, n) [(lit "1", lit "mean", lit "rowMeans"); (lit "2", lit "mean", lit "colMeans");
                                         (lit "1", lit "sum", lit "rowSums"); (lit "2", lit "sum", lit "colSums")] /\
              (lit "`apply(x, " ++ m ++ lit ", " ++ k ++ lit ")` is inefficient.", Some (instead (n ++ lit "(x)"))) = (b, Some a)).
  { unfold say_matrix_apply in W. destruct e; try discriminate.
    destruct (get_arg_by_name_then_position _ _ 3) as [[? [u|]]|]; try discriminate.
    destruct (get_arg_by_name_then_position _ _ 2) as [[? [v|]]|]; try discriminate.
    destruct (is_id (lit "mean") u); destruct (lit_in _ v).
    - exists (lit "1"), (lit "mean"), (lit "rowMeans"). split; [cbn [In]; auto|rewrite <- W; reads].
    - exists (lit "2"), (lit "mean"), (lit "colMeans"). split; [cbn [In]; auto|rewrite <- W; reads].
    - exists (lit "1"), (lit "sum"), (lit "rowSums"). split; [cbn [In]; auto|rewrite <- W; reads].
    - exists (lit "2"), (lit "sum"), (lit "colSums"). split; [cbn [In]; auto 6|rewrite <- W; reads]. }
  clear W. destruct D as (m & k & n & I & W). words W.
  assert (P : p = ECall (EAtom (AId (lit "apply"))) [hole (lit "x"); (None, Some (EAtom (ANum m))); hole k]).
  { clear - I Q K. cbn [In] in I. decompose [or] I; try contradiction;
      match goal with X : (_, _, _) = (_, _, _) |- _ => apply (f_equal (fun x => x)) in X; inversion X; subst m k n end;
      quoted Q; repeat each_quote Q; apply some_of; rewrite <- K; reads. }
  subst p.
  assert (X : matrix_apply fs e = Some (mk_report fs e (Some (toks (read_as g (ECall (EAtom (AId n)) [hole (lit "x")])))))).
  { transitivity (Some (mk_report fs e (Some (call_text n (toks (stands g (lit "x")) ++ []))))).
    - rewrite E. clear - I. cbn [In] in I. decompose [or] I; try contradiction;
        match goal with X : (_, _, _) = (_, _, _) |- _ => inversion X; subst m k n end; reflexivity.
    - rewrite app_nil_r. clear - I. cbn [In] in I. decompose [or] I; try contradiction;
        match goal with X : (_, _, _) = (_, _, _) |- _ => inversion X; subst m k n end; reflexivity. }
  eapply (as_shown matrix_apply fs _ r t g _ (n ++ lit "(x)") [] (ECall (EAtom (AId n)) [hole (lit "x")]) H T); [| |exact X];
    clear - I; cbn [In] in I; decompose [or] I; try contradiction;
      match goal with X : (_, _, _) = (_, _, _) |- _ => inversion X; subst m k n end; reads.
Qed.
Lemma forms_class_equals : forms class_equals (lit "class_equals").
Proof.
  intros s sh fs e r t b a q p g H T W Q K E _ _ _.
  exfalso. destruct e; try discriminate.
  saying W (lit "Comparing `class(x)` with `==` or `%in%` can be problematic.",
       Some (lit "Use `inherits(x, 'a')` instead.")).
  words W. quoted Q. repeat each_quote Q; try (vm_compute in K; discriminate).
  form K (ECall (EAtom (AId (lit "class"))) [hole (lit "x")]). discriminate.
Qed.
Lemma forms_class_identical : forms class_identical (lit "class_equals").
Proof.
  intros s sh fs e r t b a q p g H T W Q K E _ _ _.
  destruct e; try discriminate.
  saying W (lit "Using `identical(class(x), 'a')` can be problematic.", Some (lit "Use `inherits(x, 'a')` instead.")).
  words W. quoted Q. repeat each_quote Q.
  form K (ECall (EAtom (AId (lit "identical"))) [(None, Some (ECall (EAtom (AId (lit "class"))) [hole (lit "x")])); (None, Some (EAtom (AStr (lit "'a'"))))]).
  eapply (as_shown class_identical fs _ r t g _ _ _ (ECall (EAtom (AId (lit "inherits"))) [hole (lit "x"); (None, Some (EAtom (AStr (lit "'a'"))))]) H T); [reads|reads|].
  rewrite E in *.
  change (read_as g (ECall (EAtom (AId (lit "identical"))) _)) with
    (ECall (EAtom (AId (lit "identical"))) [(None, Some (ECall (EAtom (AId (lit "class"))) [(None, Some (stands g (lit "x")))])); (None, Some (stands g (lit "'a'")))]) in *.
  unfold class_identical in *.
  change (teqb (get_function_name (EAtom (AId (lit "identical")))) (lit "identical")) with true in *. cbn iota in *.
  change (toks (read_as g (ECall (EAtom (AId (lit "inherits"))) _))) with (call_text (lit "inherits") (toks (stands g (lit "x")) ++ TComma :: toks (stands g (lit "'a'")))).
  destruct (stands g (lit "'a'")); try discriminate. destruct a; try discriminate. reflexivity.
Qed.
(** Expectations: [f(inner, last)] *)
Lemma expect_equal_cases f : is_expect_equal f = true -> get_function_name f = lit "expect_equal" \/ get_function_name f = lit "expect_identical".
Proof. unfold is_expect_equal, mem. cbn [existsb]. intros H. apply orb_true_iff in H. destruct H as [H|H]; [left; now apply teqb_eq|]. right. rewrite orb_false_r in H. now apply teqb_eq. Qed.
Definition is_equal_name (f : text) : Prop := f = lit "expect_equal" \/ f = lit "expect_identical".
Definition pair_call (f h : text) (x y : expr) : expr :=
  ECall (EAtom (AId f)) [(None, Some (ECall (EAtom (AId h)) [(None, Some x)])); (None, Some y)].
Definition call2 (f : text) (x y : expr) : expr := ECall (EAtom (AId f)) [(None, Some x); (None, Some y)].
Ltac two C := destruct C as [ -> | -> ].
Ltac wrong_name C E f := exfalso; unfold f in C; rewrite E in C; destruct C as [C|C]; vm_compute in C; discriminate.
Ltac find_form C Q K f := clear - C Q K; clearbody f; two C; quoted Q; repeat each_quote Q;
  solve [left; apply some_of; rewrite <- K; reads | right; apply some_of; rewrite <- K; reads].

Lemma run_expect_length fs f x y : is_equal_name f -> expect_length fs (pair_call f (lit "length") x y) =
  if is_call_named (lit "length") y then None
  else Some (mk_report fs (pair_call f (lit "length") x y) (Some (toks (call2 (lit "expect_length") x y)))).
Proof. intros C. two C; reflexivity. Qed.
Lemma run_expect_named fs f x y : is_equal_name f -> expect_named fs (pair_call f (lit "names") x y) =
  if is_call_named (lit "names") y then None
  else Some (mk_report fs (pair_call f (lit "names") x y) (Some (toks (call2 (lit "expect_named") x y)))).
Proof. intros C. two C; reflexivity. Qed.
Lemma run_expect_s3_class fs f x y : is_equal_name f -> expect_s3_class fs (pair_call f (lit "class") x y) =
  if is_s3_class y then Some (mk_report fs (pair_call f (lit "class") x y) (Some (toks (call2 (lit "expect_s3_class") x y)))) else None.
Proof. intros C. two C; reflexivity. Qed.
Lemma run_expect_type fs f x y : is_equal_name f -> expect_type fs (pair_call f (lit "typeof") x y) =
  Some (mk_report fs (pair_call f (lit "typeof") x y) (Some (toks (call2 (lit "expect_type") x y)))).
Proof. intros C. two C; reflexivity. Qed.

Lemma forms_expect_length : forms expect_length (lit "expect_length").
Proof.
  intros s sh fs e r t b a q p g H T W Q K E _ _ _.
  saying W (lit "`expect_length(x, n)` is better than `" ++ called e ++ lit "(length(x), n)`.", Some (lit "Use `expect_length(x, n)` instead.")).
  assert (C : is_equal_name (called e)).
  { unfold expect_length in H. destruct e; try discriminate. destruct (is_expect_equal e) eqn:X; [|discriminate]. now apply expect_equal_cases. }
  set (f := called e) in *. words W.
  assert (P : p = call2 (lit "expect_length") (EAtom (AId (lit "x"))) (EAtom (AId (lit "n"))) \/
              p = pair_call f (lit "length") (EAtom (AId (lit "x"))) (EAtom (AId (lit "n")))) by (find_form C Q K f).
  destruct P as [ -> | -> ]; [wrong_name C E f|clearbody f].
  assert (E' : e = pair_call f (lit "length") (stands g (lit "x")) (stands g (lit "n"))) by (rewrite E; clear - C; two C; reflexivity).
  eapply (as_shown expect_length fs _ r t g _ _ _ (call2 (lit "expect_length") (EAtom (AId (lit "x"))) (EAtom (AId (lit "n")))) H T); [reads|reads|].
  rewrite E', run_expect_length in * by exact C. destruct (is_call_named _ _); [discriminate|reflexivity].
Qed.
Lemma forms_expect_named : forms expect_named (lit "expect_named").
Proof.
  intros s sh fs e r t b a q p g H T W Q K E _ _ _.
  saying W (lit "`expect_named(x, n)` is better than `" ++ called e ++ lit "(names(x), n)`.", Some (lit "Use `expect_named(x, n)` instead.")).
  assert (C : is_equal_name (called e)).
  { unfold expect_named in H. destruct e; try discriminate. destruct (is_expect_equal e) eqn:X; [|discriminate]. now apply expect_equal_cases. }
  set (f := called e) in *. words W.
  assert (P : p = call2 (lit "expect_named") (EAtom (AId (lit "x"))) (EAtom (AId (lit "n"))) \/
              p = pair_call f (lit "names") (EAtom (AId (lit "x"))) (EAtom (AId (lit "n")))) by (find_form C Q K f).
  destruct P as [ -> | -> ]; [wrong_name C E f|clearbody f].
  assert (E' : e = pair_call f (lit "names") (stands g (lit "x")) (stands g (lit "n"))) by (rewrite E; clear - C; two C; reflexivity).
  eapply (as_shown expect_named fs _ r t g _ _ _ (call2 (lit "expect_named") (EAtom (AId (lit "x"))) (EAtom (AId (lit "n")))) H T); [reads|reads|].
  rewrite E', run_expect_named in * by exact C. destruct (is_call_named _ _); [discriminate|reflexivity].
Qed.
