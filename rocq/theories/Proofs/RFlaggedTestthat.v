(** The testthat rules: exactly what they report. *)
From Verif Require Import Spec.RFlagged Proofs.TextProofs Proofs.RulesProofs Proofs.RStopsProofs Proofs.LintConstant Proofs.RFlaggedProofs
  Proofs.RFlaggedCompare Proofs.RFlaggedCalls Proofs.RFlaggedMore.

Lemma object_expected_iff : forall args a b, object_expected args = Some (a, b) <->
  given args (lit "object") 1 a /\ given args (lit "expected") 2 b.
Proof.
  intros args a b. rewrite !given_iff. unfold object_expected.
  destruct (get_arg_by_name_then_position args (lit "object") 1) as [[m [x|]]|];
    destruct (get_arg_by_name_then_position args (lit "expected") 2) as [[n [y|]]|]; cbn [arg_value];
    split; try (intros [H1 H2]); try (intro H1); try discriminate; try congruence.
  split; congruence.
Qed.
Lemma equal_expectation_iff : forall f args (P : list arg -> expr -> expr -> Prop),
  (exists l a b, equal_expectation (ECall f args) l a b /\ P l a b) <->
  is_expect_equal f = true /\ exists a b, object_expected args = Some (a, b) /\ P args a b.
Proof.
  intros f args P. unfold equal_expectation, is_expect_equal. split.
  - intros (l & a & b & (H & A & B) & HP). apply calls_one_iff in H; [|nl]. destruct H as [-> H]. split; [exact H|].
    exists a, b. split; [apply object_expected_iff; auto|exact HP].
  - intros (H & a & b & O & HP). apply object_expected_iff in O. destruct O as [A B]. exists args, a, b.
    split; [split; [apply calls_one_iff; [nl|auto]|auto]|exact HP].
Qed.
Lemma applied_iff : forall n e x, n <> [] -> (applied_to n e x <-> is_call_named n e = true /\ x_of e = Some x).
Proof.
  intros n e x Hn. unfold applied_to. split.
  - intros (args & (f & -> & H) & G). split; [apply calls_name; auto|apply given_iff, G].
  - intros [H G]. destruct e as [ | | | |f args| | | | | | | | ]; try discriminate H. cbn [is_call_named] in H.
    exists args. split; [apply calls_iff; split; [reflexivity|apply named_is; auto]|apply given_iff, G].
Qed.
Lemma is_not_call : forall n e, n <> [] -> (is_call_named n e = false <-> ~ is_call_of n e).
Proof.
  intros n e Hn. rewrite <- (call_named_iff n e Hn). destruct (is_call_named n e); split; try discriminate; auto.
  intro H. destruct H. reflexivity.
Qed.
(** Both sides start with the same test and the same pair. *)
Lemma expectation_flags : forall f args (rep : expr -> expr -> option report) (P : list arg -> expr -> expr -> Prop),
  (forall a b, some (rep a b) <-> P args a b) ->
  (some (if is_expect_equal f then match object_expected args with Some (a, b) => rep a b | None => None end else None) <->
   exists l a b, equal_expectation (ECall f args) l a b /\ P l a b).
Proof.
  intros f args rep P H. rewrite equal_expectation_iff.
  destruct (is_expect_equal f); [|apply some_no_iff; intros [F _]; discriminate F].
  rewrite true_and. destruct (object_expected args) as [[a b]|].
  - rewrite H. split; [eauto|]. intros (a' & b' & E & HP). congruence.
  - apply some_no_iff. intros (? & ? & F & _). discriminate F.
Qed.
Lemma too_many : forall n (args : list arg), (n <? length args) = true -> ~ length args <= n.
Proof. intros n args H. apply Nat.ltb_lt in H. lia. Qed.
Lemma few : forall n (args : list arg), (n <? length args) = false -> length args <= n.
Proof. intros n args H. apply Nat.ltb_ge in H. exact H. Qed.
Lemma some_x : forall (e : expr) (k : expr -> report), some (match x_of e with Some x => Some (k x) | None => None end) <-> exists x, x_of e = Some x.
Proof. intros e k. destruct (x_of e); [apply some_yes_iff; eauto|apply some_no_iff; intros [? F]; discriminate F]. Qed.

Lemma expect_length_flags : forall fs e, some (expect_length fs e) <-> flags_expect_length fs e.
Proof.
  intros fs e. unfold flags_expect_length. destruct e as [ | | | |f args| | | | | | | | ]; try (not_call).
  cbn [expect_length].
  apply (expectation_flags f args _ (fun l a b => length l <= 2 /\
    ((exists x, applied_to (lit "length") a x) /\ ~ is_call_of (lit "length") b \/
     ~ is_call_of (lit "length") a /\ exists x, applied_to (lit "length") b x))).
  intros a b. destruct (2 <? length args) eqn:L; [apply some_no_iff; intros [F _]; exact (too_many _ _ L F)|].
  apply few in L.
  assert (A : forall x, (exists y, applied_to (lit "length") x y) <-> is_call_named (lit "length") x = true /\ exists y, x_of x = Some y).
  { intro x. split; [intros [y H]; apply applied_iff in H; [|nn]; destruct H; eauto|intros [H [y E]]; exists y; apply applied_iff; [nn|auto]]. }
  rewrite !A, <- !is_not_call by nn.
  destruct (is_call_named (lit "length") a) eqn:E1, (is_call_named (lit "length") b) eqn:E2; unfold fixed_as; rewrite ?some_x;
    try (apply some_no_iff); intuition congruence.
Qed.
Lemma expect_named_flags : forall fs e, some (expect_named fs e) <-> flags_expect_named fs e.
Proof.
  intros fs e. unfold flags_expect_named. destruct e as [ | | | |f args| | | | | | | | ]; try (not_call).
  cbn [expect_named].
  apply (expectation_flags f args _ (fun l a b => (exists x, applied_to (lit "names") a x) /\ ~ is_call_of (lit "names") b)).
  intros a b.
  assert (A : forall x, (exists y, applied_to (lit "names") x y) <-> is_call_named (lit "names") x = true /\ exists y, x_of x = Some y).
  { intro x. split; [intros [y H]; apply applied_iff in H; [|nn]; destruct H; eauto|intros [H [y E]]; exists y; apply applied_iff; [nn|auto]]. }
  rewrite !A, <- !is_not_call by nn.
  destruct (is_call_named (lit "names") a) eqn:E1, (is_call_named (lit "names") b) eqn:E2; unfold fixed_as; rewrite ?some_x;
    try (apply some_no_iff); intuition congruence.
Qed.
Lemma s3_class_iff : forall e, is_s3_class e = true <-> s3_class e.
Proof.
  intro e. unfold s3_class. destruct e as [a| | | | | | | | | | | | ]; try (split; [discriminate|intros (? & E & _); discriminate E]).
  destruct a; try (split; [discriminate|intros (? & E & _); discriminate E]).
  cbn [is_s3_class]. rewrite Bool.negb_true_iff.
  assert (F : filter (fun c => negb (ceqb c 34%N || ceqb c 39%N)) t = no_quotes t).
  { unfold no_quotes. apply filter_ext. intro c. cbn [existsb]. unfold ceqb. rewrite Bool.orb_false_r. reflexivity. }
  rewrite F.
  assert (M : mem (no_quotes t) ignored_classes = true <-> In (no_quotes t) base_classes).
  { rewrite mem_iff. unfold ignored_classes, base_classes. cbn [In]. tauto. }
  split.
  - intro H. exists t. split; [reflexivity|]. intro K. apply M in K. congruence.
  - intros (u & E & H). injection E as ->. destruct (mem (no_quotes u) ignored_classes) eqn:K; [|reflexivity].
    destruct H. apply M. reflexivity.
Qed.
Lemma s3_not_call : forall a, s3_class a -> is_call a = false.
Proof. intros a (t & -> & _). reflexivity. Qed.
Lemma named_call : forall n e, is_call_named n e = true -> is_call e = true.
Proof. intros n e H. destruct e; try discriminate H. reflexivity. Qed.
Lemma expect_s3_class_flags : forall fs e, some (expect_s3_class fs e) <-> flags_expect_s3_class fs e.
Proof.
  intros fs e. unfold flags_expect_s3_class. destruct e as [ | | | |f args| | | | | | | | ]; try (not_call).
  cbn [expect_s3_class].
  apply (expectation_flags f args _ (fun l a b => length l <= 2 /\
    ((exists x, applied_to (lit "class") a x) /\ s3_class b \/ s3_class a /\ exists x, applied_to (lit "class") b x))).
  intros a b. destruct (2 <? length args) eqn:L; [apply some_no_iff; intros [F _]; exact (too_many _ _ L F)|].
  apply few in L.
  assert (A : forall x, (exists y, applied_to (lit "class") x y) <-> is_call_named (lit "class") x = true /\ exists y, x_of x = Some y).
  { intro x. split; [intros [y H]; apply applied_iff in H; [|nn]; destruct H; eauto|intros [H [y E]]; exists y; apply applied_iff; [nn|auto]]. }
  rewrite !A. unfold fixed_as.
  destruct (is_call a) eqn:Ca.
  - assert (Na : ~ s3_class a) by (intro F; apply s3_not_call in F; congruence).
    rewrite <- (s3_class_iff b). destruct (is_call_named (lit "class") a), (is_s3_class b); cbn [andb]; rewrite ?some_x;
      try (apply some_no_iff); intuition congruence.
  - assert (Nc : is_call_named (lit "class") a = false).
    { destruct (is_call_named (lit "class") a) eqn:Q; [apply named_call in Q; congruence|reflexivity]. }
    rewrite Nc. destruct (is_call b) eqn:Cb.
    + rewrite <- (s3_class_iff a). destruct (is_call_named (lit "class") b), (is_s3_class a); cbn [andb]; rewrite ?some_x;
        try (apply some_no_iff); intuition congruence.
    + apply some_no_iff. assert (Nd : is_call_named (lit "class") b = false).
      { destruct (is_call_named (lit "class") b) eqn:Q; [apply named_call in Q; congruence|reflexivity]. }
      rewrite Nd. intuition congruence.
Qed.
Lemma expect_true_false_flags : forall fs e, some (expect_true_false fs e) <-> flags_expect_true_false fs e.
Proof.
  intros fs e. unfold flags_expect_true_false. destruct e as [ | | | |f args| | | | | | | | ]; try (not_call).
  assert (Q : forall l a b, (exists k, equal_expectation (ECall f args) l a b /\ (k = ATrue \/ k = AFalse) /\ (a = EAtom k \/ b = EAtom k)) <->
     equal_expectation (ECall f args) l a b /\ (is_boolean a || is_boolean b = true)).
  { intros l a b. rewrite Bool.orb_true_iff, !is_boolean_iff. split.
    - intros (k & H & K & [ -> | -> ]); (split; [exact H|]); [left|right]; eauto.
    - intros [H [(k & K & ->)|(k & K & ->)]]; exists k; auto. }
  assert (Q2 : (exists l a b k, equal_expectation (ECall f args) l a b /\ (k = ATrue \/ k = AFalse) /\ (a = EAtom k \/ b = EAtom k)) <->
     exists l a b, equal_expectation (ECall f args) l a b /\ (is_boolean a || is_boolean b = true)).
  { split; intros (l & a & b & H); exists l, a, b; apply Q, H. }
  rewrite Q2. clear Q Q2. cbn [expect_true_false].
  rewrite <- (expectation_flags f args (fun a b => if is_boolean a || is_boolean b then reported fs (ECall f args) else None) (fun l a b => is_boolean a || is_boolean b = true)).
  2:{ intros a b. destruct (is_boolean a || is_boolean b); [apply some_yes_iff; reflexivity|apply some_no_iff; discriminate]. }
  destruct (is_expect_equal f); [|reflexivity].
  destruct (object_expected args) as [[a b]|]; [|reflexivity].
  assert (Y : forall x y : report, some (Some x) <-> some (Some y)) by (intros; split; intros _; apply some_yes).
  destruct a as [a| | | | | | | | | | | | ]; [destruct a|..]; destruct b as [b| | | | | | | | | | | | ]; try reflexivity; try apply Y;
    destruct b; try reflexivity; try apply Y.
Qed.
Lemma expect_not_flags : forall fs e, some (expect_not fs e) <-> flags_expect_not fs e.
Proof.
  intros fs e. unfold flags_expect_not. destruct e as [ | | | |f args| | | | | | | | ]; try (not_call).
  assert (K : (exists l x, calls_one_of [lit "expect_true"; lit "expect_false"] (ECall f args) l /\ length l <= 1 /\
     given l (lit "object") 1 (EUn UNot x) /\ (forall y, x <> EUn UNot y)) <->
     mem (get_function_name f) [lit "expect_true"; lit "expect_false"] = true /\ exists x, length args <= 1 /\
     arg_value (get_arg_by_name_then_position args (lit "object") 1) = Some (EUn UNot x) /\ (forall y, x <> EUn UNot y)).
  { split.
    - intros (l & x & H & N & G & Y). apply calls_one_iff in H; [|nl]. destruct H as [-> H]. split; [exact H|]. exists x.
      apply given_iff in G. auto.
    - intros (H & x & N & G & Y). exists args, x. split; [apply calls_one_iff; [nl|auto]|]. apply given_iff in G. auto. }
  rewrite K. clear K. cbn [expect_not].
  destruct (mem (get_function_name f) [lit "expect_true"; lit "expect_false"]); [|name_off]. rewrite true_and.
  destruct (get_arg_by_name_then_position args (lit "object") 1) as [[m v]|]; cbn [arg_value];
    [|apply some_no_iff; intros (? & _ & F & _); discriminate F].
  destruct (1 <? length args) eqn:L; [apply some_no_iff; intros (? & F & _); exact (too_many _ _ L F)|]. apply few in L.
  destruct v as [v|]; [|apply some_no_iff; intros (? & _ & F & _); discriminate F].
  destruct v as [ | |u v| | | | | | | | | | ]; try (apply some_no_iff; intros (? & _ & F & _); discriminate F).
  destruct u; try (apply some_no_iff; intros (? & _ & F & _); discriminate F).
  destruct v as [ | |u w| | | | | | | | | | ]; try (apply some_yes_iff; eexists; split; [exact L|]; split; [reflexivity|]; intros y F; discriminate F).
  destruct u; try (apply some_yes_iff; eexists; split; [exact L|]; split; [reflexivity|]; intros y F; discriminate F).
  apply some_no_iff. intros (x & _ & F & Y). injection F as <-. exact (Y w eq_refl).
Qed.
Lemma not_both : forall f, is_expect_equal f = true -> teqb (get_function_name f) (lit "expect_true") = false.
Proof.
  intros f H. apply mem_iff in H. destruct H as [<-|[<-|[]]]; reflexivity.
Qed.
Lemma expect_null_flags : forall fs e, some (expect_null fs e) <-> flags_expect_null fs e.
Proof.
  intros fs e. unfold flags_expect_null. destruct e as [ | | | |f args| | | | | | | | ].
  1-4, 6-13: apply some_no_iff; intros [(? & ? & ? & (H & _) & _)|(? & ? & ? & (? & F & _) & _)]; [destruct H as (? & _ & ? & F & _)|]; discriminate F.
  assert (K : (exists l c x, calls (lit "expect_true") (ECall f args) l /\ given l (lit "object") 1 c /\ applied_to (lit "is.null") c x) <->
    teqb (get_function_name f) (lit "expect_true") = true /\ exists c x, arg_value (get_arg_by_name_then_position args (lit "object") 1) = Some c /\
    is_call_named (lit "is.null") c = true /\ x_of c = Some x).
  { rewrite (named_is f) by nn. split.
    - intros (l & c & x & H & G & A). apply calls_iff in H. destruct H as [-> H]. split; [exact H|]. exists c, x.
      split; [apply given_iff, G|]. apply applied_iff; [nn|exact A].
    - intros (H & c & x & G & A). exists args, c, x. split; [apply calls_iff; auto|]. split; [apply given_iff, G|].
      apply applied_iff; [nn|exact A]. }
  rewrite K. clear K. rewrite (equal_expectation_iff f args (fun l a b => a = EAtom ANull \/ b = EAtom ANull)).
  cbn [expect_null]. destruct (is_expect_equal f) eqn:Q.
  - rewrite (not_both f Q). destruct (object_expected args) as [[a b]|].
    2:{ apply some_no_iff. intros [(_ & ? & ? & F & _)|[F _]]; discriminate F. }
    assert (Z : (true = true /\ (exists a0 b0, Some (a, b) = Some (a0, b0) /\ (a0 = EAtom ANull \/ b0 = EAtom ANull)) \/
       false = true /\ (exists c x, arg_value (get_arg_by_name_then_position args (lit "object") 1) = Some c /\
          is_call_named (lit "is.null") c = true /\ x_of c = Some x)) <-> is_null_lit a || is_null_lit b = true).
    { rewrite Bool.orb_true_iff, !is_null_iff. split.
      - intros [(_ & a0 & b0 & E & H)|[F _]]; [|discriminate F]. injection E as -> ->. exact H.
      - intro H. left. split; [reflexivity|]. exists a, b. auto. }
    rewrite Z. clear Z.
    destruct b as [b| | | | | | | | | | | | ]; [destruct b|..]; destruct a as [a| | | | | | | | | | | | ]; try destruct a;
      first [apply some_yes_iff; reflexivity | apply some_no_iff; discriminate].
  - destruct (teqb (get_function_name f) (lit "expect_true")).
    2:{ apply some_no_iff. intros [[F _]|[F _]]; discriminate F. }
    destruct (arg_value (get_arg_by_name_then_position args (lit "object") 1)) as [c|].
    2:{ apply some_no_iff. intros [[F _]|(_ & ? & ? & F & _)]; discriminate F. }
    destruct (is_call_named (lit "is.null") c) eqn:C.
    2:{ apply some_no_iff. intros [[F _]|(_ & ? & ? & E & F & _)]; [discriminate F|]. congruence. }
    destruct (x_of c) as [x|] eqn:X.
    + apply some_yes_iff. right. split; [reflexivity|]. exists c, x. auto.
    + apply some_no_iff. intros [[F _]|(_ & ? & ? & E & _ & F)]; [discriminate F|]. congruence.
Qed.
Definition types : list text := [lit "logical"; lit "integer"; lit "double"; lit "complex"; lit "character"; lit "raw"; lit "list"; lit "null"; lit "symbol"; lit "expression"; lit "language"; lit "environment"; lit "pairlist"].
Lemma type_tested_iff : forall n, some (type_tested n) <-> exists ty, In ty types /\ n = lit "is." ++ ty.
Proof.
  intro n. unfold type_tested. split.
  - intros [t H]. destruct (find (fun p => teqb (fst p) n) type_functions) as [p|] eqn:E; [|discriminate H].
    apply find_some in E. destruct E as [Hin E]. apply teqb_eq in E. subst n.
    unfold type_functions in Hin. cbn [In] in Hin.
    repeat (destruct Hin as [<-|Hin]; [eexists; split; [|reflexivity]; unfold types; cbn; tauto|]). destruct Hin.
  - intros (ty & H & ->). unfold types in H. cbn [In] in H.
    repeat (destruct H as [<-|H]; [eexists; reflexivity|]). destruct H.
Qed.
Lemma expect_type_flags : forall fs e, some (expect_type fs e) <-> flags_expect_type fs e.
Proof.
  intros fs e. unfold flags_expect_type. destruct e as [ | | | |f args| | | | | | | | ].
  1-4, 6-13: apply some_no_iff; intros [(? & ? & ? & ? & (H & _) & _)|(? & ? & ? & ? & (? & F & _) & _)]; [destruct H as (? & _ & ? & F & _)|]; discriminate F.
  assert (K1 : (exists l a b x, equal_expectation (ECall f args) l a b /\ length l <= 2 /\
     (applied_to (lit "typeof") a x \/ ~ is_call_of (lit "typeof") a /\ applied_to (lit "typeof") b x)) <->
     exists l a b, equal_expectation (ECall f args) l a b /\ (length l <= 2 /\
     exists x, applied_to (lit "typeof") a x \/ ~ is_call_of (lit "typeof") a /\ applied_to (lit "typeof") b x)).
  { split; [intros (l & a & b & x & H & L & P); exists l, a, b; eauto|intros (l & a & b & H & L & x & P); exists l, a, b, x; auto]. }
  assert (K : (exists l c x ty, calls (lit "expect_true") (ECall f args) l /\ length l <= 1 /\ given l (lit "object") 1 c /\
      In ty types /\ applied_to (lit "is." ++ ty) c x) <->
    teqb (get_function_name f) (lit "expect_true") = true /\ exists g gargs x, length args <= 1 /\
    arg_value (get_arg_by_name_then_position args (lit "object") 1) = Some (ECall g gargs) /\
    some (type_tested (get_function_name g)) /\ arg_value (get_arg_by_name_then_position gargs (lit "x") 1) = Some x).
  { rewrite (named_is f) by nn. split.
    - intros (l & c & x & ty & H & L & G & T & (gargs & (g & -> & Hg) & A)). apply calls_iff in H. destruct H as [-> H]. split; [exact H|].
      exists g, gargs, x. split; [exact L|]. split; [apply given_iff, G|]. split; [|apply given_iff, A].
      apply type_tested_iff. exists ty. split; [exact T|]. apply function_name_iff; [nn|exact Hg].
    - intros (H & g & gargs & x & L & G & T & A). apply type_tested_iff in T. destruct T as (ty & T & E).
      exists args, (ECall g gargs), x, ty. split; [apply calls_iff; auto|]. split; [exact L|]. split; [apply given_iff, G|].
      split; [exact T|]. exists gargs. split; [|apply given_iff, A]. apply calls_iff. split; [reflexivity|].
      apply function_name_iff; [nn|exact E]. }
  rewrite K1. change [lit "logical"; lit "integer"; lit "double"; lit "complex"; lit "character"; lit "raw"; lit "list"; lit "null"; lit "symbol"; lit "expression"; lit "language"; lit "environment"; lit "pairlist"] with types.
  rewrite K. clear K K1.
  rewrite (equal_expectation_iff f args (fun l a b => length l <= 2 /\
     exists x, applied_to (lit "typeof") a x \/ ~ is_call_of (lit "typeof") a /\ applied_to (lit "typeof") b x)).
  cbn [expect_type]. destruct (is_expect_equal f) eqn:Q.
  - rewrite (not_both f Q).
    destruct (2 <? length args) eqn:L.
    { apply some_no_iff. intros [(_ & ? & ? & _ & F & _)|[F _]]; [exact (too_many _ _ L F)|discriminate F]. }
    apply few in L. destruct (object_expected args) as [[a b]|].
    2:{ apply some_no_iff. intros [(_ & ? & ? & F & _)|[F _]]; discriminate F. }
    match goal with |- _ <-> ?G => assert (Z : G <-> exists x, applied_to (lit "typeof") a x \/ ~ is_call_of (lit "typeof") a /\ applied_to (lit "typeof") b x) end.
    { split.
      - intros [(_ & a0 & b0 & E & _ & H)|[F _]]; [|discriminate F]. injection E as -> ->. exact H.
      - intro H. left. split; [reflexivity|]. exists a, b. auto. }
    rewrite Z. clear Z.
    assert (Z : (exists x, applied_to (lit "typeof") a x \/ ~ is_call_of (lit "typeof") a /\ applied_to (lit "typeof") b x) <->
      (is_call_named (lit "typeof") a = true /\ (exists x, x_of a = Some x)) \/
      (is_call_named (lit "typeof") a = false /\ is_call_named (lit "typeof") b = true /\ exists x, x_of b = Some x)).
    { rewrite is_not_call by nn. split.
      - intros [x [H|[N H]]]; apply applied_iff in H; try nn; destruct H as [H X]; [left|right]; eauto.
      - intros [[H [x X]]|(N & H & [x X])]; exists x; [left|right; split; [exact N|]]; apply applied_iff; try nn; auto. }
    rewrite Z. clear Z.
    destruct (is_call_named (lit "typeof") a); unfold fixed_as; [rewrite some_x; intuition congruence|].
    destruct (is_call_named (lit "typeof") b); [rewrite some_x; intuition congruence|]. apply some_no_iff. intuition congruence.
  - destruct (teqb (get_function_name f) (lit "expect_true")).
    2:{ apply some_no_iff. intros [[F _]|[F _]]; discriminate F. }
    destruct (1 <? length args) eqn:L.
    { apply some_no_iff. intros [(F & _)|(_ & ? & ? & ? & F & _)]; [discriminate F|exact (too_many _ _ L F)]. }
    apply few in L. destruct (arg_value (get_arg_by_name_then_position args (lit "object") 1)) as [c|].
    2:{ apply some_no_iff. intros [[F _]|(_ & ? & ? & ? & _ & F & _)]; discriminate F. }
    destruct c as [ | | | |g gargs| | | | | | | | ]; try (apply some_no_iff; intros [[F _]|(_ & ? & ? & ? & _ & F & _)]; discriminate F).
    destruct (type_tested (get_function_name g)) as [t|] eqn:T.
    2:{ apply some_no_iff. intros [[F _]|(_ & g' & ? & ? & _ & F & F' & _)]; [discriminate F|]. injection F as -> ->. rewrite T in F'. destruct (some_no F'). }
    destruct (arg_value (get_arg_by_name_then_position gargs (lit "x") 1)) as [x|] eqn:X.
    + apply some_yes_iff. right. split; [reflexivity|]. exists g, gargs, x. rewrite T. split; [exact L|]. split; [reflexivity|]. split; [apply some_yes|exact X].
    + apply some_no_iff. intros [[F _]|(_ & g' & ? & ? & _ & F & _ & F')]; [discriminate F|]. injection F as -> ->. congruence.
Qed.
