(** What fixes add and what they drop (C89, C90). *)
From Verif Require Import Spec.RMention Proofs.MentionProofs Proofs.MentionRules Proofs.MentionKeep Proofs.MentionFile.

(** ** C89: a fix mentions nothing that was not there, except what the rule is known to write *)
(** For every rule and every token [t] (a variable, a function, a number, a string, an operator, a keyword) that is not
    one of those the rule writes: [t] does not occur more often in the fixed file than before. *)
Theorem C89_fix_adds_nothing_else : forall s n rule p e rs r c t,
  In (n, rule) (all_rules s) -> n <> lit "unreachable_code" ->
  (n = lit "sample_int" -> first_or_named (lit "n") e) ->
  rule (frames p) e = ROk rs -> In r rs -> new_text r = Some c ->
  punctuation t = false -> ~ adds n t ->
  mentions t (edited (fix_place p r) c) <= mentions t (edited p (toks e)).
Proof. intros s n rule p e rs r c t I U F H R C P A. apply tame_file; [|exact C]. eapply rule_tame; eauto. Qed.
Print Assumptions C89_fix_adds_nothing_else.

(** A variable of any other name: if the file does not mention it, neither does the fixed file. *)
Theorem C89_no_new_variable : forall s n rule p e rs r c x,
  In (n, rule) (all_rules s) -> n <> lit "unreachable_code" ->
  (n = lit "sample_int" -> first_or_named (lit "n") e) ->
  rule (frames p) e = ROk rs -> In r rs -> new_text r = Some c ->
  ~ adds n (TAtom (AId x)) ->
  In (TAtom (AId x)) (edited (fix_place p r) c) -> In (TAtom (AId x)) (edited p (toks e)).
Proof.
  assert (Z : forall t l, In t l <-> 0 < mentions t l).
  { intros t l. induction l as [|u l IH]; cbn [mentions In]; [split; [intros []|lia]|]. destruct (tok_eq_dec u t) as [->|N].
    - split; [lia|auto].
    - split; [intros [Q|Q]; [contradiction|apply (proj1 IH) in Q; lia]|intros Q; right; apply (proj2 IH); lia]. }
  intros s n rule p e rs r c x I U F H R C A Q. apply Z. apply Z in Q.
  pose proof (C89_fix_adds_nothing_else s n rule p e rs r c (TAtom (AId x)) I U F H R C eq_refl A). lia.
Qed.
Print Assumptions C89_no_new_variable.

(** It is false of sample_int when the first argument has another name: [sample(size = 5, 1:x)] becomes
    [sample.int(x, 1:x)]. *)
Theorem C89_sample_int_refuted : exists e r c,
  failing sample_int [] e = ROk [r] /\ new_text r = Some c /\ at_node r = e /\
  mentions (TAtom (AId (lit "x"))) (toks e) < mentions (TAtom (AId (lit "x"))) c.
Proof.
  exists (ECall (variable (lit "sample")) [(Some (lit "size"), Some (EAtom (ANum (lit "5")))); (None, Some (EBin BColon false (EAtom (ANum (lit "1"))) (variable (lit "x"))))]).
  eexists. eexists. split; [reflexivity|]. split; [reflexivity|]. split; [reflexivity|]. vm_compute. lia.
Qed.
Print Assumptions C89_sample_int_refuted.

(** ** C90: a fix drops no variable *)
Theorem C90_fix_keeps_variables_partial : forall s rule dropped fs e rs r c x,
  In (rule, dropped) (keeping s) -> rule fs e = ROk rs -> In r rs -> new_text r = Some c ->
  usual_extracts (toks (at_node r)) ->
  In x (vars (at_node r)) -> ~ In x dropped -> In (TAtom (AId x)) c.
Proof. intros s rule d fs e rs r c x I H R C U X D. exact (rule_keeps s rule d I fs e rs r H R U c x C X D). Qed.
Print Assumptions C90_fix_keeps_variables_partial.
(** fixed_regex, when no [fixed] is given. *)
Theorem C90_fixed_regex_partial : forall fs f args r c x,
  fixed_regex fs (ECall f args) = Some r -> (forall v, ~ In (Some (lit "fixed"), v) args) -> length args <= 4 ->
  new_text r = Some c -> usual_extracts (toks (at_node r)) -> In x (vars (at_node r)) -> In (TAtom (AId x)) c.
Proof. intros fs f args r c x H N L C U X. exact (fixed_regex_keeps fs f args r H N L U c x C X (fun F => F)). Qed.
Print Assumptions C90_fixed_regex_partial.

(** It is false of the other rules: each of these fixes drops [y]. *)
Theorem C90_variables_dropped_refuted :
  let x := variable (lit "x") in let y := variable (lit "y") in let a := EAtom (AStr (lit """a""")) in
  let one := EAtom (ANum (lit "1")) in
  drops (total any_is_na) (calling (lit "any") [calling (lit "is.na") [x]; y]) (lit "y") /\
  drops (total any_duplicated) (calling (lit "any") [calling (lit "duplicated") [x]; y]) (lit "y") /\
  drops (total length_levels) (calling (lit "length") [calling (lit "levels") [x]; y]) (lit "y") /\
  drops (total which_grepl) (calling_with (lit "which") [calling (lit "grepl") [a; x]] (lit "useNames") y) (lit "y") /\
  drops (total all_equal) (calling (lit "isFALSE") [calling (lit "all.equal") [x]; y]) (lit "y") /\
  drops (total class_identical) (calling_with (lit "identical") [calling (lit "class") [x]; a] (lit "ignore.environment") y) (lit "y") /\
  drops (total expect_length) (calling (lit "expect_equal") [calling (lit "length") [x; y]; one]) (lit "y") /\
  drops (total expect_named) (calling_with (lit "expect_equal") [calling (lit "names") [x]; a] (lit "info") y) (lit "y") /\
  drops (total expect_null) (calling_with (lit "expect_equal") [x; EAtom ANull] (lit "info") y) (lit "y") /\
  drops (total expect_s3_class) (calling (lit "expect_equal") [calling (lit "class") [x; y]; a]) (lit "y") /\
  drops (total expect_true_false) (calling_with (lit "expect_equal") [x; EAtom ATrue] (lit "info") y) (lit "y") /\
  drops (total expect_type) (calling (lit "expect_equal") [calling (lit "typeof") [x; y]; a]) (lit "y") /\
  drops (total fixed_regex)
    (ECall (variable (lit "grepl")) [(Some (lit "useBytes"), Some (EAtom ATrue)); (None, Some a); (None, Some x); (None, Some (EAtom AFalse)); (None, Some y); (None, Some (EAtom AFalse))]) (lit "y") /\
  drops (total grepv) (calling_with (lit "grep") [a; x] (lit "value") y) (lit "y") /\
  drops (failing length_test) (calling (lit "length") [EBin (BCmp CEq) false x one; y]) (lit "y") /\
  drops (failing lengths_rule) (calling (lit "sapply") [x; variable (lit "length"); y]) (lit "y") /\
  drops (failing sample_int)
    (ECall (variable (lit "sample")) [(Some (lit "size"), Some y); (None, Some (EBin BColon false one x))]) (lit "y") /\
  drops (total sort_rule) (ESub false x [(None, Some (calling_with (lit "order") [x] (lit "partial") y))]) (lit "y") /\
  drops (total sprintf_rule) (calling (lit "sprintf") [a; y]) (lit "y") /\
  drops (total string_boundary) (EBin (BCmp CEq) false (calling (lit "substr") [x; one; y]) a) (lit "y") /\
  drops (total system_file) (calling (lit "system.file") [y; calling (lit "file.path") [a; a]]) (lit "y").
Proof.
  cbv zeta. repeat (match goal with |- _ /\ _ => split | _ => idtac end);
    (eexists; eexists; split; [reflexivity|]; split; [reflexivity|]; split; [reflexivity|]; split;
      [vm_compute; intuition congruence | vm_compute; intuition congruence]).
Qed.
Print Assumptions C90_variables_dropped_refuted.

(** Cases the hypotheses meet: [ifelse(f(x) > y, FALSE, TRUE)] and [apply(f(x), 1, sum, na.rm = y)]. *)
Example C89_case : exists r c, total redundant_ifelse [] (calling (lit "ifelse") [EBin (BCmp CGt) false (calling (lit "f") [variable (lit "x")]) (variable (lit "y")); EAtom AFalse; EAtom ATrue]) = ROk [r] /\
  new_text r = Some c /\ ~ adds (lit "redundant_ifelse") (TAtom (AId (lit "x"))) /\
  mentions (TAtom (AId (lit "x"))) c = 1.
Proof.
  eexists. eexists. split; [reflexivity|]. split; [reflexivity|]. split; [|reflexivity].
  intros H. remember (lit "redundant_ifelse") as n. destruct H; discriminate Heqn.
Qed.
Example C90_case : exists r c, total matrix_apply [] (calling_with (lit "apply") [calling (lit "f") [variable (lit "x")]; EAtom (ANum (lit "1")); variable (lit "sum")] (lit "na.rm") (variable (lit "y"))) = ROk [r] /\
  new_text r = Some c /\ usual_extracts (toks (at_node r)) /\ In (lit "y") (vars (at_node r)) /\ In (TAtom (AId (lit "y"))) c.
Proof.
  eexists. eexists. split; [reflexivity|]. split; [reflexivity|]. split; [|split].
  - intros op x H. vm_compute in H. intuition discriminate.
  - vm_compute. intuition.
  - vm_compute. intuition.
Qed.
