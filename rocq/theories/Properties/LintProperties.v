(** What the fixes of the rewriting rules do to a program. *)
From Verif Require Import Spec.RWellFormed Spec.RDemo Proofs.TextProofs Proofs.RParse Proofs.RParseSound Proofs.RContext.
From Verif Require Import Proofs.RAlike Proofs.LintSyntax Proofs.LintFixes Proofs.LintLogic Proofs.LintMore Proofs.LintUnits Proofs.LintRefute.
From Verif Require Import Proofs.LintNested.

(** *** C58: [!(x > y)] *)
Theorem C58_comparison_negation_partial : forall p e r nl c x y,
  node_of_file p e -> comparison_negation (frames p) e = Some r ->
  e = EUn UNot (EParen (EBin c nl x y)) ->
  loose_left (left_op (frames p)) = true ->
  loose_right (right_op (frames p)) = true ->
  right_op (frames p) = None \/ swallows y = false ->
  enclosed (frames p) = true \/ breaks x = false /\ breaks y = false ->
  fix_harmless (fun I => yields I x plain /\ yields I y plain) p e r.
Proof. intros. eapply both_harmless, comparison_negation_harmless; eauto. Qed.
Print Assumptions C58_comparison_negation_partial.

Theorem C58_comparison_negation_refuted :
  (exists p e r, node_of_file p e /\ comparison_negation (frames p) e = Some r /\
     ~ fix_harmless (numbers [lit "a"; lit "x"; lit "y"]) p e r) /\
  (exists p e r, node_of_file p e /\ comparison_negation (frames p) e = Some r /\
     forall P, ~ fix_harmless P p e r) /\
  (exists p e r, node_of_file p e /\ comparison_negation (frames p) e = Some r /\ frames p = [] /\
     ~ fix_harmless (numbers [lit "a"; lit "x"; lit "y"]) p e r).
Proof.
  split; [exact comparison_negation_sum|]. split; [exact comparison_negation_syntax|].
  exact comparison_negation_lines.
Qed.
Print Assumptions C58_comparison_negation_refuted.

(** [b <- a & !(x > y)] meets the hypotheses. *)
Example C58_hypotheses_met :
  let p := here [FBinR BAnd false (var (lit "a")); FBinR (BAssign (lit "<-")) false (var (lit "b"))] in
  let x := var (lit "x") in let y := var (lit "y") in
  let e := EUn UNot (EParen (EBin (BCmp CGt) false x y)) in
  node_of_file p e /\
  comparison_negation (frames p) e =
    Some (mk_report (frames p) e (Some [TAtom (AId (lit "x")); TOp (BCmp CLe); TAtom (AId (lit "y"))])) /\
  loose_left (left_op (frames p)) = true /\ loose_right (right_op (frames p)) = true /\
  right_op (frames p) = None /\ breaks x = false /\ breaks y = false /\
  exists I, yields I x plain /\ yields I y plain.
Proof.
  cbn zeta. split; [read_it 30|]. do 6 (split; [reflexivity|]).
  exists (demo (env_of [(lit "x", nm [2%Z]); (lit "y", nm [1%Z])])).
  split; (eapply yields_var; [vm_compute; reflexivity|exact Logic.I]).
Qed.

(** *** C59: [any(!x)] and [all(!x)] *)
Theorem C59_outer_negation_partial : forall p e r f x,
  node_of_file p e -> outer_negation (frames p) e = Some r ->
  e = ECall f [(None, Some (EUn UNot x))] ->
  loose_right (right_op (frames p)) = true ->
  assigned (frames p) = false -> pipe_target (frames p) = false ->
  fix_harmless (fun I => yields I x numeric_like) p e r.
Proof. intros. eapply both_harmless, outer_negation_harmless; eauto. Qed.
Print Assumptions C59_outer_negation_partial.

Theorem C59_outer_negation_refuted :
  (exists p e r, node_of_file p e /\ outer_negation (frames p) e = Some r /\
     ~ fix_harmless (numbers [lit "x"]) p e r) /\
  (exists p e r, node_of_file p e /\ outer_negation (frames p) e = Some r /\
     ~ fix_harmless (fun I => logicals [lit "x"] I /\ numbers [lit "a"] I) p e r).
Proof. split; [exact outer_negation_minus|exact outer_negation_sum]. Qed.
Print Assumptions C59_outer_negation_refuted.

(** [y <- any(!x)] meets the hypotheses. *)
Example C59_hypotheses_met :
  let p := here [FBinR (BAssign (lit "<-")) false (var (lit "y"))] in
  let x := var (lit "x") in let e := call1 (lit "any") (EUn UNot x) in
  node_of_file p e /\
  outer_negation (frames p) e =
    Some (mk_report (frames p) e (Some [TBang; TAtom (AId (lit "all")); TLp; TAtom (AId (lit "x")); TRp])) /\
  loose_right (right_op (frames p)) = true /\ assigned (frames p) = false /\ pipe_target (frames p) = false /\
  exists I, yields I x numeric_like.
Proof.
  cbn zeta. split; [read_it 30|]. do 4 (split; [reflexivity|]).
  exists (demo (env_of [(lit "x", nm [2%Z])])).
  eapply yields_var; [vm_compute; reflexivity|exact Logic.I].
Qed.

(** *** C60: ifelse(x, TRUE, FALSE) and ifelse(x, FALSE, TRUE) *)
Theorem C60_redundant_ifelse_partial : forall p e r f n args formals x,
  node_of_file p e -> redundant_ifelse (frames p) e = Some r ->
  e = ECall f args -> fname f = Some n -> conditional n formals ->
  assigned (frames p) = false -> callee (frames p) = false -> pipe_target (frames p) = false ->
  r_args formals args = Some [Some x; Some (EAtom ATrue); Some (EAtom AFalse)] ->
  enclosed (frames p) = true \/ breaks x = false ->
  primary x = true \/ free_left (left_op (frames p)) = true /\ right_op (frames p) = None ->
  fix_harmless (fun I => yields I x logical) p e r.
Proof.
  intros p e r f n args formals x H Hr He Hf. pose proof (fname_name _ _ Hf) as Hn. subst n.
  intros. eapply both_harmless, redundant_ifelse_harmless; eauto.
Qed.
Print Assumptions C60_redundant_ifelse_partial.

Theorem C60_redundant_ifelse_negated_partial : forall p e r f n args formals x,
  node_of_file p e -> redundant_ifelse (frames p) e = Some r ->
  e = ECall f args -> fname f = Some n -> conditional n formals ->
  assigned (frames p) = false -> pipe_target (frames p) = false ->
  r_args formals args = Some [Some x; Some (EAtom AFalse); Some (EAtom ATrue)] ->
  loose_right (right_op (frames p)) = true ->
  fix_harmless (fun I => yields I x logical) p e r.
Proof.
  intros p e r f n args formals x H Hr He Hf. pose proof (fname_name _ _ Hf) as Hn. subst n.
  intros. eapply both_harmless, redundant_ifelse_not_harmless; eauto.
Qed.
Print Assumptions C60_redundant_ifelse_negated_partial.

Theorem C60_redundant_ifelse_refuted :
  (exists p e r, node_of_file p e /\ redundant_ifelse (frames p) e = Some r /\
     ~ fix_harmless (numbers [lit "x"; lit "y"]) p e r) /\
  (exists p e r, node_of_file p e /\ redundant_ifelse (frames p) e = Some r /\ frames p = [] /\
     ~ fix_harmless (numbers [lit "x"]) p e r).
Proof. split; [exact redundant_ifelse_minus|exact redundant_ifelse_number]. Qed.
Print Assumptions C60_redundant_ifelse_refuted.

(** [y <- dplyr::if_else(false = FALSE, x, true = TRUE)] meets the hypotheses. *)
Example C60_hypotheses_met :
  let p := here [FBinR (BAssign (lit "<-")) false (var (lit "y"))] in
  let x := var (lit "x") in
  let f := EAtom (ANs (lit "dplyr") false (lit "if_else")) in
  let args := [(Some (lit "false"), Some (EAtom AFalse)); (None, Some x); (Some (lit "true"), Some (EAtom ATrue))] in
  let e := ECall f args in
  node_of_file p e /\
  redundant_ifelse (frames p) e = Some (mk_report (frames p) e (Some [TAtom (AId (lit "x"))])) /\
  fname f = Some (lit "if_else") /\
  conditional (lit "if_else") [lit "condition"; lit "true"; lit "false"] /\
  assigned (frames p) = false /\ callee (frames p) = false /\ pipe_target (frames p) = false /\
  r_args [lit "condition"; lit "true"; lit "false"] args = Some [Some x; Some (EAtom ATrue); Some (EAtom AFalse)] /\
  breaks x = false /\ primary x = true /\
  exists I, yields I x logical.
Proof.
  cbn zeta. split; [read_it 30|]. do 2 (split; [reflexivity|]).
  split; [constructor|]. do 6 (split; [reflexivity|]).
  exists (demo (env_of [(lit "x", VLgl [Some true])])).
  eapply yields_var; [vm_compute; reflexivity|exact Logic.I].
Qed.

(** *** C61: [any(is.na(x))] and [any(duplicated(x))] *)
Theorem C61_any_is_na_partial : forall p e r x fs' e',
  node_of_file p e -> any_is_na (frames p) e = Some r ->
  nested_form (lit "any") (lit "is.na") (frames p) e fs' e' x ->
  assigned fs' = false -> pipe_target fs' = false ->
  fix_harmless (fun _ => True) p e r.
Proof. intros. eapply both_harmless, any_is_na_harmless; eauto. Qed.
Print Assumptions C61_any_is_na_partial.

Theorem C61_any_duplicated_partial : forall p e r x fs' e',
  node_of_file p e -> any_duplicated (frames p) e = Some r ->
  nested_form (lit "any") (lit "duplicated") (frames p) e fs' e' x ->
  loose_left (left_op fs') = true -> loose_right (right_op fs') = true ->
  assigned fs' = false ->
  fix_harmless (fun _ => True) p e r.
Proof. intros. eapply both_harmless, any_duplicated_harmless; eauto. Qed.
Print Assumptions C61_any_duplicated_partial.

Theorem C61_nested_calls_refuted :
  (exists p e r, node_of_file p e /\ any_duplicated (frames p) e = Some r /\
     ~ fix_harmless (numbers [lit "x"; lit "a"]) p e r) /\
  (exists p e r, node_of_file p e /\ any_is_na (frames p) e = Some r /\ frames p = [] /\
     ~ fix_harmless (numbers [lit "x"; lit "y"]) p e r) /\
  (exists p e r, node_of_file p e /\ any_is_na (frames p) e = Some r /\ frames p = [] /\
     ~ fix_harmless (numbers [lit "x"]) p e r).
Proof. split; [exact any_duplicated_sum|]. split; [exact any_is_na_two|exact any_is_na_foreign]. Qed.
Print Assumptions C61_nested_calls_refuted.

(** [y <- x |> is.na() |> any()] meets the hypotheses. *)
Example C61_hypotheses_met :
  let x := var (lit "x") in
  let l := EBin BPipe false x (ECall (EAtom (AId (lit "is.na"))) []) in
  let fs' := [FBinR (BAssign (lit "<-")) false (var (lit "y"))] in
  let p := here (FBinR BPipe false l :: fs') in
  let e := ECall (EAtom (AId (lit "any"))) [] in
  node_of_file p e /\
  any_is_na (frames p) e =
    Some (mk_report fs' (EBin BPipe false l e) (Some [TAtom (AId (lit "anyNA")); TLp; TAtom (AId (lit "x")); TRp])) /\
  nested_form (lit "any") (lit "is.na") (frames p) e fs' (EBin BPipe false l e) x /\
  assigned fs' = false /\ pipe_target fs' = false.
Proof.
  cbn zeta. split; [read_it 30|]. split; [reflexivity|]. split; [|split; reflexivity].
  apply nested_pipes; reflexivity.
Qed.

(** *** C62: [x == TRUE] and the like *)
Theorem C62_redundant_equals_partial : forall p e r c nl x y,
  node_of_file p e -> redundant_equals (frames p) e = Some r ->
  e = EBin c nl x y ->
  assigned (frames p) = false ->
  fix_harmless (fun I => yields I x logical /\ yields I y logical) p e r.
Proof.
  intros p e r c nl x y H Hr He HA.
  destruct (redundant_equals_shape _ _ _ Hr) as (c' & nl' & a & b & k & n & E & K & _ & _).
  rewrite E in He. injection He as <- <- <- <-.
  intros t Ht. destruct (redundant_equals_harmless p e r c' nl' a b k n H Hr E K HA t Ht)
    as [(q & q' & R & R' & S) _].
  exists q, q'. split; [exact R|]. split; [exact R'|]. intros I [Hx Hy]. apply S.
  destruct (kept_cases _ _ _ _ _ K) as (_ & t' & _ & [[ -> _ ]|[ -> _ ]]); assumption.
Qed.
Print Assumptions C62_redundant_equals_partial.

Theorem C62_redundant_equals_refuted :
  exists p e r, node_of_file p e /\ redundant_equals (frames p) e = Some r /\ frames p = [] /\
     ~ fix_harmless (numbers [lit "x"]) p e r.
Proof. exact redundant_equals_number. Qed.
Print Assumptions C62_redundant_equals_refuted.

(** [if (!x == FALSE) y] meets the hypotheses: the fix gives [if (!!x) y]. *)
Example C62_hypotheses_met :
  let p := here [FUn UNot; FIfC (var (lit "y")) None] in
  let e := EBin (BCmp CEq) false (var (lit "x")) (EAtom AFalse) in
  node_of_file p e /\
  redundant_equals (frames p) e = Some (mk_report (frames p) e (Some [TBang; TAtom (AId (lit "x"))])) /\
  assigned (frames p) = false /\
  exists I, yields I (var (lit "x")) logical /\ yields I (EAtom AFalse) logical.
Proof.
  cbn zeta. split; [read_it 30|]. do 2 (split; [reflexivity|]).
  exists (demo (env_of [(lit "x", VLgl [Some true])])). split.
  - eapply yields_var; [vm_compute; reflexivity|exact Logic.I].
  - intros s v s' H. injection H as <- <-. exact Logic.I.
Qed.

(** *** C63: [if (is.null(x)) y else x], and T and F *)
Theorem C63_coalesce_partial : forall p e r x y,
  node_of_file p e -> coalesce (frames p) e = Some r -> null_default e x y ->
  primary x = true -> primary y = true -> (forall z, y <> EBraces [z]) ->
  looser_than_special (left_op (frames p)) = true ->
  enclosed (frames p) = true \/ breaks x = false /\ breaks y = false ->
  fix_harmless (fun I => pure I x) p e r.
Proof. intros. eapply both_harmless, coalesce_harmless; eauto. Qed.
Print Assumptions C63_coalesce_partial.

(** As documented, the fix is offered unless one of the branches consists of several statements. *)
Theorem C63_coalesce_statements : forall fs c t el r,
  coalesce fs (EIf c t (Some el)) = Some r ->
  (new_text r = None <-> exists a b l, t = EBraces (a :: b :: l) \/ el = EBraces (a :: b :: l)).
Proof. exact coalesce_statements. Qed.
Print Assumptions C63_coalesce_statements.

Theorem C63_true_false_partial : forall p e r,
  node_of_file p e -> true_false_symbol (frames p) e = Some r ->
  assigned (frames p) = false -> fix_harmless usual_T_F p e r.
Proof. intros. eapply both_harmless, true_false_harmless; eauto. Qed.
Print Assumptions C63_true_false_partial.

Theorem C63_coalesce_refuted :
  (exists p e r, node_of_file p e /\ coalesce (frames p) e = Some r /\ frames p = [] /\
     ~ fix_harmless (numbers [lit "x"; lit "a"; lit "y"]) p e r) /\
  (exists p e r, node_of_file p e /\ coalesce (frames p) e = Some r /\ frames p = [] /\
     ~ fix_harmless (numbers [lit "x"; lit "y"]) p e r).
Proof. split; [exact coalesce_sum|exact coalesce_twice]. Qed.
Print Assumptions C63_coalesce_refuted.

Theorem C63_true_false_refuted :
  (exists p e r, node_of_file p e /\ true_false_symbol (frames p) e = Some r /\
     ~ fix_harmless usual_T_F p e r) /\
  (exists p e r, node_of_file p e /\ true_false_symbol_for (frames p) e = Some r /\
     forall P, ~ fix_harmless P p e r).
Proof. split; [exact true_false_assigned|exact true_false_for]. Qed.
Print Assumptions C63_true_false_refuted.

(** [z <- if (!is.null(x)) { x } else f(T)] meets the hypotheses of both. *)
Example C63_hypotheses_met :
  let x := var (lit "x") in let y := call1 (lit "f") (var (lit "T")) in
  let p := here [FBinR (BAssign (lit "<-")) false (var (lit "z"))] in
  let e := EIf (EUn UNot (call1 (lit "is.null") x)) (EBraces [x]) (Some y) in
  node_of_file p e /\
  (exists c, coalesce (frames p) e = Some (mk_report (frames p) e (Some c))) /\
  null_default e x y /\ primary x = true /\ primary y = true /\ (forall z, y <> EBraces [z]) /\
  looser_than_special (left_op (frames p)) = true /\ breaks x = false /\ breaks y = false /\
  let q := here [FCallA (var (lit "f")) [] None []] in
  node_of_file q (var (lit "T")) /\
  true_false_symbol (frames q) (var (lit "T")) = Some (mk_report (frames q) (var (lit "T")) (Some [TAtom ATrue])) /\
  assigned (frames q) = false /\
  exists I, pure I x /\ usual_T_F I.
Proof.
  cbn zeta. split; [read_it 30|]. split; [eexists; vm_compute; reflexivity|].
  split; [constructor; [reflexivity|right; reflexivity|left; reflexivity]|].
  do 2 (split; [reflexivity|]). split; [discriminate|]. do 3 (split; [reflexivity|]).
  split; [read_it 30|]. do 2 (split; [reflexivity|]).
  exists (demo (env_of [(lit "x", nm [1%Z]); (lit "T", VLgl [Some true]); (lit "F", VLgl [Some false])])).
  split; [intros s v s' H; injection H as <- <-; reflexivity|]. split; intro s; reflexivity.
Qed.

(** *** C64: a fix is read as one expression, and nothing around it changes *)
Theorem C64_calls_are_one_expression : forall rule shape p e r,
  In (rule, shape) call_rules ->
  node_of_file p e -> rule (frames p) e = Some r ->
  reports_a_node p e r /\ fix_is_one_expression shape p r.
Proof.
  intros rule shape p e r Hin H Hr.
  cbn [call_rules In] in Hin.
  repeat (destruct Hin as [Hin|Hin]; [apply pair_equal_spec in Hin; destruct Hin as [E1 E2]; rewrite <- E1 in Hr; rewrite <- E2|]);
    [..|destruct Hin].
  - apply any_is_na_unit; assumption.
  - apply any_is_na_2_unit; assumption.
  - apply length_levels_unit; assumption.
  - apply which_grepl_unit; assumption.
  - apply equals_na_unit; assumption.
  - apply equals_null_unit; assumption.
  - apply class_equals_unit; assumption.
  - apply class_identical_unit; assumption.
  - apply seq_rule_unit; assumption.
  - apply seq2_rule_unit; assumption.
  - apply sort_rule_unit; assumption.
  - apply lengths_unit; [assumption|]. destruct (lengths_rule (frames p) e); cbn [ok_report] in Hr; try discriminate.
    rewrite Hr. reflexivity.
  - apply sample_int_unit; [assumption|]. destruct (sample_int (frames p) e); cbn [ok_report] in Hr; try discriminate.
    rewrite Hr. reflexivity.
  - apply grepv_unit; assumption.
  - apply system_file_unit; assumption.
Qed.
Print Assumptions C64_calls_are_one_expression.

Theorem C64_all_equal_partial : forall p e r, node_of_file p e -> all_equal (frames p) e = Some r ->
  loose_right (right_op (at_frames r)) = true ->
  reports_a_node p e r /\
  fix_is_one_expression (fun e' => call_of (lit "isTRUE") e' \/ not_call_of (lit "isTRUE") e') p r.
Proof. intros. eapply all_equal_unit; eauto. Qed.
Print Assumptions C64_all_equal_partial.

Theorem C64_length_test_partial : forall p e r f n c nl x y args, node_of_file p e ->
  length_test (frames p) e = ROk (Some r) ->
  e = ECall f ((n, Some (EBin c nl x y)) :: args) ->
  loose_left (left_op (frames p)) = true -> loose_right (right_op (frames p)) = true ->
  right_op (frames p) = None \/ swallows y = false ->
  enclosed (frames p) = true \/ breaks y = false ->
  reports_a_node p e r /\
  fix_is_one_expression
    (fun e' => e' = EBin c false (ECall (EAtom (AId (lit "length"))) [(None, Some x)]) y) p r.
Proof. intros. eapply length_test_unit; eauto. Qed.
Print Assumptions C64_length_test_partial.

Theorem C64_repeat_partial : forall p e r c b, node_of_file p e -> repeat_loop (frames p) e = Some r ->
  e = EWhile c b -> breaks b = false \/ (exists es, b = EBraces es) ->
  reports_a_node p e r /\
  fix_is_one_expression (fun e' => e' = ERepeat b \/ e' = ERepeat (EBraces [b])) p r.
Proof.
  intros p e r c b H Hr He [Hb|[es ->]]; eapply repeat_unit; eauto.
Qed.
Print Assumptions C64_repeat_partial.

Theorem C64_not_one_expression_refuted :
  (exists p e r, node_of_file p e /\ any_duplicated (frames p) e = Some r /\
     forall shape, ~ fix_is_one_expression shape p r) /\
  (exists p e r, node_of_file p e /\ length_test (frames p) e = ROk (Some r) /\
     forall shape, ~ fix_is_one_expression shape p r) /\
  (exists p e r, node_of_file p e /\ all_equal (frames p) e = Some r /\
     forall shape, ~ fix_is_one_expression shape p r) /\
  (exists p e r, node_of_file p e /\ repeat_loop (frames p) e = Some r /\
     ~ fix_harmless (numbers [lit "x"; lit "y"]) p e r).
Proof.
  split; [exact any_duplicated_two|]. split; [exact length_test_sum|].
  split; [exact all_equal_sum|exact repeat_lines].
Qed.
Print Assumptions C64_not_one_expression_refuted.

(** The variable of a [for] named [T] or [F] is replaced by a constant, and nothing else changes; no
    expression is written that way, so the file of [for (T in x) y] is no longer R after the fix. *)
Theorem C64_for_variable_refuted :
  (forall fs e r, true_false_symbol_for fs e = Some r ->
     exists before after v k c, toks e = before ++ TAtom (AId v) :: after /\ new_text r = Some c /\
       c = before ++ TAtom k :: after /\ (v = lit "T" /\ k = ATrue \/ v = lit "F" /\ k = AFalse) /\
       forall e', c <> toks e') /\
  (exists p e r c, node_of_file p e /\ true_false_symbol_for (frames p) e = Some r /\
     new_text r = Some c /\ syntax_error (edited (fix_place p r) c)).
Proof.
  split.
  - intros fs e r H. destruct e; try discriminate. cbn [true_false_symbol_for] in H.
    destruct (teqb v (lit "T") || teqb v (lit "F"))%bool eqn:Q; [|discriminate].
    apply some_inj in H. subst r. cbn [new_text]. cbn [toks].
    exists [TFor; TLp], (TIn :: toks e1 ++ TRp :: toks e2), v. eexists _, _. split; [reflexivity|].
    split; [reflexivity|]. split; [reflexivity|]. split.
    + destruct (teqb v (lit "T")) eqn:V; [left; apply teqb_eq in V; auto|].
      right. split; auto. now apply teqb_eq.
    + intros e'. destruct (teqb v (lit "T")); apply for_variable_not_written; discriminate.
  - exists (here []), (EFor (lit "T") (var (lit "x")) (var (lit "y"))). eexists _, _.
    split; [read_it 30|]. split; [reflexivity|]. split; [reflexivity|]. exists 30. vm_compute. reflexivity.
Qed.
Print Assumptions C64_for_variable_refuted.

(** [-sum(1:nrow(x))] and [!all.equal(x, y)] meet the hypotheses. *)
Example C64_hypotheses_met :
  let p := here [FCallA (var (lit "sum")) [] None []; FUn UNeg] in
  let e := EBin BColon false (EAtom (ANum (lit "1"))) (call1 (lit "nrow") (var (lit "x"))) in
  node_of_file p e /\ (exists r, seq_rule (frames p) e = Some r) /\
  let q := here [FUn UNot] in
  let e' := ECall (var (lit "all.equal")) [(None, Some (var (lit "x"))); (None, Some (var (lit "y")))] in
  node_of_file q e' /\ exists r, all_equal (frames q) e' = Some r /\ loose_right (right_op (at_frames r)) = true.
Proof.
  cbn zeta. split; [read_it 30|]. split; [eexists; reflexivity|]. split; [read_it 30|].
  eexists. split; reflexivity.
Qed.
