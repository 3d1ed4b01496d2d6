(** Properties of the single rules: C65 -- C72. *)
From Verif Require Import Spec.RWellFormed Spec.RPosition Spec.RMore Spec.RDemo Spec.RDocumented.
From Verif Require Import Proofs.RAlike Proofs.LintDocumented Proofs.LintAssign Proofs.LintConstant Proofs.LintRefute Proofs.RuleRefute.

(** ** C65: what the documentation shows is what happens *)
Theorem C65_documented_rewrites : forall name fs e fs' e' new,
  documented name fs e fs' e' new ->
  exists rule, In (name, rule) rewriting_rules /\
    rule fs e = Some (mk_report fs' e' (Some (toks new))).
Proof. exact documented_makes. Qed.
Print Assumptions C65_documented_rewrites.

(** [grep(p, x, value = FALSE)], which returns indices, is rewritten into
    [grepv(p, x)], which returns the strings. *)
Theorem C65_grepv_false_refuted : forall fs p x,
  let e := call (lit "grep") [pos p; pos x; named (lit "value") (EAtom AFalse)] in
  grepv fs e = Some (mk_report fs e (Some (toks (call (lit "grepv") [pos p; pos x])))).
Proof. reflexivity. Qed.
Print Assumptions C65_grepv_false_refuted.

(** [x |> is.na() |> any()] and [if (class(x) != "foo") y] are documented. *)
Example C65_hypotheses_met :
  let x := var (lit "x") in
  documented (lit "any_is_na") [FBinR BPipe false (EBin BPipe false x (call (lit "is.na") []))] (call (lit "any") [])
    [] (EBin BPipe false (EBin BPipe false x (call (lit "is.na") [])) (call (lit "any") []))
    (call (lit "anyNA") [pos x]) /\
  let c := EBin (BCmp CNe) false (call (lit "class") [pos x]) (EAtom (AStr (lit """foo"""))) in
  documented (lit "class_equals") [FIfC (var (lit "y")) None] c [FIfC (var (lit "y")) None] c
    (EUn UNot (call (lit "inherits") [pos x; pos (EAtom (AStr (lit """foo""")))])).
Proof.
  cbn zeta. split.
  - apply doc_any_is_na, composed_pipes; left; reflexivity.
  - eapply (doc_class_equals _ _ false); [left; eauto|left; reflexivity|eexists; reflexivity|apply ne_right].
Qed.

(** ** C66: assignments *)
Theorem C66_equals_to_arrow_partial : forall p nl x v r,
  let e := EBin BEq nl x v in
  node_of_file p e -> assignment true (frames p) e = Some r ->
  primary x = true -> (forall nl' a b, v <> EBin BEq nl' a b) ->
  fix_harmless (fun _ => True) p e r.
Proof. intros p nl x v r e. intros. apply both_harmless, equals_to_arrow_harmless; auto. Qed.
Print Assumptions C66_equals_to_arrow_partial.

Theorem C66_right_arrow_partial : forall arrow p nl v x r,
  let e := EBin (BRAssign (lit "->")) nl v x in
  node_of_file p e -> assignment arrow (frames p) e = Some r ->
  primary x = true ->
  (right_op (frames p) = None \/ right_op (frames p) = Some RElse \/
   arrow = true /\ right_op (frames p) = Some (ROp BEq)) ->
  (arrow = true \/ left_op (frames p) = None \/ left_op (frames p) = Some (LBin BEq)) ->
  fix_harmless (fun _ => True) p e r.
Proof.
  intros arrow p nl v x r e H Hr Hx H1 H2. apply both_harmless, (right_arrow_harmless arrow); auto.
  destruct H1 as [H1|[H1|[H1 H3]]]; auto. right; right. split; [exact H1|]. exists BEq. auto.
Qed.
Print Assumptions C66_right_arrow_partial.

Theorem C66_arrow_to_equals_partial : forall p nl x v r,
  let e := EBin (BAssign (lit "<-")) nl x v in
  node_of_file p e -> assignment false (frames p) e = Some r ->
  (left_op (frames p) = None \/ left_op (frames p) = Some (LBin BEq)) ->
  (right_op (frames p) = None \/ right_op (frames p) = Some RElse) ->
  fix_harmless (fun _ => True) p e r.
Proof. intros p nl x v r e. intros. apply both_harmless, arrow_to_equals_harmless; auto. Qed.
Print Assumptions C66_arrow_to_equals_partial.

Theorem C66_assignment_refuted :
  (exists p e r, node_of_file p e /\ assignment true (frames p) e = Some r /\
     ~ fix_harmless (numbers [lit "c"]) p e r) /\
  (exists p e r, node_of_file p e /\ assignment false (frames p) e = Some r /\
     forall shape, ~ fix_is_one_expression shape p r) /\
  (exists p e r, node_of_file p e /\ assignment false (frames p) e = Some r /\
     forall P, ~ fix_harmless P p e r).
Proof. split; [exact assignment_chain|]. split; [exact assignment_argument|exact assignment_condition]. Qed.
Print Assumptions C66_assignment_refuted.

(** [if (a) x$y[1] = b + 1 else z] and [if (a) b + 1 -> x else z] meet the
    hypotheses; and [function() x <- 1] those for the other option. *)
Example C66_hypotheses_met :
  let a := var (lit "a") in let b := EBin BAdd false (var (lit "b")) (EAtom (ANum (lit "1"))) in
  let p := here [FIfT a (Some (var (lit "z")))] in
  let x := ESub false (EExtract (var (lit "x")) (lit "$") (lit "y")) [pos (EAtom (ANum (lit "1")))] in
  (node_of_file p (EBin BEq false x b) /\ (exists r, assignment true (frames p) (EBin BEq false x b) = Some r) /\
   primary x = true /\ (forall nl' c d, b <> EBin BEq nl' c d)) /\
  (node_of_file p (EBin (BRAssign (lit "->")) false b x) /\ right_op (frames p) = Some RElse /\
   exists r, assignment true (frames p) (EBin (BRAssign (lit "->")) false b x) = Some r) /\
  let q := here [FFunB []] in
  node_of_file q (EBin (BAssign (lit "<-")) false x b) /\ left_op (frames q) = None /\ right_op (frames q) = None /\
  exists r, assignment false (frames q) (EBin (BAssign (lit "<-")) false x b) = Some r.
Proof.
  cbn zeta. split; [|split].
  - split; [read_it 30|]. split; [eexists; reflexivity|]. split; [reflexivity|discriminate].
  - split; [read_it 30|]. split; [reflexivity|eexists; reflexivity].
  - split; [read_it 30|]. split; [reflexivity|]. split; [reflexivity|eexists; reflexivity].
Qed.

(** ** C67: nested conditions *)
Theorem C67_unnecessary_nesting_partial : forall p c1 c2 t r,
  let e := EIf c1 (EBraces [EIf c2 t None]) None in
  node_of_file p e -> unnecessary_nesting (frames p) e = Some r ->
  fix_harmless (fun I =>
    yields I c1 (fun v => not_string v /\ cond I v <> None) /\ yields I c2 not_string) p e r.
Proof. intros p c1 c2 t r e. intros. eapply both_harmless, unnecessary_nesting_harmless; eauto. Qed.
Print Assumptions C67_unnecessary_nesting_partial.

Theorem C67_unnecessary_nesting_refuted :
  exists p e r, node_of_file p e /\ unnecessary_nesting (frames p) e = Some r /\
    ~ fix_harmless (logicals [lit "x"; lit "y"]) p e r.
Proof. exact nesting_na. Qed.
Print Assumptions C67_unnecessary_nesting_refuted.

(** [f(if (x) { if (y > 1) z })], with TRUE in [x] and a number in [y]. *)
Example C67_hypotheses_met :
  let x := var (lit "x") in let y := EBin (BCmp CGt) false (var (lit "y")) (EAtom (ANum (lit "1"))) in
  let p := here [FCallA (var (lit "f")) [] None []] in
  let e := EIf x (EBraces [EIf y (var (lit "z")) None]) None in
  let I := demo (env_of [(lit "x", VLgl [Some true]); (lit "y", nm [2%Z])]) in
  node_of_file p e /\ (exists r, unnecessary_nesting (frames p) e = Some r) /\
  yields I x (fun v => not_string v /\ cond I v <> None) /\ yields I y not_string.
Proof.
  cbn zeta. split; [read_it 30|]. split; [eexists; reflexivity|]. split.
  - eapply yields_var; [vm_compute; reflexivity|]. split; [exact Logic.I|discriminate].
  - intros s v s' H. vm_compute in H. injection H as <- _. exact Logic.I.
Qed.

(** ** C68: conditions that are always true *)
Theorem C68_if_always_true : forall I fs c t r,
  plain_logic I -> numerals c -> if_always_true fs (EIf c t None) = ROk (Some r) ->
  yields I c (fun v => cond I v <> Some false).
Proof. exact if_always_true_never_false. Qed.
Print Assumptions C68_if_always_true.

(** [if (!(x && 0L) || FALSE) y] is reported. *)
Example C68_hypotheses_met :
  let c := EBin BOr2 false (EUn UNot (EParen (EBin BAnd2 false (var (lit "x")) (EAtom (ANum (lit "0L")))))) (EAtom AFalse) in
  plain_logic (demo (fun _ => None)) /\ numerals c /\ exists r, if_always_true [] (EIf c (var (lit "y")) None) = ROk (Some r).
Proof.
  cbn zeta. split; [intros c v w; reflexivity|]. split.
  - intros t H. repeat (destruct H as [H|H]; [try discriminate H|]); try (destruct H; fail).
    injection H as <-. exists 48%N, (lit "L"). split; [unfold digit; lia|left; reflexivity].
  - eexists. vm_compute. reflexivity.
Qed.
