(** Fixes of the rules on assignments and nested conditions. *)
From Verif Require Import Spec.RGrammar Spec.RWellFormed Spec.RPosition Spec.RSemantics Spec.RFix Spec.RMore.
From Verif Require Import Proofs.TextProofs Proofs.RParse Proofs.RParseSound Proofs.RContext Proofs.RCongruence Proofs.RAlike
  Proofs.LintSyntax Proofs.LintFixes.

Lemma opens_rmin : forall e, opens e = true -> rmin e = 0.
Proof.
  induction e using expr_ind2; intro Ho; cbn [opens rmin] in *; try discriminate; try reflexivity.
  - rewrite IHe by exact Ho; apply Nat.min_0_r.
  - rewrite IHe2 by exact Ho; apply Nat.min_0_r.
Qed.
Lemma rmin_opens : forall e, 0 < rmin e -> opens e = false.
Proof. intros e H; destruct (opens e) eqn:E; [apply opens_rmin in E; lia|reflexivity]. Qed.

(** Only a tree with [=] on its left edge is that loose. *)
Lemma lmin_not_equals : forall r i, wf i r -> (forall nl a b, r <> EBin BEq nl a b) -> 5 <= lmin r.
Proof.
  intros r i W H. destruct r; cbn [lmin]; try lia. cbn [wf] in W. destruct W as (W1 & _ & W3 & _).
  assert (5 <= lbp o) by (destruct o; cbn; try lia; exfalso; eapply H; reflexivity).
  assert (lbp o <= lmin r1) by (apply (rmin_lmin r1 i); auto; destruct o; cbn; lia). lia.
Qed.

Lemma assign_eqv : forall I fs o o' nl nl' a b c d,
  ceq (eval I (EBin o nl a b)) (eval I (EBin o' nl' c d)) -> eqv I fs (EBin o nl a b) (EBin o' nl' c d).
Proof.
  intros I fs o o' nl nl' a b c d H. repeat split; exact H.
Qed.

(** [x = v] becomes [x <- v]. *)
Lemma equals_to_arrow_harmless : forall p nl x v r,
  node_of_file p (EBin BEq nl x v) -> assignment true (frames p) (EBin BEq nl x v) = Some r ->
  primary x = true -> (forall nl' a b, v <> EBin BEq nl' a b) ->
  fix_both (fun _ => True) p (EBin BEq nl x v) r.
Proof.
  intros p nl x v r H Hr Hx Hv. unfold assignment, fixed_as in Hr. injection Hr as <-.
  apply harmless_here with (e' := EBin (BAssign (lit "<-")) false x v); try reflexivity; auto.
  - apply reads_fits in H. destruct H as (W & L & R). cbn [wf] in W.
    destruct W as (W1 & W2 & W3 & W4 & W5 & W6). split; [|split].
    + cbn [wf]. rewrite primary_rmin by auto. repeat split; auto; try discriminate.
      * cbn [lbp]; lia.
      * cbn [rbp]. eapply lmin_not_equals; eauto.
    + cbn [lmin lbp] in *. lia.
    + destruct (right_op (frames p)) as [[o| |]|]; cbn [rfits] in *; auto.
      * change (rmin (EBin BEq nl x v)) with (Nat.min 3 (rmin v)) in R.
        change (rmin (EBin (BAssign (lit "<-")) false x v)) with (Nat.min 5 (rmin v)).
        destruct R as [R _]. split; [lia|]. apply Bool.andb_false_r.
      * change (rmin (EBin BEq nl x v)) with (Nat.min 3 (rmin v)) in R. lia.
  - intros I _. apply assign_eqv. apply ceq_refl.
Qed.

(** [v -> x] becomes [x <- v], or [x = v]. *)
Lemma right_arrow_harmless : forall arrow p nl v x r,
  node_of_file p (EBin (BRAssign (lit "->")) nl v x) ->
  assignment arrow (frames p) (EBin (BRAssign (lit "->")) nl v x) = Some r ->
  primary x = true ->
  (right_op (frames p) = None \/ right_op (frames p) = Some RElse \/
   arrow = true /\ exists o, right_op (frames p) = Some (ROp o) /\ o = BEq) ->
  (arrow = true \/ left_op (frames p) = None \/ left_op (frames p) = Some (LBin BEq)) ->
  fix_both (fun _ => True) p (EBin (BRAssign (lit "->")) nl v x) r.
Proof.
  intros arrow p nl v x r H Hr Hx Hright Hleft. unfold assignment, fixed_as in Hr. rewrite teqb_refl in Hr.
  injection Hr as <-.
  apply harmless_here with (e' := EBin (if arrow then BAssign (lit "<-") else BEq) false x v); auto.
  - destruct arrow; reflexivity.
  - pose proof H as G. apply reads_fits in H. destruct H as (W & L & R). cbn [wf] in W.
    destruct W as (W1 & W2 & W3 & W4 & W5 & W6). cbn [lbp rbp] in *.
    assert (Lv : 7 <= lmin v) by (apply (rmin_lmin v (enclosed (frames p))); auto; lia).
    split; [|split].
    + cbn [wf]. rewrite primary_rmin by auto. repeat split; auto; try discriminate;
        destruct arrow; cbn [lbp rbp is_cmp]; try lia; reflexivity.
    + change (lmin (EBin (BRAssign (lit "->")) nl v x)) with (Nat.min 7 (lmin v)) in L.
      assert (lneed (left_op (frames p)) <= 7) by lia. clear L.
      cbn [lmin]. rewrite primary_lmin by auto.
      destruct arrow; cbn [lbp].
      * destruct (left_op (frames p)) as [[o|u| ]|]; cbn [lneed] in *; [| |unfold arg_level; lia|lia].
        -- destruct o; cbn in *; lia.
        -- destruct u; cbn in *; lia.
      * destruct Hleft as [ Hl | [ -> | -> ] ]; [discriminate|cbn; lia|cbn; lia].
    + destruct Hright as [ -> | [ -> | (-> & o & -> & ->) ] ]; cbn [rfits]; auto.
      * cbn [opens]. apply rmin_opens. lia.
      * change (rmin (EBin (BAssign (lit "<-")) false x v)) with (Nat.min 5 (rmin v)). cbn [lbp]. split; [lia|reflexivity].
  - intros I _. destruct arrow; apply assign_eqv; apply ceq_refl.
Qed.

(** [x <- v] becomes [x = v]. *)
Lemma arrow_to_equals_harmless : forall p nl x v r,
  node_of_file p (EBin (BAssign (lit "<-")) nl x v) ->
  assignment false (frames p) (EBin (BAssign (lit "<-")) nl x v) = Some r ->
  (left_op (frames p) = None \/ left_op (frames p) = Some (LBin BEq)) ->
  (right_op (frames p) = None \/ right_op (frames p) = Some RElse) ->
  fix_both (fun _ => True) p (EBin (BAssign (lit "<-")) nl x v) r.
Proof.
  intros p nl x v r H Hr Hleft Hright. unfold assignment, fixed_as in Hr. rewrite teqb_refl in Hr.
  cbn [negb andb] in Hr. injection Hr as <-.
  apply harmless_here with (e' := EBin BEq false x v); try reflexivity; auto.
  - apply reads_fits in H. destruct H as (W & L & R). cbn [wf] in W.
    destruct W as (W1 & W2 & W3 & W4 & W5 & W6). cbn [lbp rbp] in *.
    assert (Lx : 5 <= lmin x) by (apply (rmin_lmin x (enclosed (frames p))); auto; lia).
    split; [|split].
    + cbn [wf lbp rbp]. repeat split; auto; try discriminate; lia.
    + cbn [lmin lbp]. destruct Hleft as [ -> | -> ]; cbn [lneed rbp]; lia.
    + destruct Hright as [ E | E ]; rewrite E in *; cbn [rfits opens] in *; auto.
  - intros I _. apply assign_eqv. apply ceq_refl.
Qed.

(** ** unnecessary_nesting *)
Definition grouped' (e : expr) : expr := match e with EAtom (AId _) => e | _ => EParen e end.
Lemma grouped_toks : forall c, in_parens c = toks (grouped' c).
Proof. intros [[]| | | | | | | | | | | |]; reflexivity. Qed.
Lemma grouped_eval : forall I c, eval I (grouped' c) = eval I c.
Proof. intros I [[]| | | | | | | | | | | |]; reflexivity. Qed.
Lemma grouped_wf : forall c, wf true c -> wf true (grouped' c) /\ primary (grouped' c) = true.
Proof. intros [[]| | | | | | | | | | | |] W; split; try reflexivity; exact W. Qed.

Lemma single_cond : forall I v, not_string v ->
  match single I v with
  | Some (Some b) => cond I v = Some b
  | _ => cond I v = None
  end.
Proof.
  intros I v H. unfold single, cond. destruct v; try destruct H; cbn [to_lgl]; auto.
  - destruct l as [|[b|] [|? ?]]; reflexivity.
  - destruct l as [|x [|? ?]]; cbn [map]; try reflexivity; destruct (obind x (num_lgl I)); reflexivity.
  - destruct (o_lgl I o) as [[|[b|] [|? ?]]|]; reflexivity.
Qed.

Lemma nesting_ceq : forall I c1 c2 t,
  yields I c1 (fun v => not_string v /\ cond I v <> None) -> yields I c2 not_string ->
  ceq (eval I (EIf c1 (EBraces [EIf c2 t None]) None))
      (eval I (EIf (EBin BAnd2 false (grouped' c1) (grouped' c2)) t None)).
Proof.
  intros I c1 c2 t H1 H2 s.
  change (eval I (EIf c1 (EBraces [EIf c2 t None]) None)) with
    (if_sem I (eval I c1) (if_sem I (eval I c2) (eval I t) None) None).
  change (eval I (EIf (EBin BAnd2 false (grouped' c1) (grouped' c2)) t None)) with
    (if_sem I (shortcut I true (eval I (grouped' c1)) (eval I (grouped' c2))) (eval I t) None).
  rewrite !grouped_eval. unfold if_sem, shortcut, cbind.
  destruct (eval I c1 s) as [[v s1]|] eqn:E1; [|reflexivity].
  destruct (H1 _ _ _ E1) as [Hs Hc]. pose proof (single_cond I v Hs) as G.
  destruct (single I v) as [[b|]|]; try congruence. rewrite G.
  destruct b; cbn [Bool.eqb negb]; [|reflexivity].
  destruct (eval I c2 s1) as [[w s2]|] eqn:E2; [|reflexivity].
  pose proof (single_cond I w (H2 _ _ _ E2)) as G2.
  destruct (single I w) as [[b|]|]; rewrite G2; try reflexivity.
Qed.

Lemma unnecessary_nesting_harmless : forall p c1 c2 t r (e := EIf c1 (EBraces [EIf c2 t None]) None),
  node_of_file p e -> unnecessary_nesting (frames p) e = Some r ->
  fix_both (fun I => yields I c1 (fun v => not_string v /\ cond I v <> None) /\ yields I c2 not_string) p e r.
Proof.
  intros p c1 c2 t r e H Hr. subst e. unfold unnecessary_nesting, fixed_as in Hr. injection Hr as <-.
  apply harmless_here with (e' := EIf (EBin BAnd2 false (grouped' c1) (grouped' c2)) t None); auto.
  - cbn [new_text]. rewrite !grouped_toks. cbn [toks]. rewrite app_nil_r. reflexivity.
  - apply reads_fits in H. destruct H as (W & L & R). cbn [wf fold_right] in W.
    destruct W as ((W1 & W1') & (((W2 & W2') & Wt & _) & _) & _).
    destruct (grouped_wf c1 W1) as [G1 P1]. destruct (grouped_wf c2 W2) as [G2 P2].
    split; [|split].
    + cbn [wf]. split; [split|split; [|exact Logic.I]].
      * rewrite (primary_rmin _ P1), (primary_lmin _ P2). repeat split; auto; cbn; try lia; discriminate.
      * cbn [lmin lbp]. rewrite (primary_lmin _ P1). unfold arg_level. cbn. lia.
      * destruct (enclosed (frames p)); [eapply wf_weaken; exact Wt|exact Wt].
    + cbn [lmin] in *. exact L.
    + destruct (right_op (frames p)) as [[o| |]|]; cbn [rfits rmin opens] in *; auto; lia.
  - intros I [H1 H2]. repeat split; apply nesting_ceq; auto.
Qed.
