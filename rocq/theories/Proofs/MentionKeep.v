(** Fixes that keep every variable. *)
From Verif Require Import Spec.RMention Proofs.TextProofs Proofs.RParse Proofs.MentionProofs Proofs.MentionRules Proofs.RFlaggedEnd.

Notation idt x := (TAtom (AId x)).
Definition args_vars (args : list arg) : list text := flat_map (fun a : arg => match snd a with Some v => vars v | None => [] end) args.

Lemma in_sep : forall u s l, In u (concat l) -> In u (sep s l).
Proof.
  intros u s l. induction l as [|x l IH]; cbn [concat]; [auto|]. intros H. apply in_app_or in H.
  destruct l as [|y l]; [cbn [sep]; destruct H as [H|[]]; exact H|].
  change (sep s (x :: y :: l)) with (x ++ s ++ sep s (y :: l)). apply in_or_app. destruct H; [auto|]. right. apply in_or_app. auto.
Qed.
Lemma in_sep_map : forall {A} (f : A -> list tok) u s l a, In a l -> In u (f a) -> In u (sep s (map f l)).
Proof. intros A f u s l a H1 H2. apply in_sep. apply in_concat. exists (f a). split; [apply in_map, H1|exact H2]. Qed.

(** Variables are tokens. *)
Lemma vars_toks : forall e x, In x (vars e) -> In (idt x) (toks e).
Proof.
  assert (A : forall s x args, Forall (fun a : arg => optP (fun e => forall x, In x (vars e) -> In (idt x) (toks e)) (snd a)) args ->
    In x (flat_map (fun a : arg => match snd a with Some v => vars v | None => [] end) args) ->
    In (idt x) (sep s (map (fun a : arg => name_toks (fst a) ++ match snd a with Some v => toks v | None => [] end) args))).
  { intros s x args F H. apply in_flat_map in H as ([nm v] & H1 & H2). rewrite Forall_forall in F. specialize (F _ H1). cbn [snd] in *.
    destruct v as [v|]; [|destruct H2]. eapply in_sep_map; [exact H1|]. cbn [fst snd]. apply in_or_app. right. apply F, H2. }
  induction e using expr_ind2; intros x0 H0; cbn [vars toks] in *.
  - destruct a; cbn in H0; try contradiction. destruct H0 as [->|[]]. left. reflexivity.
  - right. apply in_or_app. auto.
  - right. auto.
  - apply in_or_app. apply in_app_or in H0 as [H0|H0]; [auto|]. right. apply in_or_app. right. right. auto.
  - apply in_or_app. apply in_app_or in H0 as [H0|H0]; [auto|]. right. right. apply in_or_app. left. apply A; auto.
  - apply in_or_app. apply in_app_or in H0 as [H0|H0]; [auto|]. right. right. apply in_or_app. left. apply A; auto.
  - apply in_or_app. auto.
  - right. right. apply in_or_app. apply in_app_or in H0 as [H0|H0]; [auto|]. right. right. apply in_or_app.
    apply in_app_or in H0 as [H0|H0]; [auto|]. right. destruct el; [|destruct H0]. right. auto.
  - right. right. apply in_or_app. apply in_app_or in H0 as [H0|H0]; [|right; right; auto]. left.
    apply in_flat_map in H0 as ([nm v] & Q1 & Q2). eapply in_sep_map; [exact Q1|]. cbn [fst snd] in *.
    destruct Q2 as [->|Q2]; [left; reflexivity|]. right. rewrite Forall_forall in H. specialize (H _ Q1). cbn [snd] in H. destruct v; [|destruct Q2]. right. apply H, Q2.
  - destruct H0 as [->|H0]; [right; right; left; reflexivity|]. right. right. right. right. apply in_or_app. apply in_app_or in H0 as [H0|H0]; [auto|]. right. right. auto.
  - right. right. apply in_or_app. apply in_app_or in H0 as [H0|H0]; [auto|]. right. right. auto.
  - right. auto.
  - right. apply in_or_app. left. apply in_flat_map in H0 as (y & Q1 & Q2). eapply in_sep_map; [exact Q1|]. rewrite Forall_forall in H. apply (H _ Q1), Q2.
Qed.

Lemma args_vars_toks : forall args x, In x (args_vars args) -> In (idt x) (args_toks args).
Proof.
  intros args x H. apply in_flat_map in H as ([nm v] & H1 & H2). eapply in_sep_map; [exact H1|]. cbn [snd] in H2. destruct v; [|destruct H2].
  unfold arg_toks. cbn [fst snd opt_toks]. apply in_or_app. right. apply vars_toks, H2.
Qed.
Lemma in_call : forall u n c, In u c -> In u (call_text n c).
Proof. intros. unfold call_text. right. right. apply in_or_app. auto. Qed.
Lemma in_call_name : forall n c, In (idt n) (call_text n c).
Proof. intros. left. reflexivity. Qed.
Lemma in_expect : forall u f n c, In u c -> In u (expect_text f n c).
Proof. intros. unfold expect_text. right. right. apply in_or_app. auto. Qed.
Lemma in_not : forall u b c, In u c -> In u (maybe_not b c).
Proof. intros u [] c H; [exact H|right; exact H]. Qed.

(** The function of a call. *)
Definition no_extract (n : text) : bool := forallb (fun c => negb (ceqb c 36%N || ceqb c 64%N)) n.
Lemma ceqb_self : forall c, ceqb c c = true.
Proof. intros. apply N.eqb_refl. Qed.
Lemma callee_vars : forall f n x, usual_extracts (toks f) -> get_function_name f = n -> n <> [] -> no_extract n = true -> In x (vars f) -> x = n.
Proof.
  intros f n x U E N D H. destruct f as [[]| | | | | |g op b| | | | | |]; cbn [get_function_name vars] in *; try (destruct H; fail); try congruence.
  - destruct H as [->|[]]. exact E.
  - destruct g as [[]| | | | | | | | | | | |]; try congruence.
    assert (Q : op = lit "$" \/ op = lit "@") by (apply (U op b); cbn [toks app]; right; left; reflexivity).
    exfalso. rewrite <- E in D. unfold no_extract in D. rewrite !forallb_app in D. apply andb_prop in D as [_ D]. apply andb_prop in D as [D _].
    destruct Q as [-> | ->]; discriminate D.
Qed.
Lemma callee_in : forall f (l : list text) x, usual_extracts (toks f) -> mem (get_function_name f) l = true ->
  forallb (fun n => no_extract n && negb (teqb n [])) l = true -> In x (vars f) -> In x l.
Proof.
  intros f l x U M L H. unfold mem in M. apply existsb_exists in M as (n & N & T). apply teqb_eq in T.
  rewrite forallb_forall in L. specialize (L n N). apply andb_prop in L as [L1 L2]. rewrite (callee_vars f n x U T) by (auto; intros ->; discriminate L2). exact N.
Qed.
Lemma mem1 : forall x y, teqb x y = true -> mem x [y] = true.
Proof. intros x y H. unfold mem. cbn [existsb]. rewrite H. reflexivity. Qed.

Lemma usual_part : forall ts ts', usual_extracts ts' -> incl ts ts' -> usual_extracts ts.
Proof. intros ts ts' U I op x H. apply U with (x := x), I, H. Qed.
Lemma usual_callee : forall f args, usual_extracts (toks (ECall f args)) -> usual_extracts (toks f).
Proof. intros f args U. eapply usual_part; [exact U|]. intros u H. cbn [toks]. apply in_or_app. auto. Qed.
Lemma usual_arg : forall f args nm v, usual_extracts (toks (ECall f args)) -> In (nm, Some v) args -> usual_extracts (toks v).
Proof.
  intros f args nm v U H. eapply usual_part; [exact U|]. intros u Hu. cbn [toks]. apply in_or_app. right. right. apply in_or_app. left.
  eapply in_sep_map; [exact H|]. cbn [fst snd]. apply in_or_app. auto.
Qed.

(** Every variable of the node other than [dropped] is in the fix. *)
Definition keeps (dropped : list text) (r : report) : Prop :=
  usual_extracts (toks (at_node r)) ->
  forall c x, new_text r = Some c -> In x (vars (at_node r)) -> ~ In x dropped -> In (idt x) c.
Lemma keeps_here : forall dropped fs e c, (usual_extracts (toks e) -> forall x, In x (vars e) -> ~ In x dropped -> In (idt x) c) -> keeps dropped (mk_report fs e (Some c)).
Proof. intros d fs e c H U c' x E. cbn in E. apply some_inj in E. rewrite E. apply H, U. Qed.
Lemma keeps_none : forall d fs e, keeps d (mk_report fs e None).
Proof. intros d fs e U c x. discriminate. Qed.
Ltac keep H := unfold fixed_as, reported in H; apply some_inj in H; rewrite H; first [apply keeps_none | apply keeps_here; intros U x Hx Hd].
Ltac inapp H := apply in_app_or in H as [H|H].

Lemma any_is_na_2_keeps : forall fs e r, any_is_na_2 fs e = Some r -> keeps [] r.
Proof.
  intros fs e r H. unfold any_is_na_2 in H. destruct e as [| | |o nl l y| | | | | | | | |]; try discriminate.
  destruct o as [| | | | | | | | | | | | |s| | |]; try discriminate. destruct (teqb s _); [|discriminate].
  assert (H' : exists nn, l = EAtom (ANa nn) /\ fixed_as fs (EBin (BSpecial s) nl l y) (call_text (lit "anyNA") (toks y)) = Some r).
  { destruct l as [[]| | | | | | | | | | | |]; destruct y as [[]| | | | | | | | | | | |]; try discriminate; eexists; split; try reflexivity; exact H. }
  destruct H' as (nn & -> & H'). keep H'. cbn [vars] in Hx. apply in_call, vars_toks, Hx.
Qed.
Lemma assignment_keeps : forall arrow fs e r, assignment arrow fs e = Some r -> keeps [] r.
Proof.
  intros arrow fs e r H. unfold assignment in H. destruct e as [| | |o nl l y| | | | | | | | |]; try discriminate.
  destruct o as [|s|s| | | | | | | | | | | | | |]; try discriminate.
  - destruct arrow; [|discriminate]. keep H. cbn [vars] in Hx. apply in_or_app. inapp Hx; apply vars_toks in Hx; [auto|right; right; exact Hx].
  - destruct (_ && _); [|discriminate]. keep H. cbn [vars] in Hx. apply in_or_app. inapp Hx; apply vars_toks in Hx; [auto|right; right; exact Hx].
  - destruct (teqb _ _); [|discriminate]. keep H. cbn [vars] in Hx. apply in_or_app. inapp Hx; apply vars_toks in Hx; [right; right; exact Hx|auto].
Qed.
Lemma comparison_negation_keeps : forall fs e r, comparison_negation fs e = Some r -> keeps [] r.
Proof.
  intros fs e r H. unfold comparison_negation in H. destruct e as [| |[] y| | | | | | | | | |]; try discriminate.
  destruct y as [|[| | |[] nl l y| | | | | | | | |]| | | | | | | | | | |]; try discriminate. keep H. cbn [vars] in Hx.
  apply in_or_app. inapp Hx; apply vars_toks in Hx; [auto|right; right; exact Hx].
Qed.
Lemma equals_na_keeps : forall fs e r, equals_na fs e = Some r -> keeps na_names r.
Proof.
  intros fs e r H. unfold equals_na in H. destruct e as [| | |o nl l y| | | | | | | | |]; try discriminate.
  destruct (equality o) as [b|]; [|discriminate]. destruct (_ && _); [discriminate|]. destruct (Bool.eqb _ _) eqn:B; [discriminate|]. keep H.
  assert (D : forall z, is_na_text z = true -> In x (vars z) -> False).
  { intros z Z V. apply Hd. destruct z as [[]| | | | | | | | | | | |]; cbn [is_na_text vars] in *; try discriminate; try (destruct V; fail).
    destruct V as [->|[]]. apply existsb_exists in Z as (w & W & T). apply teqb_eq in T. rewrite T. exact W. }
  apply in_not, in_call, vars_toks. cbn [vars] in Hx. destruct (is_na_text l) eqn:L.
  - inapp Hx; [destruct (D l L Hx)|exact Hx].
  - destruct (is_na_text y) eqn:Y; [|discriminate]. inapp Hx; [exact Hx|destruct (D y Y Hx)].
Qed.
Lemma equals_nan_keeps : forall fs e r, equals_nan fs e = Some r -> keeps [] r.
Proof.
  intros fs e r H. unfold equals_nan in H. destruct e as [| | |o nl l y| | | | | | | | |]; try discriminate.
  destruct (equality o) as [b|]; [|discriminate]. destruct (_ && _); [discriminate|]. destruct (Bool.eqb _ _) eqn:B; [discriminate|]. keep H.
  assert (D : forall z, is_nan_lit z = true -> In x (vars z) -> False).
  { intros z Z V. destruct z as [[]| | | | | | | | | | | |]; cbn [is_nan_lit vars] in *; try discriminate. destruct V. }
  apply in_not, in_call, vars_toks. cbn [vars] in Hx. destruct (is_nan_lit l) eqn:L.
  - inapp Hx; [destruct (D l L Hx)|exact Hx].
  - destruct (is_nan_lit y) eqn:Y; [|discriminate]. inapp Hx; [exact Hx|destruct (D y Y Hx)].
Qed.
Lemma equals_null_keeps : forall fs e r, equals_null fs e = Some r -> keeps [] r.
Proof.
  intros fs e r H. unfold equals_null in H. destruct e as [| | |o nl l y| | | | | | | | |]; try discriminate.
  destruct (equality o) as [b|]; [|discriminate]. destruct (Bool.eqb _ _) eqn:B; [discriminate|]. keep H.
  assert (D : forall z, is_null_lit z = true -> In x (vars z) -> False).
  { intros z Z V. destruct z as [[]| | | | | | | | | | | |]; cbn [is_null_lit vars] in *; try discriminate. destruct V. }
  apply in_not, in_call, vars_toks. cbn [vars] in Hx. destruct (is_null_lit l) eqn:L.
  - inapp Hx; [destruct (D l L Hx)|exact Hx].
  - destruct (is_null_lit y) eqn:Y; [|discriminate]. inapp Hx; [exact Hx|destruct (D y Y Hx)].
Qed.
Lemma redundant_equals_keeps : forall fs e r, redundant_equals fs e = Some r -> keeps [] r.
Proof.
  intros fs e r H. unfold redundant_equals in H. destruct e as [| | |o nl l y| | | | | | | | |]; try discriminate.
  destruct o as [| | | | | | | |c| | | | | | | |]; try discriminate.
  assert (exists z (b : bool), (z = l /\ vars y = [] \/ z = y /\ vars l = []) /\ fixed_as fs (EBin (BCmp c) nl l y) (if b then TBang :: toks z else toks z) = Some r) as (z & b & Z & H').
  { destruct c; try discriminate; destruct l as [[]| | | | | | | | | | | |]; destruct y as [[]| | | | | | | | | | | |]; try discriminate;
      match goal with |- exists z b, (z = ?x /\ _ \/ z = ?y /\ _) /\ _ =>
        first [solve [exists x, true; split; [auto|exact H]] | solve [exists y, true; split; [auto|exact H]]
              |solve [exists x, false; split; [auto|exact H]] | solve [exists y, false; split; [auto|exact H]]] end. }
  keep H'. cbn [vars] in Hx. assert (Q : In (idt x) (toks z)).
  { apply vars_toks. destruct Z as [[-> Z]|[-> Z]]; rewrite Z in Hx; [rewrite app_nil_r in Hx|]; exact Hx. }
  destruct b; [right|]; exact Q.
Qed.
Lemma single_vars : forall e x, has_multiple_expressions e = false -> In x (vars e) -> In x (vars (single_expression e)).
Proof.
  intros e x M H. destruct e as [| | | | | | | | | | | |es]; cbn [single_expression]; try exact H.
  destruct es as [|y [|]]; cbn in M; try exact H. cbn [vars flat_map] in H. rewrite app_nil_r in H. exact H.
Qed.
Lemma given_vars : forall args x y, given_values args = [x] -> In y (args_vars args) -> In y (vars x).
Proof.
  intros args x y G H. apply in_flat_map in H as ([nm v] & H1 & H2). cbn [snd] in H2. destruct v as [v|]; [|destruct H2].
  assert (Q : In v (given_values args)) by (apply in_flat_map; exists (nm, Some v); split; [exact H1|left; reflexivity]).
  rewrite G in Q. destruct Q as [->|[]]. exact H2.
Qed.
Lemma same_text_eq : forall a b, same_text a b = true -> a = b.
Proof. intros a b H. unfold same_text in H. destruct (list_eq_dec _ a b); [assumption|discriminate]. Qed.
Lemma coalesce_keeps : forall fs e r, coalesce fs e = Some r -> keeps [lit "is.null"] r.
Proof.
  intros fs e r H. unfold coalesce in H. destruct e as [| | | | | | |c a [b|]| | | | |]; try discriminate.
  assert (C : forall g args x y, usual_extracts (toks (ECall g args)) -> teqb (get_function_name g) (lit "is.null") = true -> given_values args = [x] ->
    In y (vars (ECall g args)) -> ~ In y [lit "is.null"] -> In y (vars x)).
  { intros g args x y U T G Y N. cbn [vars] in Y. inapp Y; [|eapply given_vars; eauto].
    exfalso. apply N. eapply callee_in; [eapply usual_callee; exact U|apply mem1; exact T|reflexivity|exact Y]. }
  assert (O : forall v w other, (w = a /\ other = b \/ w = b /\ other = a) -> same_text (toks v) (toks (single_expression w)) = true ->
    (usual_extracts (toks c) -> forall y, In y (vars c) -> ~ In y [lit "is.null"] -> In y (vars v)) ->
    Some (mk_report fs (EIf c a (Some b)) (if has_multiple_expressions a || has_multiple_expressions b then None
      else Some (toks v ++ TOp (BSpecial (lit "%||%")) :: toks (single_expression other)))) = Some r -> keeps [lit "is.null"] r).
  { intros v w other W T V E. destruct (_ || _) eqn:M; [keep E|]. apply Bool.orb_false_elim in M as [M1 M2]. keep E.
    apply same_text_eq in T.
    assert (W1 : has_multiple_expressions w = false) by (destruct W as [[-> _]|[-> _]]; assumption).
    assert (W2 : has_multiple_expressions other = false) by (destruct W as [[_ ->]|[_ ->]]; assumption).
    assert (Hx' : In x (vars c) \/ In x (vars w) \/ In x (vars other)).
    { cbn [vars] in Hx. inapp Hx; [auto|]. inapp Hx; destruct W as [[-> ->]|[-> ->]]; auto. }
    apply in_or_app. destruct Hx' as [Hx'|[Hx'|Hx']].
    - left. apply vars_toks, V; auto. eapply usual_part; [exact U|]. intros u Hu. cbn [toks]. right. right. apply in_or_app. auto.
    - left. rewrite T. apply vars_toks, single_vars; auto.
    - right. right. apply vars_toks, single_vars; auto. }
  destruct c as [| |[] c| |g args| | | | | | | |]; try discriminate.
  - destruct c as [| | | |g args| | | | | | | |]; try discriminate. destruct (teqb _ _) eqn:N; [|discriminate]. destruct (given_values args) as [|v [|]] eqn:G; try discriminate.
    destruct (same_text _ _) eqn:T; [|discriminate]. apply (O v a b); auto. intros U y Y D. eapply (C g args v y); eauto.
    eapply usual_part; [exact U|]. intros u Hu. right. exact Hu.
  - destruct (teqb _ _) eqn:N; [|discriminate]. destruct (given_values args) as [|v [|]] eqn:G; try discriminate.
    destruct (same_text _ _) eqn:T; [|discriminate]. apply (O v b a); auto. intros U y Y D. eapply (C g args v y); eauto.
Qed.
Lemma outer_negation_keeps : forall fs e r, outer_negation fs e = Some r -> keeps [lit "all"; lit "any"] r.
Proof.
  intros fs e r H. unfold outer_negation in H. destruct (parent_is_bang_unary fs); [discriminate|].
  destruct e as [| | | |f args| | | | | | | |]; try discriminate. destruct f as [[n| | | | | | | |]| | | | | | | | | | | |]; try discriminate.
  destruct args as [|[nm [[| |u y| | | | | | | | | |]|]] [|]]; try discriminate.
  destruct (_ || _) eqn:B; [|discriminate].
  assert (H' : fixed_as fs (ECall (EAtom (AId n)) [(nm, Some (EUn u y))]) (TBang :: call_text (if teqb n (lit "any") then lit "all" else lit "any") (toks y)) = Some r)
    by (destruct y; try discriminate; exact H).
  keep H'. cbn [vars flat_map snd app] in Hx. rewrite app_nil_r in Hx. destruct Hx as [<-|Hx].
  - exfalso. apply Hd. apply Bool.orb_prop in B as [B|B]; apply teqb_eq in B; rewrite B; cbn; auto.
  - right. apply in_call, vars_toks, Hx.
Qed.
Lemma repeat_keeps : forall fs e r, repeat_loop fs e = Some r -> keeps [] r.
Proof.
  intros fs e r H. unfold repeat_loop in H. destruct e as [| | | | | | | | | |c b| |]; try discriminate.
  destruct c as [[]| | | | | | | | | | | |]; try discriminate. keep H. cbn [vars app] in Hx. apply vars_toks in Hx. right.
  assert (In (idt x) (TLc :: toks b ++ [TRc])) by (right; apply in_or_app; auto). destruct b; assumption.
Qed.
Lemma true_false_symbol_keeps : forall fs e r, true_false_symbol fs e = Some r -> keeps [lit "T"; lit "F"] r.
Proof.
  intros fs e r H. unfold true_false_symbol in H. destruct e as [[n| | | | | | | |]| | | | | | | | | | | |]; try discriminate.
  destruct (_ || _) eqn:B; [|discriminate].
  assert (H' : fixed_as fs (EAtom (AId n)) [TAtom (if teqb n (lit "T") then ATrue else AFalse)] = Some r)
    by (destruct fs as [|[| |[]|[]| | | | | | | | | | | | | | | |] fs]; try discriminate; exact H).
  keep H'. cbn [vars] in Hx. destruct Hx as [<-|[]]. exfalso. apply Hd. apply Bool.orb_prop in B as [B|B]; apply teqb_eq in B; rewrite B; cbn; auto.
Qed.
Lemma true_false_symbol_for_keeps : forall fs e r, true_false_symbol_for fs e = Some r -> keeps [lit "T"; lit "F"] r.
Proof.
  intros fs e r H. unfold true_false_symbol_for in H. destruct e as [| | | | | | | | |v s b| | |]; try discriminate.
  destruct (_ || _) eqn:B; [|discriminate]. keep H. cbn [vars] in Hx. destruct Hx as [<-|Hx].
  - exfalso. apply Hd. apply Bool.orb_prop in B as [B|B]; apply teqb_eq in B; rewrite B; cbn; auto.
  - right. right. right. right. apply in_or_app. inapp Hx; apply vars_toks in Hx; [auto|right; right; exact Hx].
Qed.
Lemma seq_text_in : forall f c x, In (idt x) c \/ x = f /\ f <> lit "length" -> In (idt x) (seq_text f c).
Proof.
  intros f c x H. unfold seq_text. destruct (teqb f (lit "length")) eqn:E.
  - apply teqb_eq in E. destruct H as [H|[_ H]]; [apply in_call, H|contradiction].
  - apply in_call. destruct H as [H|[-> _]]; [apply in_call, H|apply in_call_name].
Qed.
Lemma seq_call : forall f args x, usual_extracts (toks (ECall f args)) -> existsb (teqb (get_function_name f)) size_names = true ->
  In x (vars (ECall f args)) -> x <> lit "length" -> In (idt x) (seq_text (get_function_name f) (args_toks args)).
Proof.
  intros f args x U B H N. cbn [vars] in H. apply seq_text_in. inapp H; [|left; apply args_vars_toks, H]. right.
  assert (E : x = get_function_name f).
  { apply existsb_exists in B as (g & G & T). apply teqb_eq in T. rewrite T. apply (callee_vars f g); auto; [eapply usual_callee; exact U| |];
      (destruct G as [<-|[<-|[<-|[<-|[<-|[]]]]]]; [discriminate || reflexivity ..]). }
  split; [exact E|]. rewrite <- E. exact N.
Qed.
Lemma seq_keeps : forall fs e r, seq_rule fs e = Some r -> keeps [lit "length"] r.
Proof.
  intros fs e r H. unfold seq_rule in H. destruct e as [| | |[] nl l y| | | | | | | | |]; try discriminate.
  destruct y as [| | | |f args| | | | | | | |]; try discriminate. destruct (is_one l && _) eqn:B; [|discriminate]. keep H.
  apply andb_prop in B as [B1 B2]. change (In x (vars l ++ vars (ECall f args))) in Hx. inapp Hx.
  - destruct l as [[]| | | | | | | | | | | |]; try discriminate. destruct Hx.
  - apply seq_call; auto; [|intros ->; apply Hd; left; reflexivity].
    eapply usual_part; [exact U|]. intros u Hu. cbn [toks]. apply in_or_app. right. apply in_or_app. right. right. exact Hu.
Qed.
Lemma seq2_keeps : forall fs e r, seq2_rule fs e = Some r -> keeps [lit "seq"; lit "length"] r.
Proof.
  intros fs e r H. unfold seq2_rule in H. destruct e as [| | | |f [|[[nm|] [[| | | |g args| | | | | | | |]|]] [|]]| | | | | | | |]; try discriminate.
  destruct (_ && _) eqn:B; [|discriminate]. keep H. apply andb_prop in B as [B1 B2].
  change (In x (vars f ++ (vars (ECall g args) ++ []))) in Hx. rewrite app_nil_r in Hx. inapp Hx.
  - exfalso. apply Hd. assert (In x [lit "seq"]) as [<-|[]] by (eapply callee_in; [eapply usual_callee; exact U|apply mem1; exact B1|reflexivity|exact Hx]). left; reflexivity.
  - apply seq_call; auto; [|intros ->; apply Hd; right; left; reflexivity]. eapply usual_arg; [exact U|left; reflexivity].
Qed.
Lemma unnecessary_nesting_keeps : forall fs e r, unnecessary_nesting fs e = Some r -> keeps [] r.
Proof.
  intros fs e r H. unfold unnecessary_nesting in H.
  destruct e as [| | | | | | |c a [|]| | | | |]; try discriminate; destruct a as [| | | | | | | | | | | |[|[| | | | | | |c2 a [|]| | | | |] [|]]]; try discriminate.
  keep H. assert (P : forall z, In x (vars z) -> In (idt x) (in_parens z)).
  { intros z Z. apply vars_toks in Z. assert (In (idt x) (TLp :: toks z ++ [TRp])) by (right; apply in_or_app; auto). destruct z as [[]| | | | | | | | | | | |]; assumption. }
  cbn [vars flat_map] in Hx. rewrite !app_nil_r in Hx. right. right. apply in_or_app. rewrite in_app_iff.
  inapp Hx; [left; left; apply P, Hx|]. inapp Hx; [left; right; right; apply P, Hx|]. right. right. apply vars_toks, Hx.
Qed.
Lemma numeric_leading_zero_keeps : forall fs e r, numeric_leading_zero fs e = Some r -> keeps [] r.
Proof.
  intros fs e r H. unfold numeric_leading_zero in H. destruct e as [[]| | | | | | | | | | | |]; try discriminate.
  destruct (_ && _); [|discriminate]. keep H. destruct Hx.
Qed.
Lemma is_numeric_keeps : forall fs e r, is_numeric fs e = Some r -> keeps [lit "is.integer"] r.
Proof.
  intros fs e r H. unfold is_numeric in H. destruct e as [| | |[] nl l y| | | | | | | | |]; try discriminate.
  destruct l as [| | | |f fargs| | | | | | | |]; try discriminate. destruct y as [| | | |g gargs| | | | | | | |]; try discriminate.
  destruct (_ || _) eqn:B; [|discriminate]. destruct (same_text _ _) eqn:T; [|discriminate]. apply same_text_eq in T. keep H.
  assert (R : forall n h, is_call_to n h = true -> h = EAtom (AId n)).
  { intros n h Hh. destruct h as [[]| | | | | | | | | | | |]; cbn [is_call_to] in Hh; try discriminate. apply teqb_eq in Hh. rewrite Hh. reflexivity. }
  assert (FG : (x = lit "is.integer" \/ x = lit "is.numeric") \/ In x (args_vars fargs) \/ In x (args_vars gargs)).
  { cbn [vars] in Hx. apply Bool.orb_prop in B as [B|B]; apply andb_prop in B as [B1 B2]; apply R in B1, B2; subst f g; cbn [vars] in Hx;
      inapp Hx; inapp Hx; auto; destruct Hx as [<-|[]]; auto. }
  destruct FG as [[-> | ->]|[FG|FG]].
  - exfalso. apply Hd. left; reflexivity.
  - apply in_call_name.
  - apply in_call, args_vars_toks, FG.
  - apply in_call. rewrite T. apply args_vars_toks, FG.
Qed.

(** *** Arguments found by name or place *)
Lemma chosen_index : forall args n k a, get_arg_by_name_then_position args n k = Some a -> exists i, arg_index args n k = Some i /\ nth_error args i = Some a.
Proof.
  intros args n k a H. unfold get_arg_by_name_then_position, get_arg_by_name, get_unnamed_arg_by_position, arg_index in *.
  pose proof (index_of_spec (has_name n) args 0) as A. destruct (index_of (has_name n) 0 args) as [j|] eqn:J.
  - destruct A as [_ E]. rewrite Nat.sub_0_r in E. destruct (index_found _ _ _ _ J) as [b Hb]. rewrite Hb in E, H. exists j. split; [reflexivity|]. congruence.
  - rewrite A in H. pose proof (index_unnamed_spec args (k - 1) 0) as B. destruct (index_unnamed (k - 1) 0 args) as [j|].
    + destruct B as [_ E]. rewrite Nat.sub_0_r in E. exists j. split; [reflexivity|]. congruence.
    + congruence.
Qed.
Lemma name_index : forall args n a k, get_arg_by_name args n = Some a -> get_arg_by_name_then_position args n k = Some a.
Proof. intros args n a k H. unfold get_arg_by_name_then_position. rewrite H. reflexivity. Qed.
Lemma in_args_vars : forall args x, In x (args_vars args) -> exists i nm v, nth_error args i = Some (nm, Some v) /\ In x (vars v).
Proof.
  intros args x H. apply in_flat_map in H as ([nm v] & H1 & H2). cbn [snd] in H2. destruct v as [v|]; [|destruct H2].
  apply In_nth_error in H1 as [i H1]. eauto.
Qed.
Lemma nth_lt : forall {A} (l : list A) i a, nth_error l i = Some a -> i < length l.
Proof. intros A l i a H. apply nth_error_Some. congruence. Qed.

Lemma redundant_ifelse_keeps : forall fs e r, redundant_ifelse fs e = Some r -> keeps [lit "ifelse"; lit "if_else"; lit "fifelse"] r.
Proof.
  intros fs e r H. unfold redundant_ifelse in H. destruct e as [| | | |f args| | | | | | | |]; try discriminate.
  destruct (ifelse_formals _) as [[[a b] d]|] eqn:F; [|discriminate]. destruct (length args =? 3) eqn:L; [|discriminate]. apply Nat.eqb_eq in L. cbn [negb] in H.
  destruct (get_arg_by_name_then_position args a 1) as [[n1 [x|]]|] eqn:E1; try discriminate.
  destruct (get_arg_by_name_then_position args b 2) as [[n2 [y|]]|] eqn:E2; try discriminate.
  destruct (get_arg_by_name_then_position args d 3) as [[n3 [z|]]|] eqn:E3; try discriminate.
  apply chosen_index in E1 as (i1 & I1 & E1), E2 as (i2 & I2 & E2), E3 as (i3 & I3 & E3).
  assert (Hf : mem (get_function_name f) [lit "ifelse"; lit "if_else"; lit "fifelse"] = true /\ a <> b /\ a <> d /\ b <> d).
  { unfold ifelse_formals in F. unfold mem. cbn [existsb].
    destruct (teqb _ (lit "ifelse")); [injection F as <- <- <-; repeat split; try discriminate; reflexivity|].
    destruct (teqb _ (lit "if_else")); [injection F as <- <- <-; repeat split; try discriminate; reflexivity|].
    destruct (teqb _ (lit "fifelse")); [injection F as <- <- <-; repeat split; try discriminate; reflexivity|discriminate]. }
  destruct Hf as (Hf & N1 & N2 & N3).
  assert (D12 : i1 <> i2) by (eapply index_apart; [exact N1| |exact I1|exact I2]; lia).
  assert (D13 : i1 <> i3) by (eapply index_apart; [exact N2| |exact I1|exact I3]; lia).
  assert (D23 : i2 <> i3) by (eapply index_apart; [exact N3| |exact I2|exact I3]; lia).
  assert (V : vars y = [] -> vars z = [] -> usual_extracts (toks (ECall f args)) -> forall w, In w (vars (ECall f args)) -> ~ In w [lit "ifelse"; lit "if_else"; lit "fifelse"] -> In w (vars x)).
  { intros Vy Vz U w W D. cbn [vars] in W. inapp W.
    - exfalso. apply D. eapply callee_in; [eapply usual_callee; exact U|exact Hf|reflexivity|exact W].
    - apply in_args_vars in W as (i & nm & v & I & W).
      pose proof (nth_lt _ _ _ E1). pose proof (nth_lt _ _ _ E2). pose proof (nth_lt _ _ _ E3). pose proof (nth_lt _ _ _ I).
      assert (O : i = i1 \/ i = i2 \/ i = i3) by (unfold arg in *; lia). destruct O as [-> | [-> | ->]].
      + rewrite E1 in I. injection I as <- <-. exact W.
      + rewrite E2 in I. injection I as <- <-. rewrite Vy in W. destruct W.
      + rewrite E3 in I. injection I as <- <-. rewrite Vz in W. destruct W. }
  destruct y as [[]| | | | | | | | | | | |]; try discriminate; destruct z as [[]| | | | | | | | | | | |]; try discriminate; unfold fixed_as in H; apply some_inj in H; rewrite H;
    first [apply keeps_none | apply keeps_here; intros U w W D; apply V, vars_toks in W; auto].
  right. right. apply in_or_app. auto.
Qed.
Lemma list2df_keeps : forall fs e r, list2df fs e = Some r -> keeps [lit "do.call"; lit "cbind.data.frame"] r.
Proof.
  intros fs e r H. unfold list2df in H. destruct e as [| | | |f args| | | | | | | |]; try discriminate.
  destruct (teqb _ _) eqn:F; [|discriminate].
  destruct (get_arg_by_name_then_position args (lit "what") 1) as [[n1 [x|]]|] eqn:E1; try discriminate.
  destruct (get_arg_by_name_then_position args (lit "args") 2) as [[n2 [y|]]|] eqn:E2; try discriminate.
  destruct (get_arg_by_position args 3) eqn:L; [discriminate|]. destruct (is_cbind_df x) eqn:C; [|discriminate].
  apply nth_error_None in L. cbn [Nat.sub] in L.
  apply chosen_index in E1 as (i1 & I1 & E1), E2 as (i2 & I2 & E2).
  assert (D12 : i1 <> i2) by (eapply (index_apart args (lit "what") (lit "args") 1 2); [discriminate|lia|exact I1|exact I2]).
  unfold fixed_as in H. apply some_inj in H. rewrite H. apply keeps_here. intros U w W D. apply in_call, vars_toks. cbn [vars] in W. inapp W.
  - exfalso. apply D. assert (In w [lit "do.call"]) as [<-|[]] by (eapply callee_in; [eapply usual_callee; exact U|apply mem1; exact F|reflexivity|exact W]). left; reflexivity.
  - apply in_args_vars in W as (i & nm & v & I & W).
    pose proof (nth_lt _ _ _ E1). pose proof (nth_lt _ _ _ E2). pose proof (nth_lt _ _ _ I).
    assert (O : i = i1 \/ i = i2) by (unfold arg in *; lia). destruct O as [-> | ->].
    + rewrite E1 in I. injection I as <- <-. exfalso. apply D. destruct x as [[]| | | | | | | | | | | |]; cbn [is_cbind_df vars] in *; try discriminate; try (destruct W; fail). destruct W as [<-|[]].
      apply teqb_eq in C. rewrite C. right; left; reflexivity.
    + rewrite E2 in I. injection I as <- <-. exact W.
Qed.
Lemma matrix_apply_keeps : forall fs e r, matrix_apply fs e = Some r -> keeps [lit "apply"; lit "mean"; lit "sum"] r.
Proof.
  intros fs e r H. unfold matrix_apply in H. destruct e as [| | | |f args| | | | | | | |]; try discriminate.
  destruct (teqb _ _) eqn:F; [|discriminate].
  destruct (_ <? _) eqn:L; [discriminate|]. apply Nat.ltb_ge in L.
  destruct (get_arg_by_name_then_position args (lit "X") 1) as [[n1 [x|]]|] eqn:E1; try discriminate.
  destruct (get_arg_by_name_then_position args (lit "FUN") 3) as [[n2 [g|]]|] eqn:E2; try discriminate.
  destruct (get_arg_by_name_then_position args (lit "MARGIN") 2) as [[n3 [m|]]|] eqn:E3; try discriminate.
  set (more := match get_arg_by_name args (lit "na.rm") with Some a => TComma :: arg_toks a | None => [] end) in *.
  apply chosen_index in E1 as (i1 & I1 & E1), E2 as (i2 & I2 & E2), E3 as (i3 & I3 & E3).
  assert (D12 : i1 <> i2) by (eapply (index_apart args (lit "X") (lit "FUN") 1 3); [discriminate|lia|exact I1|exact I2]).
  assert (D13 : i1 <> i3) by (eapply (index_apart args (lit "X") (lit "MARGIN") 1 2); [discriminate|lia|exact I1|exact I3]).
  assert (D23 : i2 <> i3) by (eapply (index_apart args (lit "FUN") (lit "MARGIN") 3 2); [discriminate|lia|exact I2|exact I3]).
  assert (V : (is_id (lit "mean") g = true \/ is_id (lit "sum") g = true) -> (exists l, lit_in l m = true) -> usual_extracts (toks (ECall f args)) ->
     forall w, In w (vars (ECall f args)) -> ~ In w [lit "apply"; lit "mean"; lit "sum"] -> In (idt w) (toks x ++ more)).
  { intros G [lm M] U w W D. cbn [vars] in W. inapp W.
    - exfalso. apply D. assert (In w [lit "apply"]) as [<-|[]] by (eapply callee_in; [eapply usual_callee; exact U|apply mem1; exact F|reflexivity|exact W]). left; reflexivity.
    - apply in_args_vars in W as (i & nm & v & I & W).
      pose proof (nth_lt _ _ _ E1). pose proof (nth_lt _ _ _ E2). pose proof (nth_lt _ _ _ E3). pose proof (nth_lt _ _ _ I).
      apply in_or_app.
      assert (O : (i = i1 \/ i = i2 \/ i = i3) \/ exists a, get_arg_by_name args (lit "na.rm") = Some a /\ nth_error args i = Some a).
      { destruct (get_arg_by_name args (lit "na.rm")) as [a|] eqn:E4; [|left; unfold arg in *; lia].
        pose proof (name_index _ _ _ 9 E4) as Q. apply chosen_index in Q as (i4 & I4 & Q). pose proof (nth_lt _ _ _ Q).
        assert (i1 <> i4) by (eapply (index_apart args (lit "X") (lit "na.rm") 1 9); [discriminate|lia|exact I1|exact I4]).
        assert (i2 <> i4) by (eapply (index_apart args (lit "FUN") (lit "na.rm") 3 9); [discriminate|lia|exact I2|exact I4]).
        assert (i3 <> i4) by (eapply (index_apart args (lit "MARGIN") (lit "na.rm") 2 9); [discriminate|lia|exact I3|exact I4]).
        assert (i = i1 \/ i = i2 \/ i = i3 \/ i = i4) as [ ?|[ ?|[ ?| ?]]] by (unfold arg in *; lia); auto. right. exists a. split; [reflexivity|]. subst i4. exact Q. }
      destruct O as [[-> | [-> | ->]]|(a & A1 & A2)].
      + rewrite E1 in I. injection I as <- <-. left. apply vars_toks, W.
      + rewrite E2 in I. injection I as <- <-. exfalso. apply D.
        destruct G as [G|G]; (destruct g as [[]| | | | | | | | | | | |]; cbn [is_id vars] in *; try discriminate; destruct W as [<-|[]]; apply teqb_eq in G; rewrite G; cbn; auto).
      + rewrite E3 in I. injection I as <- <-. exfalso. destruct m as [[]| | | | | | | | | | | |]; cbn [lit_in vars] in *; try discriminate. destruct W.
      + right. subst more. rewrite A1. right. pose proof (eq_trans (eq_sym I) A2) as A3. apply some_inj in A3. rewrite A3. unfold arg_toks. apply in_or_app. right. apply vars_toks, W. }
  destruct (is_id (lit "mean") g).
  - destruct (lit_in _ m) eqn:M1; [|destruct (lit_in [lit "2"; lit "2L"] m) eqn:M2; [|discriminate]]; unfold fixed_as in H; apply some_inj in H; rewrite H; apply keeps_here; intros U w W D;
      apply in_call, V; eauto.
  - destruct (is_id (lit "sum") g); [|discriminate].
    destruct (lit_in _ m) eqn:M1; [|destruct (lit_in [lit "2"; lit "2L"] m) eqn:M2; [|discriminate]]; unfold fixed_as in H; apply some_inj in H; rewrite H; apply keeps_here; intros U w W D;
      apply in_call, V; eauto.
Qed.
Lemma expect_not_keeps : forall fs e r, expect_not fs e = Some r -> keeps [lit "expect_true"; lit "expect_false"] r.
Proof.
  intros fs e r H. unfold expect_not in H. destruct e as [| | | |f args| | | | | | | |]; try discriminate. cbv zeta in H.
  destruct (mem _ _) eqn:F; [|discriminate]. destruct (get_arg_by_name_then_position args (lit "object") 1) as [[nm v]|] eqn:E; [|discriminate].
  destruct (_ <? _) eqn:L; [discriminate|]. apply Nat.ltb_ge in L. apply chosen_index in E as (i1 & _ & E).
  destruct v as [[| |[] y| | | | | | | | | |]|]; try discriminate.
  assert (H' : fixed_as fs (ECall f args) (expect_text f (if teqb (get_function_name f) (lit "expect_true") then lit "expect_false" else lit "expect_true")
     (match y with EParen y => toks y | _ => toks y end)) = Some r) by (destruct y as [| |[] y| | | | | | | | | |]; try discriminate; exact H).
  keep H'. cbn [vars] in Hx. inapp Hx.
  - exfalso. apply Hd. eapply callee_in; [eapply usual_callee; exact U|exact F|reflexivity|exact Hx].
  - apply in_args_vars in Hx as (i & nm' & v & I & W). pose proof (nth_lt _ _ _ E). pose proof (nth_lt _ _ _ I). assert (i = i1) as -> by (unfold arg in *; lia).
    rewrite E in I. injection I as <- <-. apply in_expect. cbn [vars] in W. destruct y; apply vars_toks; exact W.
Qed.
Lemma drop_keeps : forall args i j k m a, nth_error args m = Some a -> m + k <> i -> m + k <> j -> In a (drop_indices i j k args).
Proof.
  intros args. induction args as [|b l IH]; intros i j k [|m] a H I J; cbn [nth_error drop_indices] in *; try discriminate.
  - injection H as ->. apply in_or_app. left. replace (k =? i) with false by (symmetry; apply Nat.eqb_neq; lia). replace (k =? j) with false by (symmetry; apply Nat.eqb_neq; lia). left. reflexivity.
  - apply in_or_app. right. apply (IH i j (S k) m a H); lia.
Qed.
Lemma expect_grepl_keeps : forall outer new fs e r, no_extract outer = true -> outer <> [] -> expect_grepl outer new fs e = Some r -> keeps [outer; lit "grepl"] r.
Proof.
  intros outer new fs e r X1 X2 H. unfold expect_grepl in H. destruct e as [| | | |f args| | | | | | | |]; try discriminate.
  destruct (teqb (get_function_name f) outer) eqn:F; [|discriminate]. cbn [negb] in H.
  assert (O : match arg_value (get_arg_by_name_then_position args (lit "object") 1) with
            | Some (ECall g gargs) =>
                if teqb (get_function_name g) (lit "grepl") then
                  match arg_index gargs (lit "pattern") 1, arg_index gargs (lit "x") 2 with
                  | Some i, Some j =>
                      match arg_value (nth_error gargs j), arg_value (nth_error gargs i) with
                      | Some x, Some pat =>
                          let rest := drop_indices i j 0 gargs in
                          if 1 <? length args then reported fs (ECall f args)
                          else if existsb is_unnamed rest then reported fs (ECall f args)
                          else fixed_as fs (ECall f args) (expect_text f new
                                 (sep [TComma] (toks x :: toks pat :: map arg_toks rest)))
                      | _, _ => None
                      end
                  | _, _ => None
                  end
                else None
            | _ => None
            end = Some r -> keeps [outer; lit "grepl"] r).
  { clear H. intros H. destruct (get_arg_by_name_then_position args (lit "object") 1) as [[nm v]|] eqn:E; cbn [arg_value] in H; [|discriminate].
    destruct v as [[| | | |g gargs| | | | | | | |]|]; try discriminate. apply chosen_index in E as (i0 & _ & E).
    destruct (teqb (get_function_name g) (lit "grepl")) eqn:G; [|discriminate].
    destruct (arg_index gargs (lit "pattern") 1) as [i|] eqn:I; [|discriminate]. destruct (arg_index gargs (lit "x") 2) as [j|] eqn:J; [|discriminate].
    destruct (nth_error gargs j) as [[n1 v1]|] eqn:E1; cbn [arg_value] in H; [|discriminate]. destruct v1 as [x|]; [|discriminate].
    destruct (nth_error gargs i) as [[n2 v2]|] eqn:E2; cbn [arg_value] in H; [|discriminate]. destruct v2 as [pat|]; [|discriminate]. cbv zeta in H.
    destruct (1 <? _) eqn:L; [unfold reported in H; apply some_inj in H; rewrite H; apply keeps_none|]. apply Nat.ltb_ge in L.
    destruct (existsb _ _); [unfold reported in H; apply some_inj in H; rewrite H; apply keeps_none|].
    unfold fixed_as in H; apply some_inj in H; rewrite H; apply keeps_here; intros U w W D.
    cbn [vars] in W. inapp W.
    - exfalso. apply D. left. symmetry. apply (callee_vars f outer); auto; [eapply usual_callee; exact U|apply teqb_eq; exact F].
    - apply in_args_vars in W as (i' & nm' & v & I' & W). pose proof (nth_lt _ _ _ E). pose proof (nth_lt _ _ _ I'). assert (i' = i0) as -> by (unfold arg in *; lia).
      rewrite E in I'. injection I' as <- <-. cbn [vars] in W. inapp W.
      + exfalso. apply D. right. left. symmetry. apply (callee_vars g (lit "grepl")); auto; try discriminate; [|apply teqb_eq; exact G].
        apply nth_error_In in E. eapply usual_callee, usual_arg; [exact U|exact E].
      + apply in_expect. apply in_args_vars in W as (k & nm' & v & K & W). apply vars_toks in W.
        destruct (Nat.eq_dec k i) as [->|Ni]; [|destruct (Nat.eq_dec k j) as [->|Nj]].
        * pose proof (eq_trans (eq_sym E2) K) as Q. injection Q as <- <-. apply in_sep. cbn [concat]. apply in_or_app. right. apply in_or_app. left. exact W.
        * pose proof (eq_trans (eq_sym E1) K) as Q. injection Q as <- <-. apply in_sep. cbn [concat]. apply in_or_app. left. exact W.
        * apply in_sep. cbn [concat]. apply in_or_app. right. apply in_or_app. right. apply in_concat. exists (arg_toks (nm', Some v)). split.
          -- apply in_map. apply (drop_keeps gargs i j 0 k); auto; lia.
          -- unfold arg_toks. apply in_or_app. right. exact W. }
  destruct (get_nested_functions_content fs (ECall f args) outer (lit "grepl")) as [[c [fs' e']]|] eqn:G; [|exact (O H)].
  destruct e'; try exact (O H).
  assert (Q : Some (mk_report fs' (EBin o nl e'1 e'2) None) = Some r) by (destruct fs' as [|[|[]| | | | | | | | | | | | | | | | | |] fs']; try discriminate; exact H).
  apply some_inj in Q. rewrite Q. apply keeps_none.
Qed.
Lemma fixed_regex_keeps : forall fs f args r, fixed_regex fs (ECall f args) = Some r -> (forall v, ~ In (Some (lit "fixed"), v) args) -> length args <= 4 -> keeps [] r.
Proof.
  intros fs f args r H N L. unfold fixed_regex in H.
  destruct (fixed_position (get_function_name f)) as [pos|] eqn:P; [|discriminate].
  destruct (is_true _); [discriminate|]. destruct (is_true _); [discriminate|].
  destruct (arg_value (get_arg_by_name_then_position args (lit "pattern") 1)) as [[[]| | | | | | | | | | | |]|]; try discriminate. destruct (is_fixed_pattern _); [|discriminate].
  assert (P5 : 5 <= pos /\ exists n, mem (get_function_name f) [lit "grep"; lit "gsub"; lit "sub"; lit "regexpr"; lit "gregexpr"; lit "regexec"; lit "grepl"] = n /\ n = true).
  { unfold fixed_position, mem in *. destruct (existsb (teqb (get_function_name f)) [lit "grep"; lit "gsub"; lit "sub"]) eqn:B.
    - injection P as <-. split; [lia|]. exists true. split; [|reflexivity]. rewrite existsb_exists in *. destruct B as (g & G & T). exists g. split; [cbn in G |- *; tauto|exact T].
    - destruct (existsb (teqb (get_function_name f)) [lit "regexpr"; lit "gregexpr"; lit "regexec"; lit "grepl"]) eqn:B2; [|discriminate P].
      injection P as <-. split; [lia|]. exists true. split; [|reflexivity]. rewrite existsb_exists in *. destruct B2 as (g & G & T). exists g. split; [cbn in G |- *; tauto|exact T]. }
  destruct P5 as (P5 & n & P6 & ->).
  assert (G : get_arg_by_name_then_position args (lit "fixed") pos = None).
  { unfold get_arg_by_name_then_position. destruct (get_arg_by_name args (lit "fixed")) as [[nm v]|] eqn:E.
    - apply by_name in E as [E1 E2]. cbn [fst] in E2. subst nm. destruct (N v E1).
    - unfold get_unnamed_arg_by_position, get_unnamed_args. apply nth_error_None. 
      assert (length (filter (fun a : arg => match fst a with None => true | Some _ => false end) args) <= length args); [|unfold arg in *; lia].
      clear. induction args as [|a l IH]; cbn [filter length]; [lia|]. destruct (fst a); cbn [length]; lia. }
  rewrite G in H. cbn [arg_value is_false] in H. unfold fixed_as in H. apply some_inj in H. rewrite H. apply keeps_here. intros U w W D.
  cbn [vars] in W. inapp W.
  - assert (w = get_function_name f) as ->.
    { apply (callee_vars f); auto; [eapply usual_callee; exact U| |];
        (unfold mem in P6; apply existsb_exists in P6 as (g & Q & T); apply teqb_eq in T; rewrite T; clear T;
         cbn [In] in Q; decompose [or] Q; try contradiction; subst g; [discriminate || reflexivity ..]). }
    apply in_call_name.
  - apply in_call. apply in_or_app. left. apply args_vars_toks, W.
Qed.
