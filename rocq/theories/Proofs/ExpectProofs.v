(** C101: the fixes of the testthat rules keep the verdict of the expectation. *)
From Verif Require Import Model.MoreLints Spec.RGrammar Spec.RWellFormed Spec.RPosition Spec.RSemantics Spec.RFix Spec.RFunctions Spec.RExpect.
From Verif Require Import Proofs.TextProofs Proofs.RParse Proofs.RParseSound Proofs.RContext Proofs.RCongruence Proofs.RAlike Proofs.LintSyntax Proofs.LintFixes Proofs.LintUnits Proofs.FunctionProofs.
From Verif Require Import Proofs.LintNested.

(** The same function with another name. *)
Definition renamed (f : expr) (n : text) : expr :=
  match f with EAtom (ANs p _ _) => EAtom (ANs p false n) | _ => EAtom (AId n) end.
Lemma renamed_expectation : forall f n m, expectation f n -> expectation (renamed f m) m.
Proof. intros f n m [->|(i & ->)]; [left|right; exists false]; reflexivity. Qed.
Lemma expectation_name : forall f n, expectation f n -> get_function_name f = n.
Proof. intros f n [->|(i & ->)]; reflexivity. Qed.
Lemma renamed_toks : forall f n args, expect_text f n (args_toks args) = toks (ECall (renamed f n) args).
Proof. intros f n args. destruct f as [[]| | | | | | | | | | | |]; reflexivity. Qed.
Lemma renamed_wf : forall i f n args, args <> [(None, None)] -> Forall (fun a : arg => owf (snd a)) args ->
  wf i (ECall (renamed f n) args).
Proof.
  intros i f n args H1 H2. cbn [wf]. assert (wf i (renamed f n)) by (destruct f as [[]| | | | | | | | | | | |]; exact Logic.I).
  assert (primary (renamed f n) = true) by (destruct f as [[]| | | | | | | | | | | |]; reflexivity).
  repeat split; auto. apply wf_args_Forall. exact H2.
Qed.
Lemma eval_expectation : forall I n f args, open_name n -> home n = lit "base" -> expectation f n ->
  eval I (ECall f args) = i_call I (eval I f)
    (map (fun a : arg => (fst a, match snd a with Some v => Some (eval I v) | None => None end)) args).
Proof.
  intros I n f args O Hn [->|(i & ->)].
  - apply (eval_open I n); [exact O|reflexivity].
  - cbn [eval fname]. rewrite Hn. change (teqb (lit "testthat") (lit "base")) with false. reflexivity.
Qed.
Lemma judge1 : forall I tell n g f x s, open_name n -> home n = lit "base" -> expectation f n -> judges1 I tell n g ->
  match eval I x s with
  | None => eval I (ECall f [(None, Some x)]) s = None
  | Some (v, s1) => forall b, g v = Some b -> eval I (ECall f [(None, Some x)]) s = tell b s1
  end.
Proof. intros I tell n g f x s O Hn Hf H. rewrite (eval_expectation I n f _ O Hn Hf). exact (H f (eval I x) s Hf). Qed.
Lemma judge2 : forall I tell n g f x y s, open_name n -> home n = lit "base" -> expectation f n -> judges2 I tell n g ->
  match eval I x s with
  | None => eval I (ECall f [(None, Some x); (None, Some y)]) s = None
  | Some (v, s1) =>
      match eval I y s1 with
      | None => eval I (ECall f [(None, Some x); (None, Some y)]) s = None
      | Some (w, s2) => forall b, g v w = Some b -> eval I (ECall f [(None, Some x); (None, Some y)]) s = tell b s2
      end
  end.
Proof. intros I tell n g f x y s O Hn Hf H. rewrite (eval_expectation I n f _ O Hn Hf). exact (H f (eval I x) (eval I y) s Hf). Qed.

(** A constant. *)
Lemma constant_eval : forall I y, constant y = true -> exists v, forall s, eval I y s = Some (v, s).
Proof.
  intros I y H. destruct y as [[]| | | | | | | | | | | |]; try discriminate; eexists; intro s; reflexivity.
Qed.
(** Both verdicts are equal. *)
Lemma same_none : forall {A} (a b : option A), a = None -> b = None -> a = b.
Proof. congruence. Qed.

Lemma equality_name : forall f, equality_of f -> is_expect_equal f = true.
Proof. intros f [H|H]; unfold is_expect_equal; rewrite (expectation_name _ _ H); reflexivity. Qed.
Lemma object_expected_two : forall a b, object_expected [(None, Some a); (None, Some b)] = Some (a, b).
Proof. reflexivity. Qed.

Lemma equal_null : forall I near v b, v = VNull \/ b = VNull ->
  equal I near v b = Some (match v, b with VNull, VNull => true | _, _ => false end) /\
  identical I v b = Some (match v, b with VNull, VNull => true | _, _ => false end).
Proof. intros I near v b [ -> | -> ]; [destruct b|destruct v]; split; reflexivity. Qed.
Lemma same_list_teqb : forall l r, same_list teqb l r = true <-> l = r.
Proof.
  induction l as [|x l IH]; intros [|y r]; cbn [same_list]; split; intro H; try discriminate; try reflexivity.
  - apply andb_prop in H. destruct H as [H1 H2]. apply IH in H2. subst r. f_equal.
    destruct x, y; cbn [oeqb] in H1; try discriminate; auto. apply teqb_eq in H1. congruence.
  - injection H as <- <-. rewrite (proj2 (IH l) eq_refl). destruct x; cbn [oeqb]; [rewrite teqb_refl|]; reflexivity.
Qed.
Lemma teqb_sym : forall a b, teqb a b = teqb b a.
Proof. intros a b. apply Bool.eq_iff_eq_true. rewrite !teqb_eq. split; congruence. Qed.
Lemma same_list_sym : forall l r, same_list teqb l r = same_list teqb r l.
Proof.
  intros l r. apply Bool.eq_iff_eq_true. rewrite !same_list_teqb. split; congruence.
Qed.

(** The verdict of an equality when both are not numbers, or both are strings. *)
Section Equal.
Variable I : interp.
Variable tell : bool -> comp I.
Hypothesis K : knows_equal I tell.
Lemma equality_judge : forall f a b s, equality_of f ->
  match eval I a s with
  | None => eval I (ECall f [(None, Some a); (None, Some b)]) s = None
  | Some (v, s1) =>
      match eval I b s1 with
      | None => eval I (ECall f [(None, Some a); (None, Some b)]) s = None
      | Some (w, s2) => forall x, identical I v w = Some x -> eval I (ECall f [(None, Some a); (None, Some b)]) s = tell x s2
      end
  end.
Proof.
  intros f a b s Hf. destruct K as (near & _ & K1 & K2).
  assert (O1 : open_name (lit "expect_equal")) by is_open. assert (O2 : open_name (lit "expect_identical")) by is_open.
  assert (E : forall v w x, identical I v w = Some x -> equal I near v w = Some x).
  { intros v w x H. destruct v, w; cbn [identical equal] in *; auto; discriminate. }
  destruct Hf as [Hf|Hf].
  - pose proof (judge2 I tell _ _ f a b s O1 eq_refl Hf K1) as Q.
    destruct (eval I a s) as [[v s1]|]; [|exact Q]. destruct (eval I b s1) as [[w s2]|]; [|exact Q].
    intros x Hx. apply Q. apply E. exact Hx.
  - exact (judge2 I tell _ _ f a b s O2 eq_refl Hf K2).
Qed.
End Equal.

(** The result of a fix: another expectation in place of the call. *)
Lemma expect_harmless : forall (P : interp -> Prop) p f args f' n args' r,
  node_of_file p (ECall f args) -> renamed f n = f' ->
  fixed_as (frames p) (ECall f args) (expect_text f n (args_toks args')) = Some r ->
  args' <> [(None, None)] -> Forall (fun a : arg => owf (snd a)) args' ->
  assigned (frames p) = false -> pipe_target (frames p) = false ->
  (forall I, P I -> ceq (eval I (ECall f args)) (eval I (ECall f' args'))) ->
  fix_harmless P p (ECall f args) r.
Proof.
  intros P p f args f' n args' r H Hf Hr A1 A2 HA HP C. subst f'. rewrite renamed_toks in Hr. apply some_eq in Hr.
  apply call_harmless with (e' := ECall (renamed f n) args'); auto.
  apply fits_primary; [reflexivity|]. apply renamed_wf; auto.
Qed.
Lemma args_toks1 : forall x, args_toks [(None, Some x)] = toks x.
Proof. intro x. unfold args_toks. cbn. try rewrite app_nil_r. reflexivity. Qed.
Lemma args_toks2 : forall x y, args_toks [(None, Some x); (None, Some y)] = toks x ++ TComma :: toks y.
Proof. intros x y. unfold args_toks. cbn. try rewrite app_nil_r. reflexivity. Qed.

Lemma arg_owf : forall i f args a, wf i (ECall f args) -> In (None, Some a) args -> owf (Some a).
Proof.
  intros i f args a W H. destruct (call_args _ _ _ W) as [_ A]. rewrite Forall_forall in A. exact (A _ H).
Qed.
Ltac args_ok := repeat (apply Forall_cons; [cbn [snd]; assumption|]); apply Forall_nil.

(** *** expect_null *)
Lemma expect_null_harmless : forall p f args r x,
  node_of_file p (ECall f args) -> expect_null (frames p) (ECall f args) = Some r ->
  (equality_of f /\ compared x (EAtom ANull) args \/
   expectation f (lit "expect_true") /\ exists g, args = [(None, Some (ECall g [(None, Some x)]))] /\ fname g = Some (lit "is.null")) ->
  assigned (frames p) = false -> pipe_target (frames p) = false ->
  fix_harmless (fun I => exists tell, knows_equal I tell /\ knows_constants I tell) p (ECall f args) r.
Proof.
  intros p f args r x H Hr Hc HA HP. pose proof (node_wf _ _ H) as W.
  assert (X : owf (Some x) /\ fixed_as (frames p) (ECall f args) (expect_text f (lit "expect_null") (args_toks [(None, Some x)])) = Some r).
  { rewrite args_toks1. unfold expect_null in Hr. destruct Hc as [[Hf Hc]|[Hf (g & -> & Hg)]].
    - rewrite (equality_name f Hf) in Hr. destruct Hc as [->|[_ ->]]; rewrite object_expected_two in Hr.
      + split; [eapply arg_owf; [exact W|left; reflexivity]|].
        destruct x as [[]| | | | | | | | | | | |]; exact Hr.
      + split; [eapply arg_owf; [exact W|right; left; reflexivity]|].
        destruct x as [[]| | | | | | | | | | | |]; exact Hr.
    - assert (N : is_expect_equal f = false) by (unfold is_expect_equal; rewrite (expectation_name _ _ Hf); reflexivity).
      rewrite N in Hr. rewrite (expectation_name _ _ Hf) in Hr.
      change (teqb (lit "expect_true") (lit "expect_true")) with true in Hr. cbv iota in Hr.
      change (arg_value (get_arg_by_name_then_position [(None, Some (ECall g [(None, Some x)]))] (lit "object") 1))
        with (Some (ECall g [(None, Some x)])) in Hr. cbv iota in Hr.
      assert (G : is_call_named (lit "is.null") (ECall g [(None, Some x)]) = true).
      { cbn [is_call_named]. rewrite (fname_name _ _ Hg). reflexivity. }
      rewrite G in Hr. split; [|exact Hr].
      assert (Wg : owf (Some (ECall g [(None, Some x)]))) by (eapply arg_owf; [exact W|left; reflexivity]).
      eapply arg_owf; [exact (proj1 Wg)|left; reflexivity]. }
  destruct X as [X1 X2].
  eapply expect_harmless; [exact H|reflexivity|exact X2|discriminate|args_ok|exact HA|exact HP|].
  intros I (tell & K1 & K2 & K3 & K4) s.
  assert (O1 : open_name (lit "expect_null")) by is_open. assert (O2 : open_name (lit "expect_true")) by is_open.
  assert (Hf' : expectation (renamed f (lit "expect_null")) (lit "expect_null")).
  { destruct Hc as [[[Hf|Hf] _]|[Hf _]]; eapply renamed_expectation; exact Hf. }
  pose proof (judge1 I tell _ _ _ x s O1 eq_refl Hf' K2) as Q.
  destruct Hc as [[Hf Hc]|[Hf (g & -> & Hg)]].
  - destruct Hc as [->|[_ ->]].
    + pose proof (equality_judge I tell K1 f x (EAtom ANull) s Hf) as Q1.
      destruct (eval I x s) as [[v s1]|]; [|exact (eq_trans Q1 (eq_sym Q))].
      change (eval I (EAtom ANull) s1) with (Some (@VNull (num I) (other I), s1)) in Q1. cbv iota in Q1.
      pose proof (proj2 (equal_null I (fun _ _ => true) v VNull (or_intror eq_refl))) as V.
      refine (eq_trans (Q1 _ V) (eq_sym (Q _ _))). destruct v; reflexivity.
    + pose proof (equality_judge I tell K1 f (EAtom ANull) x s Hf) as Q1.
      change (eval I (EAtom ANull) s) with (Some (@VNull (num I) (other I), s)) in Q1. cbv iota in Q1.
      destruct (eval I x s) as [[v s1]|]; [|exact (eq_trans Q1 (eq_sym Q))].
      pose proof (proj2 (equal_null I (fun _ _ => true) VNull v (or_introl eq_refl))) as V.
      refine (eq_trans (Q1 _ V) (eq_sym (Q _ _))). destruct v; reflexivity.
  - pose proof (judge1 I tell _ _ f (ECall g [(None, Some x)]) s O2 eq_refl Hf K3) as Q1.
    assert (E : eval I (ECall g [(None, Some x)]) s =
                match eval I x s with None => None | Some (v, s1) => Some (lgls I [match v with VNull => true | _ => false end], s1) end).
    { cbn [eval map fst snd]. rewrite Hg. reflexivity. }
    rewrite E in Q1. destruct (eval I x s) as [[v s1]|]; [|exact (eq_trans Q1 (eq_sym Q))].
    refine (eq_trans (Q1 (match v with VNull => true | _ => false end) _) (eq_sym (Q _ eq_refl))). destruct v; reflexivity.
Qed.

(** *** expect_true_false *)
Lemma expect_true_false_harmless : forall p f args r x b,
  node_of_file p (ECall f args) -> expect_true_false (frames p) (ECall f args) = Some r ->
  equality_of f -> compared x (EAtom (if b : bool then ATrue else AFalse)) args -> constant x = false ->
  assigned (frames p) = false -> pipe_target (frames p) = false ->
  fix_harmless (fun I => exists tell, knows_equal I tell /\ knows_constants I tell /\ yields I x plain) p (ECall f args) r.
Proof.
  intros p f args r x b H Hr Hf Hc Hx HA HP. pose proof (node_wf _ _ H) as W.
  set (n := if b then lit "expect_true" else lit "expect_false").
  assert (X : owf (Some x) /\ fixed_as (frames p) (ECall f args) (expect_text f n (args_toks [(None, Some x)])) = Some r).
  { rewrite args_toks1. unfold expect_true_false in Hr. rewrite (equality_name f Hf) in Hr. cbv zeta in Hr.
    destruct Hc as [->|[_ ->]]; rewrite object_expected_two in Hr.
    - split; [eapply arg_owf; [exact W|left; reflexivity]|].
      destruct b; destruct x as [[]| | | | | | | | | | | |]; try discriminate Hx; exact Hr.
    - split; [eapply arg_owf; [exact W|right; left; reflexivity]|]. destruct b; exact Hr. }
  destruct X as [X1 X2].
  eapply expect_harmless; [exact H|reflexivity|exact X2|discriminate|args_ok|exact HA|exact HP|].
  intros I (tell & K1 & (K2 & K3 & K4) & HY) s.
  assert (O1 : open_name (lit "expect_false")) by is_open. assert (O2 : open_name (lit "expect_true")) by is_open.
  assert (Hf' : expectation (renamed f n) n) by (destruct Hf as [Hf|Hf]; eapply renamed_expectation; exact Hf).
  assert (Q : match eval I x s with
              | None => eval I (ECall (renamed f n) [(None, Some x)]) s = None
              | Some (v, s1) => forall c, match v with VOther _ => None | VLgl [Some d] => Some (Bool.eqb b d) | _ => Some false end = Some c ->
                  eval I (ECall (renamed f n) [(None, Some x)]) s = tell c s1
              end).
  { destruct b.
    - pose proof (judge1 I tell _ _ _ x s O2 eq_refl Hf' K3) as Q.
      destruct (eval I x s) as [[v s1]|]; [|exact Q]. intros c Hv. apply Q. rewrite <- Hv. destruct v as [[|[[]|] []]| | | |]; reflexivity.
    - pose proof (judge1 I tell _ _ _ x s O1 eq_refl Hf' K4) as Q.
      destruct (eval I x s) as [[v s1]|]; [|exact Q]. intros c Hv. apply Q. rewrite <- Hv. destruct v as [[|[[]|] []]| | | |]; reflexivity. }
  assert (B : forall s, eval I (EAtom (if b then ATrue else AFalse)) s = Some (VLgl [Some b], s)) by (intro; destruct b; reflexivity).
  destruct Hc as [->|[_ ->]].
  - pose proof (equality_judge I tell K1 f x (EAtom (if b then ATrue else AFalse)) s Hf) as Q1.
    destruct (eval I x s) as [[v s1]|] eqn:E; [|exact (eq_trans Q1 (eq_sym Q))]. rewrite B in Q1.
    pose proof (HY _ _ _ E) as PL.
    refine (eq_trans (Q1 _ _) (eq_sym (Q (match v with VLgl [Some d] => Bool.eqb b d | _ => false end) _))).
    + destruct v as [[|[d|] [|? ?]]| | | |]; try destruct PL; try reflexivity; cbn; f_equal; destruct b; try destruct d; try reflexivity; cbn; rewrite ?Bool.andb_false_r; reflexivity.
    + destruct v as [[|[d|] [|? ?]]| | | |]; try destruct PL; try reflexivity.
  - pose proof (equality_judge I tell K1 f (EAtom (if b then ATrue else AFalse)) x s Hf) as Q1.
    rewrite B in Q1.
    destruct (eval I x s) as [[v s1]|] eqn:E; [|exact (eq_trans Q1 (eq_sym Q))].
    pose proof (HY _ _ _ E) as PL.
    refine (eq_trans (Q1 _ _) (eq_sym (Q (match v with VLgl [Some d] => Bool.eqb b d | _ => false end) _))).
    + destruct v as [[|[d|] [|? ?]]| | | |]; try destruct PL; try reflexivity; cbn; f_equal; destruct b; try destruct d; try reflexivity; cbn; rewrite ?Bool.andb_false_r; reflexivity.
    + destruct v as [[|[d|] [|? ?]]| | | |]; try destruct PL; try reflexivity.
Qed.

(** A call of one argument compared with something. *)
Lemma compared_owf : forall i f args g x y, wf i (ECall f args) -> compared (ECall g [(None, Some x)]) y args ->
  owf (Some x) /\ owf (Some y).
Proof.
  intros i f args g x y W Hc.
  assert (A : owf (Some (ECall g [(None, Some x)])) /\ owf (Some y)).
  { destruct Hc as [->|[_ ->]]; split; eapply arg_owf; try exact W; cbn [In]; auto. }
  destruct A as [A B]. split; [|exact B]. eapply arg_owf; [exact (proj1 A)|left; reflexivity].
Qed.
Lemma constant_no_call : forall n y, constant y = true -> is_call_named n y = false.
Proof. intros n y H. destruct y as [[]| | | | | | | | | | | |]; try discriminate; reflexivity. Qed.
Lemma call_named : forall n g x, fname g = Some n -> is_call_named n (ECall g [(None, Some x)]) = true.
Proof. intros n g x H. cbn [is_call_named]. rewrite (fname_name _ _ H). apply teqb_refl. Qed.

(** What a call and the thing it is compared with compute, in either order. *)
Lemma compared_judge : forall I tell m h g f x y args s,
  open_name m -> home m = lit "base" -> expectation f m -> fname g <> None ->
  forall G, judges2 I tell m G ->
  (forall s, match eval I x s with None => eval I (ECall g [(None, Some x)]) s = None
             | Some (v, s1) => eval I (ECall g [(None, Some x)]) s = Some (h v, s1) end) ->
  compared (ECall g [(None, Some x)]) y args ->
  match eval I x s with
  | None => eval I (ECall f args) s = None
  | Some (v, s1) =>
      match eval I y s1 with
      | None => eval I (ECall f args) s = None
      | Some (w, s2) => forall b, G (h v) w = Some b -> G w (h v) = Some b -> eval I (ECall f args) s = tell b s2
      end
  end.
Proof.
  intros I tell m h g f x y args s O Hm Hf Hg G K E Hc. specialize (E s). destruct Hc as [->|[C ->]].
  - pose proof (judge2 I tell m G f (ECall g [(None, Some x)]) y s O Hm Hf K) as Q.
    destruct (eval I x s) as [[v s1]|].
    + rewrite E in Q. destruct (eval I y s1) as [[w s2]|]; [|exact Q]. intros b H1 _. exact (Q b H1).
    + rewrite E in Q. exact Q.
  - destruct (constant_eval I y C) as [w Hw].
    pose proof (judge2 I tell m G f y (ECall g [(None, Some x)]) s O Hm Hf K) as Q. rewrite Hw in Q.
    destruct (eval I x s) as [[v s1]|].
    + rewrite E in Q. rewrite Hw. intros b _ H2. exact (Q b H2).
    + rewrite E in Q. exact Q.
Qed.
(** The same for either expectation of equality, on values that are not numbers. *)
Lemma compared_equality : forall I tell h g f x y args s,
  knows_equal I tell -> equality_of f -> fname g <> None ->
  (forall s, match eval I x s with None => eval I (ECall g [(None, Some x)]) s = None
             | Some (v, s1) => eval I (ECall g [(None, Some x)]) s = Some (h v, s1) end) ->
  compared (ECall g [(None, Some x)]) y args ->
  match eval I x s with
  | None => eval I (ECall f args) s = None
  | Some (v, s1) =>
      match eval I y s1 with
      | None => eval I (ECall f args) s = None
      | Some (w, s2) => forall b, identical I (h v) w = Some b -> identical I w (h v) = Some b -> eval I (ECall f args) s = tell b s2
      end
  end.
Proof.
  intros I tell h g f x y args s K Hf Hg E Hc. specialize (E s). destruct Hc as [->|[C ->]].
  - pose proof (equality_judge I tell K f (ECall g [(None, Some x)]) y s Hf) as Q.
    destruct (eval I x s) as [[v s1]|].
    + rewrite E in Q. destruct (eval I y s1) as [[w s2]|]; [|exact Q]. intros b H1 _. exact (Q b H1).
    + rewrite E in Q. exact Q.
  - destruct (constant_eval I y C) as [w Hw].
    pose proof (equality_judge I tell K f y (ECall g [(None, Some x)]) s Hf) as Q. rewrite Hw in Q.
    destruct (eval I x s) as [[v s1]|].
    + rewrite E in Q. rewrite Hw. intros b _ H2. exact (Q b H2).
    + rewrite E in Q. exact Q.
Qed.
Lemma means1_eval : forall I n h g x, open_name n -> fname g = Some n -> means1 I n (fun v => Some (h v)) ->
  forall s, match eval I x s with None => eval I (ECall g [(None, Some x)]) s = None
            | Some (v, s1) => eval I (ECall g [(None, Some x)]) s = Some (h v, s1) end.
Proof.
  intros I n h g x O Hg K s. pose proof (call_means1 I n _ g x s O Hg K) as Q.
  destruct (eval I x s) as [[v s1]|]; [exact (Q _ eq_refl)|exact Q].
Qed.

(** *** expect_length *)
Lemma expect_length_harmless : forall p f args r g x y,
  node_of_file p (ECall f args) -> expect_length (frames p) (ECall f args) = Some r ->
  expectation f (lit "expect_equal") -> compared (ECall g [(None, Some x)]) y args -> fname g = Some (lit "length") ->
  assigned (frames p) = false -> pipe_target (frames p) = false ->
  fix_harmless (fun I => exists tell len, knows_equal I tell /\ knows_length I tell len /\ yields I y (small_count I))
    p (ECall f args) r.
Proof.
  intros p f args r g x y H Hr Hf Hc Hg HA HP. pose proof (node_wf _ _ H) as W.
  destruct (compared_owf _ _ _ _ _ _ W Hc) as [X1 X2].
  assert (X : fixed_as (frames p) (ECall f args) (expect_text f (lit "expect_length") (args_toks [(None, Some x); (None, Some y)])) = Some r).
  { rewrite args_toks2. unfold expect_length in Hr. rewrite (equality_name f (or_introl Hf)) in Hr.
    pose proof (call_named _ _ x Hg) as CN.
    destruct Hc as [->|[C ->]]; rewrite object_expected_two in Hr; cbn [length Nat.ltb Nat.leb] in Hr.
    - rewrite CN in Hr. cbv zeta in Hr. destruct (is_call_named _ y); [discriminate|]. exact Hr.
    - rewrite (constant_no_call _ y C), CN in Hr. cbv zeta in Hr. exact Hr. }
  eapply expect_harmless; [exact H|reflexivity|exact X|discriminate|args_ok|exact HA|exact HP|].
  intros I (tell & len & (near & T & K1 & _) & (K2 & K3) & HY) s.
  assert (O1 : open_name (lit "length")) by is_open. assert (O2 : open_name (lit "expect_length")) by is_open.
  assert (O3 : open_name (lit "expect_equal")) by is_open.
  assert (N : fname g <> None) by congruence.
  pose proof (compared_judge I tell _ (fun v => number I (len v)) g f x y args s O3 eq_refl Hf N _ K1
    (means1_eval I _ _ g x O1 Hg K2) Hc) as Q1.
  pose proof (renamed_expectation f _ (lit "expect_length") Hf) as Hf'.
  pose proof (K3 _ (eval I x) (eval I y) s Hf') as Q2. cbv zeta in Q2.
  rewrite (eval_expectation I _ (renamed f (lit "expect_length")) _ O2 eq_refl Hf'). cbn [map fst snd].
  destruct (eval I x s) as [[v s1]|] eqn:E1; [|exact (eq_trans Q1 (eq_sym Q2))].
  destruct (eval I y s1) as [[w s2]|] eqn:E2; [|exact (eq_trans Q1 (eq_sym Q2))].
  destruct (HY _ _ _ E2) as (k & -> & Hk). refine (eq_trans (Q1 (len v =? k) _ _) (eq_sym (Q2 k eq_refl))).
  - unfold number. cbn [equal same_list oeqb]. rewrite T by (right; exact Hk). rewrite Bool.andb_true_r. reflexivity.
  - unfold number. cbn [equal same_list oeqb]. rewrite T by (left; exact Hk). rewrite Bool.andb_true_r. rewrite Nat.eqb_sym. reflexivity.
Qed.

(** *** expect_named *)
Lemma expect_named_harmless : forall p f args r g x y,
  node_of_file p (ECall f args) -> expect_named (frames p) (ECall f args) = Some r ->
  equality_of f -> args = [(None, Some (ECall g [(None, Some x)])); (None, Some y)] -> fname g = Some (lit "names") ->
  assigned (frames p) = false -> pipe_target (frames p) = false ->
  fix_harmless (fun I => exists tell nms, knows_equal I tell /\ knows_names I tell nms /\ yields I y (strings I))
    p (ECall f args) r.
Proof.
  intros p f args r g x y H Hr Hf Ha Hg HA HP. pose proof (node_wf _ _ H) as W.
  assert (Hc : compared (ECall g [(None, Some x)]) y args) by (left; exact Ha).
  destruct (compared_owf _ _ _ _ _ _ W Hc) as [X1 X2].
  assert (X : fixed_as (frames p) (ECall f args) (expect_text f (lit "expect_named") (args_toks [(None, Some x); (None, Some y)])) = Some r).
  { rewrite args_toks2. unfold expect_named in Hr. rewrite (equality_name f Hf) in Hr.
    pose proof (call_named _ _ x Hg) as CN. subst args. rewrite object_expected_two in Hr.
    rewrite CN in Hr. destruct (is_call_named _ y); [discriminate|]. exact Hr. }
  eapply expect_harmless; [exact H|reflexivity|exact X|discriminate|args_ok|exact HA|exact HP|].
  intros I (tell & nms & K & (K2 & K3) & HY) s.
  assert (O1 : open_name (lit "names")) by is_open. assert (O2 : open_name (lit "expect_named")) by is_open.
  assert (N : fname g <> None) by congruence.
  pose proof (compared_equality I tell _ g f x y args s K Hf N (means1_eval I _ _ g x O1 Hg K2) Hc) as Q1.
  assert (Hf' : expectation (renamed f (lit "expect_named")) (lit "expect_named")) by (destruct Hf as [Hf|Hf]; eapply renamed_expectation; exact Hf).
  pose proof (judge2 I tell _ _ _ x y s O2 eq_refl Hf' K3) as Q2.
  destruct (eval I x s) as [[v s1]|] eqn:E1; [|exact (eq_trans Q1 (eq_sym Q2))].
  destruct (eval I y s1) as [[w s2]|] eqn:E2; [|exact (eq_trans Q1 (eq_sym Q2))].
  destruct (HY _ _ _ E2) as (l & ->). refine (eq_trans (Q1 _ _ _) (eq_sym (Q2 _ eq_refl))).
  - destruct (nms v); reflexivity.
  - destruct (nms v); [|reflexivity]. cbn [identical equal]. rewrite same_list_sym. reflexivity.
Qed.

(** *** expect_s3_class *)
Lemma same_one : forall c t, same_list teqb [Some c] [Some t] = existsb (teqb t) [c].
Proof.
  intros c t. cbn [same_list oeqb existsb]. rewrite Bool.andb_true_r, Bool.orb_false_r.
  apply Bool.eq_iff_eq_true. rewrite !teqb_eq. split; congruence.
Qed.
Lemma expect_s3_class_harmless : forall p f args r g x t,
  node_of_file p (ECall f args) -> expect_s3_class (frames p) (ECall f args) = Some r ->
  equality_of f -> compared (ECall g [(None, Some x)]) (EAtom (AStr t)) args -> fname g = Some (lit "class") ->
  assigned (frames p) = false -> pipe_target (frames p) = false ->
  fix_harmless (fun I => exists tell cls s3, knows_equal I tell /\ knows_s3 I tell cls s3 /\
      yields I x (fun v => length (cls v) = 1 /\ s3 v = true)) p (ECall f args) r.
Proof.
  intros p f args r g x t H Hr Hf Hc Hg HA HP. pose proof (node_wf _ _ H) as W.
  destruct (compared_owf _ _ _ _ _ _ W Hc) as [X1 X2].
  assert (X : fixed_as (frames p) (ECall f args) (expect_text f (lit "expect_s3_class") (args_toks [(None, Some x); (None, Some (EAtom (AStr t)))])) = Some r).
  { rewrite args_toks2. unfold expect_s3_class in Hr. rewrite (equality_name f Hf) in Hr.
    pose proof (call_named _ _ x Hg) as CN.
    destruct Hc as [->|[_ ->]]; rewrite object_expected_two in Hr; cbn [length Nat.ltb Nat.leb is_call] in Hr;
      cbv zeta in Hr; rewrite CN in Hr; (destruct (is_s3_class (EAtom (AStr t))); [exact Hr|discriminate]). }
  eapply expect_harmless; [exact H|reflexivity|exact X|discriminate|args_ok|exact HA|exact HP|].
  intros I (tell & cls & s3 & K & (K2 & K3) & HY) s.
  assert (O1 : open_name (lit "class")) by is_open. assert (O2 : open_name (lit "expect_s3_class")) by is_open.
  assert (N : fname g <> None) by congruence.
  pose proof (compared_equality I tell _ g f x (EAtom (AStr t)) args s K Hf N (means1_eval I _ _ g x O1 Hg K2) Hc) as Q1.
  assert (Hf' : expectation (renamed f (lit "expect_s3_class")) (lit "expect_s3_class")) by (destruct Hf as [Hf|Hf]; eapply renamed_expectation; exact Hf).
  pose proof (judge2 I tell _ _ _ x (EAtom (AStr t)) s O2 eq_refl Hf' K3) as Q2.
  destruct (eval I x s) as [[v s1]|] eqn:E1; [|exact (eq_trans Q1 (eq_sym Q2))].
  change (eval I (EAtom (AStr t)) s1) with (Some (@VStr (num I) (other I) [Some (slit I t)], s1)) in Q1, Q2. cbv iota in Q1, Q2.
  destruct (HY _ _ _ E1) as (L & S3). destruct (cls v) as [|c [|? ?]]; try discriminate.
  refine (eq_trans (Q1 _ _ _) (eq_sym (Q2 _ eq_refl))); rewrite S3; cbn [map identical equal andb].
  - rewrite same_one. reflexivity.
  - rewrite same_list_sym, same_one. reflexivity.
Qed.

(** *** expect_not *)
Definition inside (x : expr) : expr := match x with EParen y => y | _ => x end.
Lemma inside_toks : forall x, match x with EParen y => toks y | _ => toks x end = toks (inside x).
Proof. intros []; reflexivity. Qed.
Lemma inside_eval : forall I x, eval I (inside x) = eval I x.
Proof. intros I []; reflexivity. Qed.
Lemma level_no_eq : forall i y, wf i y -> (forall nl l r, y <> EBin BEq nl l r) -> arg_level <= lmin y.
Proof.
  intros i y W H. destruct y as [| | |o nl l r| | | | | | | | |]; try (cbn [lmin]; unfold arg_level; lia).
  assert (O : o <> BEq) by (intros ->; apply (H nl l r); reflexivity).
  pose proof (left_operand_level _ _ _ _ _ W O) as L. cbn [lmin]. apply Nat.min_glb; [|exact L].
  destruct o; try (exfalso; apply O; reflexivity); unfold arg_level; cbn; lia.
Qed.
Definition opposite (n : text) : text := if teqb n (lit "expect_true") then lit "expect_false" else lit "expect_true".
Lemma expect_not_harmless : forall p f n args r x,
  node_of_file p (ECall f args) -> expect_not (frames p) (ECall f args) = Some r ->
  expectation f n -> args = [(None, Some (EUn UNot x))] -> (forall nl l rr, x <> EParen (EBin BEq nl l rr)) ->
  assigned (frames p) = false -> pipe_target (frames p) = false ->
  fix_harmless (fun I => exists tell, knows_constants I tell /\ yields I x logical) p (ECall f args) r.
Proof.
  intros p f n args r x H Hr Hf Ha Hx HA HP. pose proof (node_wf _ _ H) as W.
  assert (X0 : owf (Some (EUn UNot x))) by (eapply arg_owf; [exact W|rewrite Ha; left; reflexivity]).
  assert (X1 : owf (Some (inside x))).
  { destruct X0 as [W1 _]. cbn [wf] in W1. destruct W1 as [W1 L]. 
    destruct x; cbn [inside]; try (split; [exact W1|]; cbn [ubp] in L; unfold arg_level in *; lia).
    cbn [wf] in W1. split; [exact W1|]. eapply level_no_eq; [exact W1|]. intros nl l rr ->. apply (Hx nl l rr). reflexivity. }
  assert (X : (n = lit "expect_true" \/ n = lit "expect_false") /\
    fixed_as (frames p) (ECall f args) (expect_text f (opposite n) (args_toks [(None, Some (inside x))])) = Some r).
  { rewrite args_toks1. unfold expect_not in Hr. rewrite (expectation_name _ _ Hf) in Hr. cbv zeta in Hr.
    destruct (mem n [lit "expect_true"; lit "expect_false"]) eqn:M; [|discriminate].
    split.
    - cbn [mem existsb] in M. apply Bool.orb_prop in M. destruct M as [M|M]; [left; apply teqb_eq; exact M|].
      apply Bool.orb_prop in M. destruct M as [M|M]; [right; apply teqb_eq; exact M|discriminate].
    - subst args. change (get_arg_by_name_then_position [(None, Some (EUn UNot x))] (lit "object") 1)
        with (Some (@None text, Some (EUn UNot x))) in Hr. cbv iota in Hr. cbn [length Nat.ltb Nat.leb] in Hr.
      rewrite <- inside_toks. unfold opposite. destruct x as [| |[]| | | | | | | | | |]; try discriminate Hr; exact Hr. }
  destruct X as [Hn X]. clear Hr.
  eapply expect_harmless; [exact H|reflexivity|exact X|discriminate|args_ok|exact HA|exact HP|].
  intros I (tell & (_ & K3 & K4) & HY) s.
  assert (O1 : open_name (lit "expect_false")) by is_open. assert (O2 : open_name (lit "expect_true")) by is_open.
  pose proof (renamed_expectation f _ (opposite n) Hf) as Hf'. subst args.
  destruct Hn as [ -> | -> ].
  - pose proof (judge1 I tell _ _ f (EUn UNot x) s O2 eq_refl Hf K3) as Q1.
    pose proof (judge1 I tell _ _ (renamed f (lit "expect_false")) (inside x) s O1 eq_refl Hf' K4) as Q2.
    change (opposite (lit "expect_true")) with (lit "expect_false").
    change (eval I (EUn UNot x) s) with (strict1 I (vnot I) (eval I x) s) in Q1. unfold strict1, cbind in Q1.
    rewrite inside_eval in Q2.
    destruct (eval I x s) as [[v s1]|] eqn:E; [|exact (eq_trans Q1 (eq_sym Q2))].
    pose proof (HY _ _ _ E) as L. destruct v as [l| | | |]; try destruct L.
    cbn [vnot clift] in Q1. unfold cret in Q1.
    refine (eq_trans (Q1 (match l with [Some false] => true | _ => false end) _) (eq_sym (Q2 _ _)));
      destruct l as [|[[]|] [|? ?]]; reflexivity.
  - pose proof (judge1 I tell _ _ f (EUn UNot x) s O1 eq_refl Hf K4) as Q1.
    pose proof (judge1 I tell _ _ (renamed f (lit "expect_true")) (inside x) s O2 eq_refl Hf' K3) as Q2.
    change (opposite (lit "expect_false")) with (lit "expect_true").
    change (eval I (EUn UNot x) s) with (strict1 I (vnot I) (eval I x) s) in Q1. unfold strict1, cbind in Q1.
    rewrite inside_eval in Q2.
    destruct (eval I x s) as [[v s1]|] eqn:E; [|exact (eq_trans Q1 (eq_sym Q2))].
    pose proof (HY _ _ _ E) as L. destruct v as [l| | | |]; try destruct L.
    cbn [vnot clift] in Q1. unfold cret in Q1.
    refine (eq_trans (Q1 (match l with [Some true] => true | _ => false end) _) (eq_sym (Q2 _ _)));
      destruct l as [|[[]|] [|? ?]]; reflexivity.
Qed.

(** *** expect_type *)
Lemma type_tested_spec : forall n t, type_tested n = Some t -> exists u ts, In (n, u :: ts) type_tests /\ t = 34%N :: u ++ [34%N] /\
  Forall (fun c => c <> 34%N /\ c <> 92%N) u.
Proof.
  intros n t H. unfold type_tested in H. destruct (find _ type_functions) as [[m u]|] eqn:F; [|discriminate].
  apply some_eq in H. cbn [snd] in H. subst u. apply find_some in F. destruct F as [F E]. cbn [fst] in E. apply teqb_eq in E. subst m.
  repeat (destruct F as [F|F]; [pose proof (f_equal fst F) as E1; pose proof (f_equal snd F) as E2; cbn [fst snd] in E1, E2; subst n t;
    eexists _, _; split; [cbn [type_tests In]; repeat first [ left; reflexivity | right ]|split; [reflexivity|repeat constructor; discriminate]]|]).
  destruct F.
Qed.
Lemma type_tests_unique : forall n ts ts', In (n, ts) type_tests -> In (n, ts') type_tests -> ts = ts'.
Proof.
  intros n ts ts' H H'.
  assert (D : find (fun p => teqb (fst p) n) type_tests = Some (n, ts) /\ find (fun p => teqb (fst p) n) type_tests = Some (n, ts')).
  { split.
    - repeat (destruct H as [H|H]; [pose proof (f_equal fst H) as E1; pose proof (f_equal snd H) as E2; cbn [fst snd] in E1, E2; subst n ts; reflexivity|]). destruct H.
    - repeat (destruct H' as [H'|H']; [pose proof (f_equal fst H') as E1; pose proof (f_equal snd H') as E2; cbn [fst snd] in E1, E2; subst n ts'; reflexivity|]). destruct H'. }
  destruct D as [D1 D2]. rewrite D1 in D2. apply some_eq in D2. apply (f_equal snd) in D2. cbn [snd] in D2. congruence.
Qed.
Lemma expect_type_of_harmless : forall p f args r g x y,
  node_of_file p (ECall f args) -> expect_type (frames p) (ECall f args) = Some r ->
  equality_of f -> compared (ECall g [(None, Some x)]) y args -> fname g = Some (lit "typeof") ->
  assigned (frames p) = false -> pipe_target (frames p) = false ->
  fix_harmless (fun I => exists tell ty, knows_equal I tell /\ knows_types I tell ty /\ yields I y (one_string I))
    p (ECall f args) r.
Proof.
  intros p f args r g x y H Hr Hf Hc Hg HA HP. pose proof (node_wf _ _ H) as W.
  destruct (compared_owf _ _ _ _ _ _ W Hc) as [X1 X2].
  assert (X : fixed_as (frames p) (ECall f args) (expect_text f (lit "expect_type") (args_toks [(None, Some x); (None, Some y)])) = Some r).
  { rewrite args_toks2. unfold expect_type in Hr. rewrite (equality_name f Hf) in Hr.
    pose proof (call_named _ _ x Hg) as CN.
    destruct Hc as [->|[C ->]]; rewrite object_expected_two in Hr; cbn [length Nat.ltb Nat.leb] in Hr; cbv zeta in Hr.
    - rewrite CN in Hr. exact Hr.
    - rewrite (constant_no_call _ y C), CN in Hr. exact Hr. }
  eapply expect_harmless; [exact H|reflexivity|exact X|discriminate|args_ok|exact HA|exact HP|].
  intros I (tell & ty & K & (_ & K2 & K3 & _) & HY) s.
  assert (O1 : open_name (lit "typeof")) by is_open. assert (O2 : open_name (lit "expect_type")) by is_open.
  assert (N : fname g <> None) by congruence.
  pose proof (compared_equality I tell _ g f x y args s K Hf N (means1_eval I _ _ g x O1 Hg K2) Hc) as Q1.
  assert (Hf' : expectation (renamed f (lit "expect_type")) (lit "expect_type")) by (destruct Hf as [Hf|Hf]; eapply renamed_expectation; exact Hf).
  pose proof (judge2 I tell _ _ _ x y s O2 eq_refl Hf' K3) as Q2.
  destruct (eval I x s) as [[v s1]|] eqn:E1; [|exact (eq_trans Q1 (eq_sym Q2))].
  destruct (eval I y s1) as [[w s2]|] eqn:E2; [|exact (eq_trans Q1 (eq_sym Q2))].
  destruct (HY _ _ _ E2) as (t & ->). refine (eq_trans (Q1 _ _ _) (eq_sym (Q2 _ eq_refl))); cbn [identical equal].
  - rewrite same_one. cbn [existsb]. rewrite Bool.orb_false_r. reflexivity.
  - rewrite same_list_sym, same_one. cbn [existsb]. rewrite Bool.orb_false_r. reflexivity.
Qed.
Lemma expect_type_test_harmless : forall p f args r g n x t ts,
  node_of_file p (ECall f args) -> expect_type (frames p) (ECall f args) = Some r ->
  expectation f (lit "expect_true") -> args = [(None, Some (ECall g [(None, Some x)]))] -> fname g = Some n ->
  In (n, t :: ts) type_tests ->
  assigned (frames p) = false -> pipe_target (frames p) = false ->
  fix_harmless (fun I => exists tell ty, knows_constants I tell /\ knows_types I tell ty /\ yields I x (fun v => ~ In (ty v) ts))
    p (ECall f args) r.
Proof.
  intros p f args r g n x t ts H Hr Hf Ha Hg Hn HA HP. pose proof (node_wf _ _ H) as W.
  assert (X1 : owf (Some x)).
  { assert (X0 : owf (Some (ECall g [(None, Some x)]))) by (eapply arg_owf; [exact W|rewrite Ha; left; reflexivity]).
    eapply arg_owf; [exact (proj1 X0)|left; reflexivity]. }
  set (y := EAtom (AStr (34%N :: t ++ [34%N]))).
  assert (X : Forall (fun c => c <> 34%N /\ c <> 92%N) t /\
    fixed_as (frames p) (ECall f args) (expect_text f (lit "expect_type") (args_toks [(None, Some x); (None, Some y)])) = Some r).
  { rewrite args_toks2. unfold expect_type in Hr.
    assert (N : is_expect_equal f = false) by (unfold is_expect_equal; rewrite (expectation_name _ _ Hf); reflexivity).
    rewrite N in Hr. rewrite (expectation_name _ _ Hf) in Hr. cbv zeta in Hr.
    change (teqb (lit "expect_true") (lit "expect_true")) with true in Hr. cbv iota in Hr. subst args.
    cbn [length Nat.ltb Nat.leb] in Hr.
    change (arg_value (get_arg_by_name_then_position [(None, Some (ECall g [(None, Some x)]))] (lit "object") 1))
      with (Some (ECall g [(None, Some x)])) in Hr. cbv iota in Hr. rewrite (fname_name _ _ Hg) in Hr.
    destruct (type_tested n) as [u|] eqn:T; [|discriminate].
    change (arg_value (get_arg_by_name_then_position [(None, Some x)] (lit "x") 1)) with (Some x) in Hr. cbv iota in Hr.
    destruct (type_tested_spec _ _ T) as (t' & ts' & Hi & -> & Hq).
    pose proof (type_tests_unique _ _ _ Hn Hi) as E. 
    assert (t' = t) by congruence. subst t'. split; [exact Hq|]. exact Hr. }
  destruct X as [Hq X]. assert (X2 : owf (Some y)) by (split; [exact Logic.I|unfold arg_level; cbn; lia]).
  eapply expect_harmless; [exact H|reflexivity|exact X|discriminate|args_ok|exact HA|exact HP|].
  intros I (tell & ty & (_ & K1 & _) & (K0 & _ & K3 & K4) & HY) s.
  assert (O1 : open_name (lit "expect_true")) by is_open. assert (O2 : open_name (lit "expect_type")) by is_open.
  pose proof (renamed_expectation f _ (lit "expect_type") Hf) as Hf'. subst args.
  pose proof (judge1 I tell _ _ f (ECall g [(None, Some x)]) s O1 eq_refl Hf K1) as Q1.
  pose proof (judge2 I tell _ _ _ x y s O2 eq_refl Hf' K3) as Q2.
  pose proof (K4 n _ g (eval I x) s Hn Hg) as E.
  change (eval I (ECall g [(None, Some x)]) s) with (apply I (fname g) (eval I g) [(None, Some (eval I x))] s) in Q1.
  rewrite E in Q1.
  destruct (eval I x s) as [[v s1]|] eqn:E1; [|exact (eq_trans Q1 (eq_sym Q2))].
  assert (Ey : eval I y s1 = Some (VStr [Some t], s1)).
  { exact (f_equal (fun u : text => Some (@VStr (num I) (other I) [Some u], s1)) (K0 t Hq)). }
  rewrite Ey in Q2. refine (eq_trans (Q1 (teqb t (ty v)) _) (eq_sym (Q2 _ eq_refl))).
  pose proof (HY _ _ _ E1) as NI. cbn beta in NI. unfold has_type. cbn [existsb].
  assert (F : existsb (teqb (ty v)) ts = false).
  { destruct (existsb (teqb (ty v)) ts) eqn:B; [|reflexivity]. apply existsb_exists in B. destruct B as (u & B1 & B2).
    apply teqb_eq in B2. subst u. contradiction. }
  rewrite F, Bool.orb_false_r. rewrite (teqb_sym (ty v) t). destruct (teqb t (ty v)); reflexivity.
Qed.

(** *** expect_match, expect_no_match *)
Lemma expect_match_harmless : forall no p f args r g x pat,
  node_of_file p (ECall f args) -> (if no : bool then expect_no_match else expect_match) (frames p) (ECall f args) = Some r ->
  expectation f (if no then lit "expect_false" else lit "expect_true") ->
  args = [(None, Some (ECall g [(None, Some (EAtom (AStr pat))); (None, Some x)]))] -> fname g = Some (lit "grepl") ->
  assigned (frames p) = false -> pipe_target (frames p) = false ->
  fix_harmless (fun I => exists tell m, knows_constants I tell /\ knows_match I tell m /\ yields I x (one_string I))
    p (ECall f args) r.
Proof.
  intros no p f args r g x pat H Hr Hf Ha Hg HA HP. pose proof (node_wf _ _ H) as W.
  set (y := EAtom (AStr pat)) in *. set (new := if no then lit "expect_no_match" else lit "expect_match").
  assert (X0 : owf (Some (ECall g [(None, Some y); (None, Some x)]))) by (eapply arg_owf; [exact W|rewrite Ha; left; reflexivity]).
  assert (X1 : owf (Some x)) by (eapply arg_owf; [exact (proj1 X0)|right; left; reflexivity]).
  assert (X2 : owf (Some y)) by (eapply arg_owf; [exact (proj1 X0)|left; reflexivity]).
  assert (X : fixed_as (frames p) (ECall f args) (expect_text f new (args_toks [(None, Some x); (None, Some y)])) = Some r).
  { set (outer := if no then lit "expect_false" else lit "expect_true") in *.
    assert (Hr' : expect_grepl outer new (frames p) (ECall f args) = Some r) by (unfold outer, new; destruct no; exact Hr).
    clear Hr. unfold expect_grepl in Hr'. rewrite (expectation_name _ _ Hf), teqb_refl in Hr'. cbv iota delta [negb] in Hr'.
    unfold get_nested_functions_content in Hr'. subst args. rewrite (expectation_name _ _ Hf), teqb_refl in Hr'.
    cbv iota delta [negb] in Hr'. unfold nested_content in Hr'. cbn [find is_unnamed fst] in Hr'. rewrite (fname_name _ _ Hg) in Hr'.
    change (teqb (lit "grepl") (lit "grepl")) with true in Hr'. cbv iota in Hr'.
    change (arg_value (get_arg_by_name_then_position [(None, Some (ECall g [(None, Some y); (None, Some x)]))] (lit "object") 1))
      with (Some (ECall g [(None, Some y); (None, Some x)])) in Hr'. cbv iota in Hr'. rewrite (fname_name _ _ Hg) in Hr'.
    change (teqb (lit "grepl") (lit "grepl")) with true in Hr'. cbv iota in Hr'. exact Hr'. }
  eapply expect_harmless; [exact H|reflexivity|exact X|discriminate|args_ok|exact HA|exact HP|].
  intros I (tell & m & (_ & K1 & K2) & (K3 & K4 & K5) & HY) s.
  assert (O1 : open_name (lit "expect_true")) by is_open. assert (O2 : open_name (lit "expect_false")) by is_open.
  assert (O3 : open_name (lit "expect_match")) by is_open. assert (O4 : open_name (lit "expect_no_match")) by is_open.
  assert (O5 : open_name (lit "grepl")) by is_open.
  pose proof (renamed_expectation f _ new Hf) as Hf'. subst args.
  pose proof (call_means2 I _ _ g y x s O5 Hg K3) as Q3.
  change (eval I y s) with (Some (@VStr (num I) (other I) [Some (slit I pat)], s)) in Q3. cbv iota in Q3.
  destruct no.
  - pose proof (judge1 I tell _ _ f (ECall g [(None, Some y); (None, Some x)]) s O2 eq_refl Hf K2) as Q1.
    pose proof (judge2 I tell _ _ _ x y s O4 eq_refl Hf' K5) as Q2.
    destruct (eval I x s) as [[v s1]|] eqn:E1; [|rewrite Q3 in Q1; exact (eq_trans Q1 (eq_sym Q2))].
    change (eval I y s1) with (Some (@VStr (num I) (other I) [Some (slit I pat)], s1)) in Q2. cbv iota in Q2.
    destruct (HY _ _ _ E1) as (t & ->). rewrite (Q3 _ eq_refl) in Q1.
    refine (eq_trans (Q1 (negb (m (slit I pat) t)) _) (eq_sym (Q2 _ _))).
    + cbn [map]. unfold lgls. cbn [map]. destruct (m (slit I pat) t); reflexivity.
    + cbn [matches map option_map forallb]. rewrite Bool.andb_true_r. reflexivity.
  - pose proof (judge1 I tell _ _ f (ECall g [(None, Some y); (None, Some x)]) s O1 eq_refl Hf K1) as Q1.
    pose proof (judge2 I tell _ _ _ x y s O3 eq_refl Hf' K4) as Q2.
    destruct (eval I x s) as [[v s1]|] eqn:E1; [|rewrite Q3 in Q1; exact (eq_trans Q1 (eq_sym Q2))].
    change (eval I y s1) with (Some (@VStr (num I) (other I) [Some (slit I pat)], s1)) in Q2. cbv iota in Q2.
    destruct (HY _ _ _ E1) as (t & ->). rewrite (Q3 _ eq_refl) in Q1.
    refine (eq_trans (Q1 (m (slit I pat) t) _) (eq_sym (Q2 _ _))).
    + cbn [map]. unfold lgls. cbn [map]. destruct (m (slit I pat) t); reflexivity.
    + cbn [matches map option_map forallb length Nat.eqb negb andb]. rewrite Bool.andb_true_r. reflexivity.
Qed.
