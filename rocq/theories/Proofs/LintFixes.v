(** Fixes that are harmless. *)
From Verif Require Import Spec.RGrammar Spec.RWellFormed Spec.RPosition Spec.RSemantics Spec.RFix Spec.RAlike.
From Verif Require Import Proofs.TextProofs Proofs.RParse Proofs.RParseSound Proofs.RContext Proofs.RCongruence Proofs.RAlike Proofs.LintSyntax.

Lemma eqv_value : forall I fs e e', assigned fs = false -> callee fs = false -> pipe_target fs = false ->
  ceq (eval I e) (eval I e') -> eqv I fs e e'.
Proof. intros I fs e e' H1 H2 H3 H. repeat split; auto; congruence. Qed.

(** The fix replaces the node itself. *)
Lemma harmless_here : forall (P : interp -> Prop) p e r e',
  node_of_file p e -> at_frames r = frames p -> at_node r = e -> new_text r = Some (toks e') ->
  fits (frames p) e' -> (forall I, P I -> eqv I (frames p) e e') ->
  fix_both P p e r.
Proof.
  intros P [b fs a] e r e' H H1 H0 H2 Hf He c Hc. cbn [frames] in *.
  unfold fix_place. cbn [before after]. rewrite H1, H0. rewrite H2 in Hc. injection Hc as <-. split.
  - apply harmless_edit; auto.
  - exists e'. split; [reflexivity|]. apply fits_replaceable; assumption.
Qed.

(** The fix replaces the parent. *)
Lemma lift_text : forall b f fs a e,
  edited (mk_place b (f :: fs) a) (toks e) = edited (mk_place b fs a) (toks (fill f e)).
Proof. intros. rewrite !edited_toks. reflexivity. Qed.
Lemma lift_node : forall b f fs a e,
  node_of_file (mk_place b (f :: fs) a) e -> node_of_file (mk_place b fs a) (fill f e).
Proof. intros b f fs a e H. unfold node_of_file in *. rewrite lift_text in H. exact H. Qed.
Lemma harmless_parent : forall (P : interp -> Prop) p e r f fs e',
  node_of_file p e -> frames p = f :: fs -> at_frames r = fs -> at_node r = fill f e -> new_text r = Some (toks e') ->
  fits fs e' -> (forall I, P I -> eqv I fs (fill f e) e') ->
  fix_both P p e r.
Proof.
  intros P [b fs0 a] e r f fs e' H E H1 H0 H2 Hf He c Hc. cbn [frames] in *. subst fs0.
  unfold fix_place. cbn [before after]. rewrite H1, H0. rewrite H2 in Hc. injection Hc as <-. split.
  - rewrite lift_text. apply harmless_edit; auto. apply lift_node. exact H.
  - exists e'. split; [reflexivity|]. apply fits_replaceable; assumption.
Qed.

Lemma node_wf : forall p e, node_of_file p e -> wf (enclosed (frames p)) e.
Proof. intros p e H. apply reads_fits in H. apply H. Qed.

(** An operator expression is not a callee. *)
Lemma not_callee : forall p e, node_of_file p e -> primary e = false -> callee (frames p) = false.
Proof.
  intros p e H Hp. apply reads_fits in H. destruct H as (_ & _ & H).
  destruct (frames p) as [|[] fs]; auto. cbn [right_op rfits] in H.
  apply rmin_primary in H. congruence.
Qed.

(** ** comparison_negation *)
Lemma test_negated : forall c o, test (negated c) o = negb (test c o).
Proof. intros [] []; reflexivity. Qed.

Lemma map_recycle : forall {A B C D} (g : C -> D) (f : option A -> option B -> C) l r,
  map g (recycle f l r) = recycle (fun a b => g (f a b)) l r.
Proof.
  intros. unfold recycle. destruct l; [reflexivity|]. destruct r; [reflexivity|].
  rewrite map_map. reflexivity.
Qed.
Lemma recycle_ext : forall {A B C} (f g : option A -> option B -> C) l r,
  (forall a b, f a b = g a b) -> recycle f l r = recycle g l r.
Proof.
  intros A B C f g l r H. unfold recycle. destruct l; [reflexivity|]. destruct r; [reflexivity|].
  apply map_ext. auto.
Qed.

Lemma compare_negated : forall I c v w, plain v -> plain w ->
  compare I (negated c) v w = obind (compare I c v w) (vnot I).
Proof.
  intros I c v w Pv Pw.
  assert (Hs : forall l r, recycle (scompare I (negated c)) l r = map (option_map negb) (recycle (scompare I c) l r)).
  { intros l r. rewrite map_recycle. apply recycle_ext. intros [a|] [b|]; cbn; auto.
    rewrite test_negated. reflexivity. }
  assert (Hn : forall l r, recycle (ncompare I (negated c)) l r = map (option_map negb) (recycle (ncompare I c) l r)).
  { intros l r. rewrite map_recycle. apply recycle_ext. intros [a|] [b|]; cbn; auto.
    destruct (_ || _); cbn; auto. rewrite test_negated. reflexivity. }
  destruct v, w; try contradiction; unfold compare; cbn [to_num to_str obind vnot];
    rewrite ?Hs, ?Hn; reflexivity.
Qed.

Lemma comparison_negation_ceq : forall I c nl l r,
  yields I l plain -> yields I r plain ->
  ceq (eval I (EUn UNot (EParen (EBin (BCmp c) nl l r)))) (eval I (EBin (BCmp (negated c)) false l r)).
Proof.
  intros I c nl l r Hl Hr s.
  change (eval I (EUn UNot (EParen (EBin (BCmp c) nl l r)))) with
    (strict1 I (vnot I) (strict2 I (compare I c) (eval I l) (eval I r))).
  change (eval I (EBin (BCmp (negated c)) false l r)) with
    (strict2 I (compare I (negated c)) (eval I l) (eval I r)).
  unfold strict1, strict2, cbind.
  destruct (eval I l s) as [[v s1]|] eqn:E1; auto.
  destruct (eval I r s1) as [[w s2]|] eqn:E2; auto.
  rewrite compare_negated by eauto.
  destruct (compare I c v w); reflexivity.
Qed.

Lemma comparison_negation_fits : forall p c nl l r,
  node_of_file p (EUn UNot (EParen (EBin (BCmp c) nl l r))) ->
  (fits (frames p) (EBin (BCmp (negated c)) false l r) <->
   loose_left (left_op (frames p)) = true /\
   rfits (right_op (frames p)) (EBin (BCmp (negated c)) false l r) /\
   (enclosed (frames p) = true \/ breaks l = false /\ breaks r = false)).
Proof.
  intros p c nl l r H. pose proof (node_wf _ _ H) as W. cbn [wf] in W.
  destruct W as ((W1 & W2 & W3 & W4 & W5 & _) & _).
  assert (Ll : 12 <= lmin l).
  { cbn [lbp] in W3. destruct l as [| | |o' nl' l1 l2| | | | | | | | |]; cbn [lmin]; try lia.
    cbn [wf] in W1. destruct W1 as (V1 & V2 & V3 & V4 & V5 & V6).
    cbn [rmin] in W3. assert (12 <= lbp o'). { clear - W3. destruct o'; cbn [lbp rbp] in *; lia. }
    clear - V3 V1 H0.
    revert o' V3 H0. induction l1; intros; cbn [lmin]; try lia.
    cbn [wf] in V1. destruct V1 as (V1 & U2 & U3 & U4 & U5 & U6).
    cbn [rmin] in V3. assert (12 <= lbp o). { clear - V3 H0. destruct o; cbn [lbp rbp] in *; lia. }
    specialize (IHl1_1 V1 o U3 H). lia. }
  unfold fits. rewrite loose_left_iff. cbn [wf lmin lbp].
  split.
  - intros ((F1 & F2 & F3 & F4 & F5 & F6) & F7 & F8). split; [lia|]. split; [exact F8|].
    destruct (enclosed (frames p)); [auto|right]. split; apply wf_false_breaks; auto.
  - intros (F1 & F2 & F3). split; [|split; [lia|exact F2]].
    split; [apply wf_enclosed; tauto|]. split; [apply wf_enclosed; tauto|].
    repeat split; auto. discriminate.
Qed.

Lemma comparison_negation_harmless : forall p e r,
  node_of_file p e -> comparison_negation (frames p) e = Some r ->
  forall nl c x y, e = EUn UNot (EParen (EBin c nl x y)) ->
  loose_left (left_op (frames p)) = true ->
  loose_right (right_op (frames p)) = true ->
  right_op (frames p) = None \/ swallows y = false ->
  enclosed (frames p) = true \/ breaks x = false /\ breaks y = false ->
  fix_both (fun I => yields I x plain /\ yields I y plain) p e r.
Proof.
  intros p e r H Hr nl o x y -> HL HR HS HB. cbn [comparison_negation] in Hr.
  destruct o as [| | | | | | | |c| | | | | | | |]; try discriminate. injection Hr as <-.
  apply harmless_here with (e' := EBin (BCmp (negated c)) false x y); auto.
  - apply (comparison_negation_fits p c nl x y H). split; [exact HL|]. split; [|exact HB].
    pose proof (node_wf _ _ H) as W. cbn [wf] in W. destruct W as ((W1 & W2 & W3 & W4 & W5 & _) & _).
    destruct (right_op (frames p)) as [[o| |]|] eqn:E; cbn [rfits]; auto.
    + destruct HS as [S|S]; [discriminate|]. destruct (swallows_rmin y _ W2 W4 S) as [S1 S2].
      apply loose_right_lbp in HR. destruct HR as [R1 R2].
      change (rmin (EBin (BCmp (negated c)) false x y)) with (Nat.min 13 (rmin y)).
      split; [lia|]. rewrite R2. reflexivity.
    + discriminate.
    + destruct HS as [S|S]; [discriminate|]. cbn [opens]. apply (swallows_rmin y _ W2 W4 S).
  - intros I [Hx Hy]. pose proof (comparison_negation_ceq I c nl x y Hx Hy) as E.
    repeat split; auto; intros; try (cbn; apply ceq_refl).
Qed.

(** ** outer_negation *)
Lemma existsb_map : forall {A B} (f : A -> B) g l, existsb g (map f l) = existsb (fun x => g (f x)) l.
Proof. intros. induction l; cbn; congruence. Qed.
Lemma existsb_ext : forall {A} (f g : A -> bool) l, (forall x, f x = g x) -> existsb f l = existsb g l.
Proof. intros A f g l H. induction l; cbn; congruence. Qed.

Lemma any_not : forall l, any3 (map (option_map negb) l) = option_map negb (all3 l).
Proof.
  intros l. unfold any3, all3. rewrite !existsb_map.
  rewrite (existsb_ext _ (fun x => match x with Some false => true | _ => false end)) by (intros [[]|]; reflexivity).
  rewrite (existsb_ext (fun x => match option_map negb x with None => true | _ => false end)
             (fun x => match x with None => true | _ => false end)) by (intros [[]|]; reflexivity).
  destruct (existsb _ l); [reflexivity|]. destruct (existsb _ l); reflexivity.
Qed.
Lemma all_not : forall l, all3 (map (option_map negb) l) = option_map negb (any3 l).
Proof.
  intros l. unfold any3, all3. rewrite !existsb_map.
  rewrite (existsb_ext _ (fun x => match x with Some true => true | _ => false end)) by (intros [[]|]; reflexivity).
  rewrite (existsb_ext (fun x => match option_map negb x with None => true | _ => false end)
             (fun x => match x with None => true | _ => false end)) by (intros [[]|]; reflexivity).
  destruct (existsb _ l); [reflexivity|]. destruct (existsb _ l); reflexivity.
Qed.

Lemma vnot_lgl : forall I v, numeric_like v -> exists l, to_lgl I v = Some l /\
  vnot I v = Some (VLgl (map (option_map negb) l)).
Proof.
  intros I [] H; cbn in H; try contradiction; cbn [to_lgl vnot].
  - eauto.
  - eexists. split; [reflexivity|]. rewrite map_map. reflexivity.
  - exists []. auto.
Qed.
Lemma vany_not : forall I v, numeric_like v ->
  obind (vnot I v) (vany I) = obind (vall I v) (vnot I).
Proof.
  intros I v H. destruct (vnot_lgl I v H) as (l & E1 & E2). rewrite E2.
  unfold vall, vany. rewrite E1. cbn [obind to_lgl option_map vnot map]. rewrite any_not. reflexivity.
Qed.
Lemma vall_not : forall I v, numeric_like v ->
  obind (vnot I v) (vall I) = obind (vany I v) (vnot I).
Proof.
  intros I v H. destruct (vnot_lgl I v H) as (l & E1 & E2). rewrite E2.
  unfold vall, vany. rewrite E1. cbn [obind to_lgl option_map vnot map]. rewrite all_not. reflexivity.
Qed.

Lemma strict_chain : forall I (f g : value (num I) (other I) -> option (value (num I) (other I))) (c : comp I),
  ceq (strict1 I g (strict1 I f c)) (strict1 I (fun v => obind (f v) g) c).
Proof.
  intros I f g c s. unfold strict1, cbind. destruct (c s) as [[v s']|]; auto.
  destruct (f v); reflexivity.
Qed.
Lemma strict1_yields : forall I f g e K, yields I e K -> (forall v, K v -> f v = g v) ->
  ceq (strict1 I f (eval I e)) (strict1 I g (eval I e)).
Proof.
  intros I f g e K Hy H s. unfold strict1, cbind. destruct (eval I e s) as [[v s']|] eqn:E; auto.
  rewrite H by eauto. reflexivity.
Qed.

(** Calls of a function of one argument with a fixed meaning. *)
Lemma eval_call1 : forall I n g x, builtin1 I n = Some g ->
  eval I (ECall (EAtom (AId n)) [(None, Some x)]) = strict1 I g (eval I x).
Proof. intros I n g x H. cbn [eval map fst snd fname]. unfold apply. rewrite H. reflexivity. Qed.

Lemma outer_negation_ceq : forall I f x, f = lit "any" \/ f = lit "all" -> yields I x numeric_like ->
  ceq (eval I (ECall (EAtom (AId f)) [(None, Some (EUn UNot x))]))
      (eval I (EUn UNot (ECall (EAtom (AId (if teqb f (lit "any") then lit "all" else lit "any"))) [(None, Some x)]))).
Proof.
  intros I f x Hf Hx.
  destruct Hf as [ -> | -> ].
  - rewrite (eval_call1 I (lit "any") (vany I)) by reflexivity.
    change (teqb (lit "any") (lit "any")) with true. cbn match.
    change (eval I (EUn UNot ?e)) with (strict1 I (vnot I) (eval I e)).
    rewrite (eval_call1 I (lit "all") (vall I)) by reflexivity.
    eapply ceq_trans; [apply strict_chain|]. eapply ceq_trans; [|apply ceq_sym, strict_chain].
    apply strict1_yields with (K := numeric_like); auto. apply vany_not.
  - rewrite (eval_call1 I (lit "all") (vall I)) by reflexivity.
    change (teqb (lit "all") (lit "any")) with false. cbn match.
    change (eval I (EUn UNot ?e)) with (strict1 I (vnot I) (eval I e)).
    rewrite (eval_call1 I (lit "any") (vany I)) by reflexivity.
    eapply ceq_trans; [apply strict_chain|]. eapply ceq_trans; [|apply ceq_sym, strict_chain].
    apply strict1_yields with (K := numeric_like); auto. apply vall_not.
Qed.

(** A prefix [!] has no call or subset after it. *)
Lemma loose_not_callee : forall fs, loose_right (right_op fs) = true -> callee fs = false.
Proof. intros [|[] fs]; cbn; auto. Qed.

Lemma outer_negation_shape : forall fs e r, outer_negation fs e = Some r ->
  exists f n u x, e = ECall (EAtom (AId f)) [(n, Some (EUn u x))] /\ (f = lit "any" \/ f = lit "all") /\
    r = mk_report fs e (Some (toks (EUn UNot (ECall (EAtom (AId (if teqb f (lit "any") then lit "all" else lit "any")))
           [(None, Some x)])))).
Proof.
  intros fs e r H. unfold outer_negation in H. destruct (parent_is_bang_unary fs); [discriminate|].
  destruct e as [| | | |g args| | | | | | | |]; try discriminate.
  destruct g as [[f| | | | | | | |]| | | | | | | | | | | |]; try discriminate.
  destruct args as [|[n [v|]] [|? ?]]; try discriminate; destruct v as [| |u x| | | | | | | | | |]; try discriminate.
  destruct (teqb f (lit "all") || teqb f (lit "any")) eqn:E; try discriminate.
  assert (Hf : f = lit "any" \/ f = lit "all").
  { apply Bool.orb_true_iff in E. rewrite !teqb_eq in E. tauto. }
  exists f, n, u, x. split; [reflexivity|]. split; [exact Hf|].
  destruct x; try discriminate; injection H as <-; reflexivity.
Qed.

Lemma outer_negation_harmless : forall p e r f x,
  node_of_file p e -> outer_negation (frames p) e = Some r ->
  e = ECall f [(None, Some (EUn UNot x))] ->
  loose_right (right_op (frames p)) = true ->
  assigned (frames p) = false -> pipe_target (frames p) = false ->
  fix_both (fun I => yields I x numeric_like) p e r.
Proof.
  intros p e r f x H Hr He HR HA HP.
  destruct (outer_negation_shape _ _ _ Hr) as (g & n & u & y & E1 & Hg & E2).
  rewrite He in E1. injection E1 as -> <- <- <-. subst r.
  pose proof (node_wf _ _ H) as W. rewrite He in W. cbn [wf fold_right snd] in W.
  eapply harmless_here; [exact H|reflexivity|reflexivity|reflexivity| |].
  - apply fits_not; [reflexivity| |exact HR]. apply call1_wf; [tauto|]. cbn [ubp] in W. unfold arg_level. lia.
  - intros I HI. apply eqv_value; auto using loose_not_callee. rewrite He. apply outer_negation_ceq; auto.
Qed.
