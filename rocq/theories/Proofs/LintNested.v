(** The rules that rewrite a call on a call: any_is_na, any_duplicated and
    their kin. *)
From Verif Require Import Spec.RGrammar Spec.RWellFormed Spec.RPosition Spec.RSemantics Spec.RFix.
From Verif Require Import Proofs.TextProofs Proofs.RParse Proofs.RParseSound Proofs.RContext Proofs.RCongruence Proofs.RAlike Proofs.LintSyntax Proofs.LintFixes.

(** What get_nested_functions_content returns: the text of an argument list,
    and a node of the file, which holds these arguments. *)
Lemma nested_args : forall p e outer inner c fs' e',
  node_of_file p e ->
  get_nested_functions_content (frames p) e outer inner = Some (c, (fs', e')) ->
  edited (mk_place (before p) fs' (after p)) (toks e') = edited p (toks e) /\
  node_of_file (mk_place (before p) fs' (after p)) e' /\
  exists args, c = args_toks args /\ args <> [(None, None)] /\
    Forall (fun a : arg => owf (snd a)) args.
Proof.
  intros [b fs a] e outer inner c fs' e' H G. cbn [frames before after] in *.
  destruct e as [| | | |f args| | | | | | | |]; try discriminate. cbn [get_nested_functions_content] in G.
  destruct (negb _); [discriminate|].
  pose proof (node_wf _ _ H) as W. cbn [wf frames] in W. destruct W as (W1 & W2 & W3 & W4).
  apply wf_args_Forall in W4.
  assert (N : forall n v, find is_unnamed args = Some (n, Some v) -> wf true v /\ arg_level <= lmin v).
  { intros n v Hf. apply find_some in Hf. rewrite Forall_forall in W4. specialize (W4 _ (proj1 Hf)). exact W4. }
  destruct (nested_content args inner) as [c0|] eqn:E; [unfold nested_content in E|].
  - injection G as -> <- <-. split; [reflexivity|]. split; [exact H|].
    destruct (find is_unnamed args) as [[n [[| | | |g gargs| | | | | | | |]|]]|] eqn:Ef; try discriminate.
    destruct (teqb _ inner); [|discriminate]. injection E as <-.
    destruct (N _ _ eq_refl) as [N0 _]. cbn [wf] in N0. destruct N0 as (_ & _ & N3 & N4).
    apply wf_args_Forall in N4. eauto.
  - clear E N. destruct fs as [|f0 fs0]; [discriminate|].
    pose proof (lift_node _ _ _ _ _ H) as L. pose proof (node_wf _ _ L) as W.
    rewrite lift_text.
    destruct f0 as [ | |o nl r0|o nl l| | | | | | | | | | | | | | | | ]; try discriminate; destruct o; try discriminate.
    + destruct (teqb _ inner); [|discriminate]. injection G as <- <- <-.
      split; [reflexivity|]. split; [exact L|]. eauto.
    + cbn [fill wf] in W. destruct W as (V1 & _).
      destruct l as [| | |o' nl' l1 l2|g gargs| | | | | | | |]; try discriminate.
      * destruct o'; try discriminate. destruct l2 as [| | | |g gargs| | | | | | | |]; try discriminate.
        destruct (_ && _); [|discriminate]. injection G as <- <- <-.
        split; [reflexivity|]. split; [exact L|]. exists [(None, Some l1)].
        split; [reflexivity|]. split; [discriminate|]. constructor; [|constructor].
        cbn [snd owf]. split; [|apply (left_operand_level _ _ _ _ _ V1); discriminate].
        cbn [wf] in V1. apply wf_weaken with (i := enclosed fs0). tauto.
      * destruct (teqb _ inner); [|discriminate]. injection G as <- <- <-.
        split; [reflexivity|]. split; [exact L|].
        cbn [wf] in V1. destruct V1 as (_ & _ & V3 & V4). apply wf_args_Forall in V4. eauto.
Qed.

(** A fix that is a call on that argument list is read as that call. *)
Lemma nested_call_reads : forall p e outer inner c fs' e' n,
  node_of_file p e ->
  get_nested_functions_content (frames p) e outer inner = Some (c, (fs', e')) ->
  exists args, c = args_toks args /\
    fits fs' (ECall (EAtom (AId n)) args).
Proof.
  intros p e outer inner c fs' e' n H G.
  destruct (nested_args _ _ _ _ _ _ _ H G) as (_ & _ & args & E & A1 & A2).
  exists args. split; [exact E|]. apply fits_primary; [reflexivity|]. apply call_wf; auto.
Qed.

Lemma fname_name : forall f n, fname f = Some n -> get_function_name f = n.
Proof.
  intros f n H. destruct f as [[]| | | | | | | | | | | |]; cbn in *; try discriminate; try congruence.
  destruct (teqb _ _); congruence.
Qed.

Lemma nested_form_content : forall outer inner fs e fs' e' x,
  nested_form outer inner fs e fs' e' x ->
  get_nested_functions_content fs e outer inner = Some (toks x, (fs', e')).
Proof.
  intros outer inner fs e fs' e' x H. inversion H as [? ? ? ? Hf Hg|? ? ? ? ? Hf Hg|? ? ? ? ? ? Hf Hg]; subst;
    apply fname_name in Hf; apply fname_name in Hg; subst outer inner;
    unfold get_nested_functions_content, nested_content; cbn [find is_unnamed fst existsb negb]; rewrite !teqb_refl; cbn [negb andb]; reflexivity.
Qed.

Lemma nested_form_eval : forall I outer inner gf gg fs e fs' e' x,
  builtin1 I outer = Some gf -> builtin1 I inner = Some gg ->
  nested_form outer inner fs e fs' e' x ->
  eval I e' = strict1 I gf (strict1 I gg (eval I x)).
Proof.
  intros I outer inner gf gg fs e fs' e' x Bf Bg H.
  destruct H as [? ? ? ? Hf Hg|? ? ? ? ? Hf Hg|? ? ? ? ? ? Hf Hg];
    cbn [eval piped map fst snd]; rewrite Hf, Hg; unfold apply; rewrite Bf, Bg; reflexivity.
Qed.
Lemma nested_form_frames : forall outer inner p e fs' e' x,
  nested_form outer inner (frames p) e fs' e' x ->
  (fs' = frames p /\ e' = e) \/ (exists f, frames p = f :: fs' /\ e' = fill f e).
Proof.
  intros outer inner p e fs' e' x H. inversion H; subst; eauto.
Qed.

Lemma nested_form_text : forall outer inner p e fs' e' x,
  nested_form outer inner (frames p) e fs' e' x -> node_of_file p e ->
  edited (mk_place (before p) fs' (after p)) (toks e') = edited p (toks e) /\
  node_of_file (mk_place (before p) fs' (after p)) e'.
Proof.
  intros outer inner [b fs a] e fs' e' x H N. cbn [frames before after] in *.
  inversion H; subst; auto.
  - rewrite lift_text. split; [reflexivity|]. apply (lift_node _ _ _ _ _ N).
  - rewrite lift_text. split; [reflexivity|]. apply (lift_node _ _ _ _ _ N).
Qed.

Lemma nested_form_wf : forall outer inner fs e fs' e' x i,
  nested_form outer inner fs e fs' e' x -> wf i e' -> wf true x /\ arg_level <= lmin x.
Proof.
  intros outer inner fs e fs' e' x i HF N. inversion HF; subst; cbn [wf fold_right snd fst] in N.
  - tauto.
  - tauto.
  - destruct N as (N1 & _). split; [apply wf_weaken with (i := i); tauto|].
    apply (left_operand_level i BPipe nl' x (ECall g [])); [exact N1|discriminate].
Qed.

Lemma harmless_at : forall (P : interp -> Prop) p e r e0 e',
  node_of_file p e ->
  edited (fix_place p r) (toks e0) = edited p (toks e) ->
  node_of_file (fix_place p r) e0 ->
  at_node r = e0 -> new_text r = Some (toks e') ->
  fits (at_frames r) e' -> (forall I, P I -> eqv I (at_frames r) e0 e') ->
  fix_both P p e r.
Proof.
  intros P p e r e0 e' H E N Ae T F Q c Hc. rewrite T in Hc. injection Hc as <-. rewrite <- E. split.
  - apply harmless_edit; auto.
  - exists e'. split; [reflexivity|]. rewrite Ae. apply fits_replaceable; assumption.
Qed.

Lemma existsb_any : forall l, any3 (map Some l) = Some (existsb (fun b => b) l).
Proof.
  intros l. unfold any3.
  assert (E1 : existsb (fun x => match x with Some true => true | _ => false end) (map Some l) =
               existsb (fun b => b) l).
  { induction l as [|[] l IH]; cbn; auto. }
  assert (E2 : existsb (fun x => match x with None => true | _ => false end) (map (@Some bool) l) = false).
  { clear. induction l as [|[] l IH]; cbn; auto. }
  rewrite E1, E2. destruct (existsb _ l); reflexivity.
Qed.

Lemma any_is_na_value : forall I v, obind (visna I v) (vany I) = vanyna I v.
Proof.
  intros I v. unfold visna, vanyna. destruct (isna I v) as [l|]; [|reflexivity].
  cbn [option_map obind]. unfold vany, lgls. cbn [to_lgl option_map]. rewrite existsb_any. reflexivity.
Qed.

Lemma first_true_pos : forall l k, (0 < k) -> (0 <? first_true k l) = existsb (fun b => b) l.
Proof.
  induction l as [|[] l IH]; intros k H; cbn [first_true existsb orb].
  - reflexivity.
  - apply Nat.ltb_lt. lia.
  - apply IH. lia.
Qed.
Lemma any_duplicated_value : forall I v,
  obind (vdup I v) (vany I) =
  obind (vanydup I v) (fun w => compare I CGt w (VNum [Some (nlit I (lit "0"))])).
Proof.
  intros I v. unfold vdup, vanydup. destruct (dup I v) as [l|]; [|reflexivity].
  cbn [option_map obind]. unfold vany, lgls. cbn [to_lgl option_map]. rewrite existsb_any.
  unfold compare. cbn [to_num]. unfold recycle. cbn [length Nat.max seq map].
  change (0 mod 1) with 0. cbn [nth]. unfold ncompare. rewrite nlit_0, !nnat_num. cbn [orb].
  rewrite nnat_cmp. pose proof (first_true_pos l 1 ltac:(lia)) as F. rewrite <- F.
  destruct (first_true 1 l); reflexivity.
Qed.

Lemma any_is_na_harmless : forall p e r x fs' e',
  node_of_file p e -> any_is_na (frames p) e = Some r ->
  nested_form (lit "any") (lit "is.na") (frames p) e fs' e' x ->
  assigned fs' = false -> pipe_target fs' = false ->
  fix_both (fun _ => True) p e r.
Proof.
  intros p e r x fs' e' H Hr HF HA HP.
  unfold any_is_na in Hr. rewrite (nested_form_content _ _ _ _ _ _ _ HF) in Hr. injection Hr as <-.
  destruct (nested_form_text _ _ _ _ _ _ _ HF H) as [E N].
  destruct (nested_args _ _ _ _ _ _ _ H (nested_form_content _ _ _ _ _ _ _ HF)) as (_ & _ & args & Ea & A1 & A2).
  destruct (nested_form_wf _ _ _ _ _ _ _ _ HF (node_wf _ _ N)) as [Wx Lx].
  eapply harmless_at with (e' := ECall (EAtom (AId (lit "anyNA"))) [(None, Some x)]); eauto.
  - apply fits_primary; [reflexivity|]. apply call1_wf; auto.
  - intros I _. cbn [at_frames].
    assert (C : ceq (eval I e') (eval I (ECall (EAtom (AId (lit "anyNA"))) [(None, Some x)]))).
    { rewrite (nested_form_eval I (lit "any") (lit "is.na") (vany I) (visna I) _ _ _ _ _ eq_refl eq_refl HF).
      rewrite (eval_call1 I (lit "anyNA") (vanyna I)) by reflexivity.
      eapply ceq_trans; [apply strict_chain|]. intros s. unfold strict1, cbind.
      destruct (eval I x s) as [[v s']|]; auto. rewrite any_is_na_value. reflexivity. }
    split; [exact C|]. split; [congruence|]. split; [|congruence].
    intros Hc. inversion HF; subst; try reflexivity;
      rewrite (not_callee _ _ N eq_refl) in Hc; discriminate.
Qed.

Lemma any_duplicated_harmless : forall p e r x fs' e',
  node_of_file p e -> any_duplicated (frames p) e = Some r ->
  nested_form (lit "any") (lit "duplicated") (frames p) e fs' e' x ->
  loose_left (left_op fs') = true -> loose_right (right_op fs') = true ->
  assigned fs' = false ->
  fix_both (fun _ => True) p e r.
Proof.
  intros p e r x fs' e' H Hr HF HL HR HA.
  unfold any_duplicated in Hr. rewrite (nested_form_content _ _ _ _ _ _ _ HF) in Hr. injection Hr as <-.
  destruct (nested_form_text _ _ _ _ _ _ _ HF H) as [E N].
  destruct (nested_form_wf _ _ _ _ _ _ _ _ HF (node_wf _ _ N)) as [Wx Lx].
  eapply harmless_at with (e' := EBin (BCmp CGt) false (ECall (EAtom (AId (lit "anyDuplicated"))) [(None, Some x)])
                                      (EAtom (ANum (lit "0")))); eauto.
  - apply fits_comparison; cbn [at_frames]; auto; try (cbn; lia).
    apply call1_wf; auto.
  - intros I _. cbn [at_frames].
    assert (C : ceq (eval I e') (eval I (EBin (BCmp CGt) false (ECall (EAtom (AId (lit "anyDuplicated"))) [(None, Some x)])
                                      (EAtom (ANum (lit "0")))))).
    { rewrite (nested_form_eval I (lit "any") (lit "duplicated") (vany I) (vdup I) _ _ _ _ _ eq_refl eq_refl HF).
      eapply ceq_trans; [apply strict_chain|].
      change (eval I (EBin (BCmp CGt) false ?a ?b)) with (strict2 I (compare I CGt) (eval I a) (eval I b)).
      rewrite (eval_call1 I (lit "anyDuplicated") (vanydup I)) by reflexivity.
      intros s. unfold strict1, strict2, cbind.
      destruct (eval I x s) as [[v s']|]; auto. rewrite any_duplicated_value.
      destruct (vanydup I v) as [w|]; auto. }
    split; [exact C|]. split; [congruence|]. split.
    + intros Hc. rewrite loose_not_callee in Hc by auto. discriminate.
    + intros Hp. destruct fs' as [|[] fs'']; cbn in Hp; try discriminate. destruct o; discriminate.
Qed.
