(** coalesce, true_false_symbol, and the rules whose fix is a call. *)
From Verif Require Import Spec.RGrammar Spec.RWellFormed Spec.RPosition Spec.RSemantics Spec.RFix.
From Verif Require Import Proofs.TextProofs Proofs.RParse Proofs.RParseSound Proofs.RContext Proofs.RCongruence Proofs.RAlike Proofs.InPlace Proofs.LintSyntax Proofs.LintFixes Proofs.LintNested.

(** ** coalesce *)
Lemma same_text_eq : forall a b, same_text a b = true <-> a = b.
Proof. intros. unfold same_text. destruct (list_eq_dec tok_eq_dec a b); split; congruence. Qed.

Lemma one_of_single : forall e x, one_of e x -> primary x = true -> (forall y, x <> EBraces [y]) -> single_expression e = x.
Proof.
  intros e x [ -> | -> ] P N; [|reflexivity].
  destruct x as [| | | | | | | | | | | |es]; try reflexivity. destruct es as [|y [|? ?]]; try reflexivity.
  exfalso. eapply N; reflexivity.
Qed.
Lemma one_of_eval : forall I e x, one_of e x -> eval I e = eval I x.
Proof. intros I e x [ -> | -> ]; reflexivity. Qed.
Lemma single_eval : forall I e, eval I (single_expression e) = eval I e.
Proof. intros I e. destruct e as [| | | | | | | | | | | |es]; try reflexivity. destruct es as [|y [|? ?]]; reflexivity. Qed.

Lemma coalesce_ceq : forall I e x y nl, null_default e x y -> pure I x ->
  ceq (eval I e) (eval I (EBin (BSpecial (lit "%||%")) nl x y)).
Proof.
  intros I e x y nl H Hp s.
  change (eval I (EBin (BSpecial (lit "%||%")) nl x y)) with
    (cbind I (eval I x) (fun v => match v with VNull => eval I y | _ => cret I v end)).
  assert (N : forall f, fname f = Some (lit "is.null") ->
            eval I (ECall f [(None, Some x)]) = strict1 I (visnull I) (eval I x)).
  { intros f Hf. cbn [eval map fst snd]. rewrite Hf. reflexivity. }
  inversion H as [f ? ? x' y' Hf Hx Hy|f ? ? x' y' Hf Hx Hy]; subst.
  - change (eval I (EIf ?c ?t (Some ?d))) with (if_sem I (eval I c) (eval I t) (Some (eval I d))).
    rewrite N, (one_of_eval _ _ _ Hx), (one_of_eval _ _ _ Hy) by auto.
    unfold if_sem, strict1, cbind. destruct (eval I x s) as [[v s']|] eqn:E; [|reflexivity].
    pose proof (Hp _ _ _ E) as ->.
    destruct v; cbn [visnull clift lgls map]; unfold cret, cond; cbn [to_lgl]; try exact E; reflexivity.
  - change (eval I (EIf (EUn UNot ?c) ?t (Some ?d))) with
      (if_sem I (strict1 I (vnot I) (eval I c)) (eval I t) (Some (eval I d))).
    rewrite N, (one_of_eval _ _ _ Hx), (one_of_eval _ _ _ Hy) by auto.
    unfold if_sem, strict1, cbind. destruct (eval I x s) as [[v s']|] eqn:E; [|reflexivity].
    pose proof (Hp _ _ _ E) as ->.
    destruct v; cbn [visnull clift lgls map vnot option_map negb]; unfold cret, cond, clift, cret; cbn [to_lgl]; try exact E; reflexivity.
Qed.

Lemma special_room : forall o, looser_than_special o = true <-> lneed o <= 15.
Proof.
  intros o. destruct o as [[o|u| ]|]; cbn; [| |split; [unfold arg_level; lia|reflexivity]|split; [lia|reflexivity]].
  - destruct o; cbn; split; intros; try reflexivity; try lia; discriminate.
  - destruct u; cbn; split; intros; try reflexivity; try lia; discriminate.
Qed.

Lemma coalesce_text : forall fs e r x y, coalesce fs e = Some r -> null_default e x y ->
  at_frames r = fs /\ forall c, new_text r = Some c ->
  exists y', (y' = y \/ y = EBraces [y']) /\
    c = toks (EBin (BSpecial (lit "%||%")) false x y').
Proof.
  intros fs e r x y Hr H.
  inversion H as [f ? ? x' y' Hf Hx Hy|f ? ? x' y' Hf Hx Hy]; subst; apply fname_name in Hf;
    cbn [coalesce] in Hr; rewrite Hf, teqb_refl in Hr; cbn [given_values flat_map snd app] in Hr;
    destruct (same_text _ _); try discriminate; injection Hr as <-; (split; [reflexivity|]);
    intros c Hc; cbn [new_text] in Hc; destruct (_ || _); try discriminate; injection Hc as <-;
    exists (single_expression y'); (split; [|reflexivity]);
    destruct Hy as [ -> | -> ]; cbn [single_expression]; auto;
    destruct y as [| | | | | | | | | | | |es]; auto; destruct es as [|z [|? ?]]; auto.
Qed.

Lemma coalesce_harmless : forall p e r x y,
  node_of_file p e -> coalesce (frames p) e = Some r -> null_default e x y ->
  primary x = true -> primary y = true -> (forall z, y <> EBraces [z]) ->
  looser_than_special (left_op (frames p)) = true ->
  enclosed (frames p) = true \/ breaks x = false /\ breaks y = false ->
  fix_both (fun I => pure I x) p e r.
Proof.
  intros p e r x y H Hr HN Px Py Nb HL HB c Hc.
  destruct (coalesce_text _ _ _ _ _ Hr HN) as [A T].
  destruct (T _ Hc) as (y' & Hy & ->).
  assert (y' = y) as -> by (destruct Hy as [ -> | -> ]; [reflexivity|exfalso; eapply Nb; reflexivity]).
  assert (W : wf true x /\ wf true y /\ opens e = opens e /\ primary e = false /\ rmin e = 0).
  { pose proof (node_wf _ _ H) as W.
    inversion HN as [f ? ? x' z' Hf Hx Hz|f ? ? x' z' Hf Hx Hz]; subst; cbn [wf fold_right snd] in W.
    - destruct W as (((_ & _ & _ & (W1 & _) & _) & _) & W2 & W3 & W4). repeat split; auto.
      destruct Hz as [ -> | -> ]; [apply wf_weaken with (i := enclosed (frames p)); auto|].
      cbn [wf fold_right] in W2. apply wf_weaken with (i := false). tauto.
    - destruct W as ((((_ & _ & _ & (W1 & _) & _) & _) & _) & W2 & W3 & W4). repeat split; auto.
      destruct Hz as [ -> | -> ]; [apply wf_weaken with (i := enclosed (frames p)); auto|].
      cbn [wf fold_right] in W4. apply wf_weaken with (i := false). tauto. }
  destruct W as (Wx & Wy & _ & Pe & Re).
  pose proof (reads_fits _ _ H) as (_ & FL & FR).
  assert (FR' : right_op (frames p) = None \/ right_op (frames p) = Some RElse).
  { destruct (right_op (frames p)) as [[o| |]|]; auto; cbn [rfits] in FR; rewrite Re in FR; lia. }
  refine (harmless_here _ p e r (EBin (BSpecial (lit "%||%")) false x y) H A (at_same _ _ _ (place_coalesce _ _ _ Hr) A) _ _ _ _ Hc).
  - exact Hc.
  - split; [|split].
    + cbn [wf]. split; [apply wf_enclosed; tauto|]. split; [apply wf_enclosed; tauto|].
      rewrite (primary_rmin x Px), (primary_lmin y Py). cbn [lbp rbp is_cmp]. repeat split; try lia.
    + cbn [lmin lbp]. rewrite (primary_lmin x Px). apply special_room in HL. lia.
    + destruct FR' as [ -> | -> ]; cbn [rfits]; auto. cbn [opens]. apply primary_opens. exact Py.
  - intros I HI. split; [apply coalesce_ceq; auto|].
    split; [intros _ op v; inversion HN; subst; cbn [assign]; apply ceq_refl|].
    split; [intros Hcal; rewrite (not_callee _ _ H Pe) in Hcal; discriminate|].
    intros _ cc. inversion HN; subst; cbn [piped]; apply ceq_refl.
Qed.

(** ** true_false_symbol *)
Lemma true_false_harmless : forall p e r,
  node_of_file p e -> true_false_symbol (frames p) e = Some r ->
  assigned (frames p) = false ->
  fix_both (fun I => ceq (eval I (EAtom (AId (lit "T")))) (eval I (EAtom ATrue)) /\
                         ceq (eval I (EAtom (AId (lit "F")))) (eval I (EAtom AFalse))) p e r.
Proof.
  intros p e r H Hr HA. unfold true_false_symbol in Hr.
  destruct e as [[x| | | | | | | |]| | | | | | | | | | | |]; try discriminate.
  destruct (teqb x (lit "T") || teqb x (lit "F")) eqn:E; [|discriminate].
  assert (Hr' : callee (frames p) = false /\ r = mk_report (frames p) (EAtom (AId x)) (Some [TAtom (if teqb x (lit "T") then ATrue else AFalse)])).
  { clear - Hr. destruct (frames p) as [|[] fs]; cbn [callee]; try discriminate; try (injection Hr as <-; auto; fail).
    - destruct o; try discriminate; injection Hr as <-; auto.
    - destruct o; try discriminate; injection Hr as <-; auto. }
  destruct Hr' as [HC ->].
  eapply harmless_here with (e' := EAtom (if teqb x (lit "T") then ATrue else AFalse)); [exact H|reflexivity|reflexivity|reflexivity| |].
  - apply fits_primary; [reflexivity|exact Logic.I].
  - intros I [HT HF]. split.
    + apply Bool.orb_true_iff in E. rewrite !teqb_eq in E. destruct E as [ -> | -> ].
      * rewrite teqb_refl. exact HT.
      * change (teqb (lit "F") (lit "T")) with false. exact HF.
    + split; [congruence|]. split; [congruence|]. intros _ c. cbn [piped]. apply ceq_refl.
Qed.

Lemma several_iff e : has_multiple_expressions e = true <-> exists a b l, e = EBraces (a :: b :: l).
Proof.
  split.
  - destruct e; try discriminate. match goal with |- context [EBraces ?q] => destruct q as [|a [|b l]] end; try discriminate. eauto.
  - intros (a & b & l & ->). reflexivity.
Qed.
Lemma coalesce_statements : forall fs c t el r,
  coalesce fs (EIf c t (Some el)) = Some r ->
  (new_text r = None <-> exists a b l, t = EBraces (a :: b :: l) \/ el = EBraces (a :: b :: l)).
Proof.
  intros fs c t el r H.
  assert (Q : exists w, r = mk_report fs (EIf c t (Some el)) (if has_multiple_expressions t || has_multiple_expressions el then None else Some w)).
  { unfold coalesce in H. destruct c; try discriminate.
    - destruct u; try discriminate. destruct c; try discriminate. destruct (teqb _ _); try discriminate.
      destruct (given_values _) as [|x [|]]; try discriminate. destruct (same_text _ _); try discriminate.
      eexists. injection H as <-; reflexivity.
    - destruct (teqb _ _); try discriminate.
      destruct (given_values _) as [|x [|]]; try discriminate. destruct (same_text _ _); try discriminate.
      eexists. injection H as <-; reflexivity. }
  destruct Q as (w & ->). cbn [new_text].
  destruct (has_multiple_expressions t) eqn:T; [|destruct (has_multiple_expressions el) eqn:E]; cbn [orb].
  - apply several_iff in T as (a & b & l & ->). split; auto. intros _. exists a, b, l. now left.
  - apply several_iff in E as (a & b & l & ->). split; auto. intros _. exists a, b, l. now right.
  - split; [discriminate|]. intros (a & b & l & [-> | ->]); [|]; [cbn in T|cbn in E]; discriminate.
Qed.
