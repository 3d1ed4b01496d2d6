(** When the text of a fix is read as one expression where it is put. *)
From Verif Require Import Spec.RGrammar Spec.RWellFormed Spec.RPosition Spec.RSemantics Spec.RFix.
From Verif Require Import Proofs.RParse Proofs.RParseSound Proofs.RContext Proofs.RCongruence.

Lemma wf_weaken : forall e i, wf i e -> wf true e.
Proof.
  induction e using expr_ind2; intros i W; cbn [wf] in *; try tauto.
  - destruct W. split; eauto.
  - destruct W as (W1 & W2 & W3 & W4 & W5 & W6). repeat split; eauto.
  - destruct W as (W1 & W2). split; eauto.
  - destruct W as (W1 & W2). split; eauto.
  - destruct W as (W1 & W2). split; eauto.
  - destruct W as ((W1 & W1') & W2 & W3). repeat split; eauto. destruct el as [d|]; auto.
    destruct W3 as [W3 W4]. split; eauto.
  - destruct W as (W1 & W2). split; eauto.
  - destruct W as (W1 & W2). split; eauto.
  - destruct W as (W1 & W2). split; eauto.
  - eauto.
Qed.

Lemma wf_unbroken : forall e i, wf true e -> breaks e = false -> wf i e.
Proof.
  induction e using expr_ind2; intros i W B; cbn [wf breaks] in *; try tauto.
  - destruct W. split; eauto.
  - apply Bool.orb_false_iff in B. destruct B as [B B3]. apply Bool.orb_false_iff in B. destruct B as [B1 B2].
    destruct W as (W1 & W2 & W3 & W4 & W5 & W6). repeat split; eauto. congruence.
  - destruct W as (W1 & W2). split; eauto.
  - destruct W as (W1 & W2). split; eauto.
  - destruct W as (W1 & W2). split; eauto.
  - apply Bool.orb_false_iff in B. destruct B as [B1 B2].
    destruct W as ((W1 & W1') & W2 & W3). repeat split; eauto. destruct el as [d|]; auto.
    destruct W3 as [W3 W4]. split; eauto.
  - destruct W as (W1 & W2). split; eauto.
  - destruct W as (W1 & W2). split; eauto.
  - destruct W as (W1 & W2). split; eauto.
  - eauto.
Qed.

Lemma wf_false_breaks : forall e, wf false e -> breaks e = false.
Proof.
  induction e using expr_ind2; intros W; cbn [wf breaks] in *; try tauto.
  - destruct W as (W1 & W2 & W3 & W4 & W5 & W6).
    rewrite IHe1, IHe2 by auto. destruct nl; auto. specialize (W6 eq_refl). discriminate.
  - destruct W as (W1 & W2 & W3). rewrite IHe2 by auto. destruct el as [d|]; auto.
    destruct W3 as [W3 W4]. rewrite H; auto.
Qed.

(** Well-formed here iff well-formed in parentheses and, outside of them,
    without a line break. *)
Lemma wf_enclosed : forall e i, wf true e -> (i = true \/ breaks e = false) -> wf i e.
Proof. intros e i W [ -> | B]; auto. apply wf_unbroken; auto. Qed.

Lemma toks_inj : forall a b, wf true a -> wf true b -> toks a = toks b -> a = b.
Proof.
  intros a b Wa Wb E.
  assert (Ra : reads (prog_toks [EParen a]) [EParen a]) by (apply wf_reads; repeat constructor; exact Wa).
  assert (Rb : reads (prog_toks [EParen b]) [EParen b]) by (apply wf_reads; repeat constructor; exact Wb).
  assert (E' : prog_toks [EParen a] = prog_toks [EParen b]).
  { unfold prog_toks. cbn [map sep toks]. rewrite E. reflexivity. }
  rewrite E' in Ra. pose proof (reads_det _ _ _ Ra Rb) as D. congruence.
Qed.

(** A call fits everywhere. *)
Lemma primary_opens : forall e, primary e = true -> opens e = false.
Proof. destruct e; cbn; congruence. Qed.
Lemma lneed_le : forall o, lneed o <= 19.
Proof. destruct o as [[o|u| ]|]; cbn; [apply rbp_lt| | |]; unfold arg_level; try lia. pose proof (ubp_lt u). lia. Qed.
Lemma lbp_le : forall o, lbp o <= 19.
Proof. destruct o; cbn; lia. Qed.
Lemma fits_primary : forall fs e, primary e = true -> wf (enclosed fs) e -> fits fs e.
Proof.
  intros fs e Hp W. split; [exact W|]. rewrite primary_lmin by auto.
  split; [pose proof (lneed_le (left_op fs)); lia|].
  destruct (right_op fs) as [[o| |]|]; cbn [rfits]; auto.
  - rewrite primary_rmin by auto. split; [pose proof (lbp_le o); lia|].
    destruct e; cbn in *; try discriminate; apply Bool.andb_false_r.
  - rewrite primary_rmin by auto. lia.
  - apply primary_opens; auto.
Qed.

Lemma call_wf : forall i n args,
  args <> [(None, None)] -> Forall (fun a : arg => owf (snd a)) args -> wf i (ECall (EAtom (AId n)) args).
Proof.
  intros i n args H1 H2. cbn [wf primary]. repeat split; auto. apply wf_args_Forall. exact H2.
Qed.
Lemma call1_wf : forall i n x, wf true x -> arg_level <= lmin x -> wf i (ECall (EAtom (AId n)) [(None, Some x)]).
Proof. intros i n x W L. apply call_wf; [discriminate|]. constructor; [split; auto|constructor]. Qed.
(** What may be followed by an operator binds tighter than it on the left. *)
Lemma rmin_lmin : forall e i k, wf i e -> k < rmin e -> k <= 100 -> k <= lmin e.
Proof.
  induction e using expr_ind2; intros i k W R K; cbn [lmin]; try exact K.
  cbn [wf rmin] in *. destruct W as (W1 & W2 & W3 & W4 & W5 & W6).
  assert (rbp o <= S (lbp o)) by (destruct o; cbn; lia).
  assert (lbp o <= lmin e1) by (apply (IHe1 i); auto; destruct o; cbn; lia). lia.
Qed.
Lemma left_operand_level : forall i o nl l r, wf i (EBin o nl l r) -> o <> BEq -> arg_level <= lmin l.
Proof.
  intros i o nl l r W Ho. cbn [wf] in W. destruct W as (W1 & _ & W3 & _).
  apply (rmin_lmin l i 4); [exact W1| |lia]. destruct o; cbn in *; try congruence; lia.
Qed.
Lemma right_operand_level : forall i o nl l r, wf i (EBin o nl l r) -> o <> BEq -> arg_level <= lmin r.
Proof.
  intros i o nl l r W Ho. cbn [wf] in W. destruct W as (_ & _ & _ & W4 & _).
  unfold arg_level. destruct o; cbn in *; try congruence; lia.
Qed.
Lemma primary_level : forall e, primary e = true -> arg_level <= lmin e.
Proof. intros e H. rewrite primary_lmin by auto. unfold arg_level. lia. Qed.

Lemma toks_call1 : forall n x, toks (ECall (EAtom (AId n)) [(None, Some x)]) = call_text n (toks x).
Proof. reflexivity. Qed.
Lemma toks_call : forall n args, toks (ECall (EAtom (AId n)) args) = call_text n (args_toks args).
Proof. reflexivity. Qed.

(** *** Room for a comparison *)
Lemma loose_left_iff : forall o, loose_left o = true <-> lneed o <= 12.
Proof.
  intros o. destruct o as [[o|u| ]|]; cbn; [| |split; [unfold arg_level; lia|reflexivity]|split; [lia|reflexivity]].
  - destruct o; cbn; split; intros; try reflexivity; try lia; discriminate.
  - destruct u; cbn; split; intros; try reflexivity; try lia; discriminate.
Qed.

Lemma swallows_rmin : forall e i, wf i e -> 13 <= lmin e -> swallows e = false -> 13 <= rmin e /\ opens e = false.
Proof.
  induction e using expr_ind2; intros i W L Sw; cbn [swallows rmin opens lmin] in *;
    try (split; [lia|reflexivity]); try discriminate.
  - cbn [wf] in W. destruct W as [W1 W2]. destruct u; cbn [ubp] in *; try discriminate.
    + destruct (IHe i W1 ltac:(lia) Sw). split; [lia|auto].
    + destruct (IHe i W1 ltac:(lia) Sw). split; [lia|auto].
  - cbn [wf] in W. destruct W as (W1 & W2 & W3 & W4 & W5 & W6).
    assert (L1 : 13 <= lbp o) by lia. assert (13 <= rbp o). { clear - L1. destruct o; cbn in *; lia. }
    destruct (IHe2 i W2 ltac:(lia) Sw). split; [lia|auto].
Qed.

Lemma loose_right_lbp : forall o, loose_right (Some (ROp o)) = true -> lbp o < 12 /\ is_cmp o = false.
Proof. destruct o; cbn; intros; try discriminate; split; (lia || reflexivity). Qed.

(** [l op r], for a comparison [op], fits where there is room for it. *)
Lemma fits_comparison : forall fs c l r,
  wf (enclosed fs) l -> wf (enclosed fs) r -> 12 < rmin l -> 13 <= lmin r -> 12 <= lmin l -> cmp_top l = false ->
  loose_left (left_op fs) = true -> loose_right (right_op fs) = true ->
  (right_op fs = None \/ swallows r = false) ->
  fits fs (EBin (BCmp c) false l r).
Proof.
  intros fs c l r Wl Wr Hl Hr Hll Hc L R S. split.
  - cbn [wf]. repeat split; auto; try lia.
  - split.
    + cbn [lmin lbp]. apply loose_left_iff in L. lia.
    + destruct (right_op fs) as [[o| |]|] eqn:E; cbn [rfits]; auto.
      * destruct S as [S|S]; [discriminate|]. destruct (swallows_rmin r _ Wr Hr S) as [S1 S2].
        apply loose_right_lbp in R. destruct R as [R1 R2]. change (rmin (EBin (BCmp c) false l r)) with (Nat.min 13 (rmin r)). split; [lia|].
        rewrite R2. reflexivity.
      * discriminate.
      * destruct S as [S|S]; [discriminate|]. cbn [opens].
        apply (swallows_rmin r _ Wr Hr S).
Qed.

(** [!e], for a call or parenthesis [e], fits where what follows is loose. *)
Lemma fits_not : forall fs e, primary e = true -> wf (enclosed fs) e ->
  (fits fs (EUn UNot e) <-> loose_right (right_op fs) = true).
Proof.
  intros fs e Hp W. unfold fits. cbn [wf lmin ubp]. rewrite primary_lmin by auto.
  pose proof (lneed_le (left_op fs)).
  destruct (right_op fs) as [[o| |]|]; cbn [rfits rmin ubp opens cmp_top];
    try rewrite (primary_rmin e Hp); rewrite ?(primary_opens e Hp).
  - rewrite Bool.andb_false_r. split.
    + intros (_ & _ & K & _). destruct o; cbn in K |- *; try reflexivity; lia.
    + intros K. apply loose_right_lbp in K. repeat split; auto; lia.
  - cbn. split; [lia|discriminate].
  - cbn. split; [reflexivity|repeat split; auto; lia].
  - cbn. split; [reflexivity|repeat split; auto; lia].
Qed.

(** *** Exactness: the edited file is read as the file with the new node just
    when the new node fits. *)
Lemma read_iff_fits : forall p e e', node_of_file p e ->
  (reads (edited p (toks e')) (file_with p e') <-> fits (frames p) e').
Proof.
  intros p e e' H. split; [apply reads_fits|]. apply reads_edited with (e := e). exact H.
Qed.
