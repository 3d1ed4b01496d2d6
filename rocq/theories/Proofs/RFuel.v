(** The parser with [2 * length ts + 2] steps never runs out. *)
From Verif Require Import Spec.RLex Proofs.RParse.

Definition within {A} (k : nat) (x : pres A) : Prop :=
  match x with POut => False | PErr => True | POk _ r => length r <= k end.

Lemma within_bind : forall {A B} k k' (x : pres A) (f : A -> list tok -> pres B),
  within k' x -> (forall a r, length r <= k' -> within k (f a r)) -> within k (pbind x f).
Proof. intros A B k k' [| |a r] f Hx Hf; cbn in *; auto. Qed.
Lemma within_le : forall {A} k k' (x : pres A), within k x -> k <= k' -> within k' x.
Proof. intros A k k' [| |a r] Hx Hk; cbn in *; auto; lia. Qed.

Definition enough_at (n : nat) : Prop :=
  (forall i m ts, 2 * length ts + 1 <= n -> within (length ts - 1) (pexp n i m ts)) /\
  (forall i m l ts, 2 * length ts + 1 <= n -> within (length ts) (ploop n i m l ts)) /\
  (forall ts, 2 * length ts + 2 <= n -> within (length ts) (pargs n ts)) /\
  (forall ts, 2 * length ts + 2 <= n -> within (length ts - 1) (pparams n ts)) /\
  (forall ts, 2 * length ts + 2 <= n -> within (length ts - 1) (pseq n ts)).

Lemma next_op_shorter : forall i ts o nl r, next_op i ts = Some (o, nl, r) -> S (length r) <= length ts.
Proof.
  intros i ts o nl r E. unfold next_op in E.
  destruct ts as [|[] ts]; try discriminate; try (injection E as <- <- <-; cbn; lia).
  destruct ts as [|[] ts]; try discriminate. destruct i; [|discriminate]. injection E as <- <- <-. cbn. lia.
Qed.

Ltac fuel_step H1 H2 H3 H4 H5 :=
  repeat match goal with
  | |- within _ PErr => exact Logic.I
  | |- within _ (POk _ _) => cbn [within length] in *; lia
  | |- within _ (pbind (pexp _ _ _ _) _) =>
      eapply within_bind; [apply H1; cbn [length] in *; lia | let H := fresh "L" in intros ? ? H; cbn [length] in H]
  | |- within _ (pbind (pargs _ _) _) =>
      eapply within_bind; [apply H3; cbn [length] in *; lia | let H := fresh "L" in intros ? ? H; cbn [length] in H]
  | |- within _ (pbind (pparams _ _) _) =>
      eapply within_bind; [apply H4; cbn [length] in *; lia | let H := fresh "L" in intros ? ? H; cbn [length] in H]
  | |- within _ (pbind (pseq _ _) _) =>
      eapply within_bind; [apply H5; cbn [length] in *; lia | let H := fresh "L" in intros ? ? H; cbn [length] in H]
  | |- within _ (ploop _ _ _ _ _) => eapply within_le; [apply H2; cbn [length] in *; lia | cbn [length] in *; lia]
  | |- within _ (match ?x with _ => _ end) => is_var x; destruct x; cbn [length] in *
  | |- within _ (if ?x then _ else _) => destruct x
  end.

Lemma enough : forall n, enough_at n.
Proof.
  induction n as [|n IH].
  - repeat split; intros; lia.
  - destruct IH as (H1 & H2 & H3 & H4 & H5).
    repeat split; intros *; intros Hn; cbn [pexp ploop pargs pparams pseq].
    + fuel_step H1 H2 H3 H4 H5.
    + destruct (next_op i ts) as [[[o nl] r]|] eqn:E.
      * apply next_op_shorter in E. fuel_step H1 H2 H3 H4 H5.
      * fuel_step H1 H2 H3 H4 H5.
    + set (p := match ts with TAtom (AId x) :: TEq :: r => (Some x, r) | _ => (None, ts) end).
      assert (Hp : length (snd p) <= length ts).
      { subst p. destruct ts as [|[[]| |[]| | | | | | | | | | | | | | | |] [|[[]| |[]| | | | | | | | | | | | | | | |] ts]];
          cbn; lia. }
      destruct p as [nm us]. cbn [snd] in Hp.
      apply (within_bind _ (length us)).
      * destruct us as [|[] us]; try (cbn [within]; lia);
          try (apply (within_bind _ (length us)); [eapply within_le; [apply H1; cbn [length] in *; lia | cbn [length] in *; lia] | intros; cbn [within length] in *; lia]).
        apply (within_bind _ 0); [eapply within_le; [apply H1; cbn [length] in *; lia | cbn [length] in *; lia] | intros; cbn [within length] in *; lia].
      * intros v r Hr. fuel_step H1 H2 H3 H4 H5.
    + destruct ts as [|[[]| |[]| | | | | | | | | | | | | | | |] ts]; try exact Logic.I.
      cbn [length] in *. apply (within_bind _ (length ts)).
      * destruct ts as [|[| |[]| | | | | | | | | | | | | | | |] ts]; try (cbn [within]; lia).
        apply (within_bind _ (length ts)); [eapply within_le; [apply H1; cbn [length] in *; lia | cbn [length] in *; lia] | intros; cbn [within length] in *; lia].
      * intros v r Hr. fuel_step H1 H2 H3 H4 H5.
    + fuel_step H1 H2 H3 H4 H5.
Qed.

Lemma parse_reads : forall ts p, parse ts = Some p <-> reads ts p.
Proof.
  intros ts p. unfold parse, reads. split.
  - intros E. exists (2 * length ts + 2). destruct (pprog _ ts) as [| |q [|]]; try discriminate.
    injection E as <-. reflexivity.
  - intros [n E].
    assert (W : pprog (2 * length ts + 2) ts <> POut).
    { unfold pprog. destruct ts as [|k ts]; [discriminate|].
      destruct (enough (2 * length (k :: ts) + 2)) as (_ & _ & _ & _ & H5).
      specialize (H5 (k :: ts) (le_n _)). destruct (pseq _ _) as [| |q [|]]; cbn in *; try discriminate. contradiction. }
    destruct (Nat.le_ge_cases n (2 * length ts + 2)) as [L|L].
    + rewrite (pprog_mono n _ ts L) by (rewrite E; discriminate). rewrite E. reflexivity.
    + rewrite <- (pprog_mono _ _ ts L W). rewrite E. reflexivity.
Qed.
Lemma parse_error : forall ts, parse ts = None <-> syntax_error ts.
Proof.
  intros ts. split.
  - intros E. exists (2 * length ts + 2). unfold parse in E.
    assert (W : pprog (2 * length ts + 2) ts <> POut /\ forall q r, pprog (2 * length ts + 2) ts = POk q r -> r = []).
    { unfold pprog. destruct ts as [|k ts]; [split; [discriminate|intros q r E'; injection E' as <- <-; reflexivity]|].
      destruct (enough (2 * length (k :: ts) + 2)) as (_ & _ & _ & _ & H5).
      specialize (H5 (k :: ts) (le_n _)). destruct (pseq _ _) as [| |q [|]]; cbn in *; try contradiction;
      split; try discriminate. intros q' r E'; injection E' as <- <-; reflexivity. }
    destruct W as [W1 W2]. destruct (pprog _ ts) as [| |q r] eqn:P; [congruence|reflexivity|].
    rewrite (W2 q r eq_refl) in *. discriminate.
  - intros H. destruct (parse ts) as [p|] eqn:E; [|reflexivity]. apply parse_reads in E.
    exfalso. eapply reads_no_error; eauto.
Qed.
