(** Loops and assignments that are missed, or wrongly reported. *)
From Verif Require Import Spec.RFlagged Spec.RDemo Proofs.RSearchProofs Proofs.LintRefute.

Lemma index_missed : exists v q b, check_file everything_on [EFor v q b] = ROk [] /\ appears v q.
Proof.
  exists (lit "x"), (EBin BAdd false (var (lit "x")) (EAtom (ANum (lit "1")))), (var (lit "y")).
  split; [vm_compute; reflexivity|]. exists [FBinL BAdd false (EAtom (ANum (lit "1")))]. reflexivity.
Qed.
Lemma index_wrong : exists v q b r, check_file everything_on [EFor v q b] = ROk [(0, (lit "for_loop_index", r))] /\ ~ appears v q.
Proof.
  exists (lit "x"), (call (lit "f") [named (lit "x") (EAtom (ANum (lit "1")))]), (var (lit "y")). eexists.
  split; [vm_compute; reflexivity|]. intros [fs H]. destruct (rev fs) as [|f fs'] eqn:E.
  - apply (f_equal (@rev frame)) in E. rewrite rev_involutive in E. subst fs. discriminate H.
  - apply (f_equal (@rev frame)) in E. rewrite rev_involutive in E. cbn [rev] in E. subst fs. rewrite plug_snoc in H.
    destruct f; cbn [fill] in H; try discriminate H.
    + injection H as H _. destruct (plug_atom _ _ _ H) as [_ K]. discriminate K.
    + unfold call in H. injection H as _ H. match type of H with ?l ++ _ = _ => destruct l as [|a [|b l']] end; cbn in H; try discriminate H.
      injection H as _ H _. destruct (plug_atom _ _ _ H) as [_ K]. discriminate K.
Qed.
Lemma body_assignment_reported : exists c l r d,
  check_file everything_on [EIf c (EParen (EBin (BAssign (lit "<-")) false l r)) None] = ROk [(0, (lit "implicit_assignment", d))].
Proof. exists (var (lit "c")), (var (lit "x")), (EAtom (ANum (lit "1"))). eexists. vm_compute. reflexivity. Qed.
