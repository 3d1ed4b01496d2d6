(** The statement that a message is about exists (C41). *)
From Verif Require Import Model.Text Model.Base Model.Cfg Spec.CfgSpec Proofs.TextProofs
  Proofs.CfgGraph Proofs.CfgSem Proofs.CfgBuild Proofs.CfgReach Proofs.RulesProofs.
Import ListNotations.

Section Reason.
Variable stopping : list text.
Definition tcause (t : term) (d : stmt) : Prop :=
  match t with
  | TReturn => cause stopping AfterReturn d
  | TStop => cause stopping AfterStop d
  | TBreak => cause stopping AfterBreak d
  | TNext => cause stopping AfterNext d
  | TBranch => cause stopping AfterBranchTerminating d
  | _ => True
  end.
Definition adds (P : term -> Prop) (g g' : graph) : Prop :=
  forall i, b_term (blk g' i) = b_term (blk g i) \/ P (b_term (blk g' i)).
Lemma adds_refl P g : adds P g g. Proof. intros i. now left. Qed.
Lemma adds_trans P a b c : adds P a b -> adds P b c -> adds P a c.
Proof. intros H K i. destruct (K i) as [->|]; auto. Qed.
Lemma adds_weaken (P Q : term -> Prop) g g' : (forall t, P t -> Q t) -> adds P g g' -> adds Q g g'.
Proof. intros H K i. destruct (K i); auto. Qed.
Lemma adds_term (P : term -> Prop) g i t : P t -> adds P g (upd g i (set_term t)).
Proof. intros H j. destruct (upd_cases g i (set_term t) j) as [(-> & _ & ->)| ->]; auto. Qed.
Lemma adds_upd P g i f : (forall b, b_term (f b) = b_term b) -> adds P g (upd g i f).
Proof. intros H j. left. destruct (upd_cases g i f j) as [(-> & _ & ->)| ->]; auto. Qed.
Lemma adds_new P g n : adds P g (new_blocks g n).
Proof. intros j. left. now rewrite blk_new_blocks. Qed.
Lemma adds_edge P g i j : adds P g (add_edge g i j).
Proof. intros k. left. apply add_edge_term. Qed.
Lemma adds_all P l : forall g i, adds P g (add_all g i l).
Proof.
  induction l as [|s l IH]; intros g i; [apply adds_refl|].
  change (add_all g i (s :: l)) with (add_all (add_statement g i s) i l).
  eapply adds_trans; [|apply IH]. now apply adds_upd.
Qed.

Definition within (s : stmt) (t : term) : Prop := exists d, descendant s d /\ tcause t d.
Definition single (s : stmt) : Prop := forall body g cur ls g' out,
  build stopping body s g cur ls = (g', out) -> adds (within s) g g'.

Lemma within_child s c t : In c (children s) -> within c t -> within s t.
Proof. intros H (d & D & K). exists d. split; auto. eapply desc_child; eauto. Qed.
Lemma within_goto s : within s TGoto. Proof. exists s. split; [constructor|exact Logic.I]. Qed.
Lemma within_loop s : within s TLoop. Proof. exists s. split; [constructor|exact Logic.I]. Qed.
Lemma within_self s t : tcause t s -> within s t. Proof. intros H. exists s. split; [constructor|auto]. Qed.

Lemma list_adds (P : term -> Prop) (bs : stmt -> graph -> nat -> graph * nat) l :
  (forall s g c g' o, In s l -> bs s g c = (g', o) -> adds P g g') ->
  forall g cur g' out, build_list bs l g cur = (g', out) -> adds P g g'.
Proof.
  induction l as [|s l IH]; intros H g cur g' out E; cbn [build_list] in E.
  - injection E as <- <-. apply adds_refl.
  - destruct (bs s g cur) as [g1 c1] eqn:E1. pose proof (H s g cur g1 c1 (or_introl eq_refl) E1) as A1.
    destruct l as [|s2 l].
    + injection E as <- <-. exact A1.
    + destruct (terminated (b_term (blk g1 c1))).
      * injection E as <- _. eapply adds_trans; [exact A1|]. eapply adds_trans; [|apply (adds_all P (s2 :: l))].
        eapply adds_trans; [apply adds_new|now apply adds_upd].
      * eapply adds_trans; [exact A1|]. eapply IH; [|exact E]. intros. eapply H; eauto. now right.
Qed.

Lemma join_adds s g a b : adds (within s) g (join_branch g a b).
Proof.
  unfold join_branch. destruct (_ && _); [|apply adds_refl].
  eapply adds_trans; [apply adds_term, within_goto|apply adds_edge].
Qed.
Lemma back_adds s g a b : adds (within s) g (loop_back g a b).
Proof.
  unfold loop_back. destruct (negb _); [|apply adds_refl].
  eapply adds_trans; [apply adds_term, within_goto|apply adds_edge].
Qed.
Lemma branch_adds s r c t e g cv cur th el : s = If r c t e -> adds (within s) g (branch_edges g cv cur th el).
Proof.
  intros ->. unfold branch_edges.
  assert (A : adds (within (If r c t e)) g (upd g cur (set_term TBranch))) by (apply adds_term, within_self; constructor).
  eapply adds_trans; [exact A|]. destruct cv as [[]|].
  - eapply adds_trans; [apply adds_edge|now apply adds_upd].
  - eapply adds_trans; [apply adds_edge|now apply adds_upd].
  - eapply adds_trans; apply adds_edge.
Qed.
Lemma jump_adds s g cur (ls : loops) t (target : nat -> nat -> nat) : within s t -> adds (within s) g (match ls with [] => g | (h, a) :: _ => add_edge (upd g cur (set_term t)) cur (target h a) end : graph).
Proof.
  intros H. destruct ls as [|[h a] ls]; [apply adds_refl|].
  eapply adds_trans; [apply adds_term; exact H|apply adds_edge].
Qed.
Lemma break_adds s g cur ls : within s TBreak -> adds (within s) g (build_break g cur ls).
Proof. intros H. exact (jump_adds s g cur ls TBreak (fun h a : nat => a) H). Qed.
Lemma next_adds s g cur ls : within s TNext -> adds (within s) g (build_next g cur ls).
Proof. intros H. exact (jump_adds s g cur ls TNext (fun h a : nat => h) H). Qed.

Lemma classify_cause r f :
  match classify stopping f with
  | KReturn => within (Call r f) TReturn
  | KBreak => within (Call r f) TBreak
  | KNext => within (Call r f) TNext
  | KStop => within (Call r f) TStop
  | KOther => True
  end.
Proof.
  pose proof (fun_name_unqualified f) as U. unfold classify.
  destruct (teqb (fun_name f) (lit "return")) eqn:E1; [|destruct (teqb (fun_name f) (lit "break")) eqn:E2; [|destruct (teqb (fun_name f) (lit "next")) eqn:E3; [|destruct (mem (fun_name f) stopping) eqn:E4; auto]]].
  - apply teqb_eq in E1. rewrite E1 in U. apply within_self. now constructor.
  - apply teqb_eq in E2. rewrite E2 in U. apply within_self. now constructor.
  - apply teqb_eq in E3. rewrite E3 in U. apply within_self. now constructor.
  - apply mem_iff in E4. apply within_self. econstructor; eauto.
Qed.

Lemma build_adds s : single s.
Proof.
  induction s as [r|r f|r|r|r|r l IHl|r c t e IHt IHe|r b IHb|r c b IHb|r b IHb] using stmt_ind';
    intros body g cur ls g' out E.
  - destruct body; cbn [build] in E; (destruct (negb (has_incoming g cur)); injection E as <- _; now apply adds_upd).
  - pose proof (classify_cause r f) as K.
    destruct body; cbn [build] in E; (destruct (negb (has_incoming g cur)); [injection E as <- _; now apply adds_upd|];
      destruct (classify stopping f); injection E as <- _;
      [apply adds_term; auto|apply break_adds; auto|apply next_adds; auto|apply adds_term; auto|now apply adds_upd]).
  - destruct body; cbn [build] in E; (destruct (negb (has_incoming g cur)); [injection E as <- _; now apply adds_upd|];
      injection E as <- _; apply break_adds; apply within_self; constructor).
  - destruct body; cbn [build] in E; (destruct (negb (has_incoming g cur)); [injection E as <- _; now apply adds_upd|];
      injection E as <- _; apply next_adds; apply within_self; constructor).
  - destruct body; cbn [build] in E; (destruct (negb (has_incoming g cur)); [injection E as <- _; now apply adds_upd|];
      injection E as <- _; apply adds_term; apply within_self; constructor).
  - destruct body; cbn [build] in E.
    + eapply list_adds; [|exact E]. intros s g1 c1 g2 o Hs E1.
      eapply adds_weaken; [|eapply (proj1 (Forall_forall _ _) IHl s Hs); exact E1].
      intros t. now apply within_child.
    + destruct (negb (has_incoming g cur)); injection E as <- _; now apply adds_upd.
  - assert (X : (if negb (has_incoming g cur) then (add_statement g cur (If r c t e), cur) else
       build stopping false (If r c t e) g cur ls) = (g', out)).
    { destruct body; cbn [build] in E |- *; destruct (negb (has_incoming g cur)); exact E. }
    clear E. destruct (negb (has_incoming g cur)) eqn:N; [injection X as <- _; now apply adds_upd|].
    cbn [build] in X. rewrite N in X. cbv zeta in X.
    set (g0 := branch_edges (new_blocks g 3) (const_cond c) cur (length g) (S (length g))) in X.
    assert (A0 : adds (within (If r c t e)) g g0).
    { eapply adds_trans; [apply adds_new|]. eapply branch_adds. reflexivity. }
    match type of X with (mark_after ?y _ _, _) = _ => set (g2 := y) in X end.
    assert (A2 : adds (within (If r c t e)) g g2).
    { unfold g2. clear X g2.
      match goal with |- adds _ _ (match e with Some e => if _ then upd ?y _ _ else _ | None => _ end) => set (g1 := y) end.
      assert (A1 : adds (within (If r c t e)) g g1).
      { unfold g1. clear g1. destruct (is_false (const_cond c)).
        - eapply adds_trans; [exact A0|now apply adds_upd].
        - destruct (build stopping true t g0 (length g) ls) as [ga ea] eqn:Eb.
          eapply adds_trans; [exact A0|]. eapply adds_trans; [|apply join_adds].
          eapply adds_weaken; [|eapply IHt; exact Eb]. intros x. apply within_child. cbn. destruct e; now left. }
      clearbody g1. destruct e as [e|].
      - destruct (is_true (const_cond c)).
        + eapply adds_trans; [exact A1|now apply adds_upd].
        + destruct (build stopping true e g1 (S (length g)) ls) as [ga ea] eqn:Eb.
          eapply adds_trans; [exact A1|]. eapply adds_trans; [|apply join_adds].
          eapply adds_weaken; [|eapply (IHe e eq_refl); exact Eb]. intros x. apply within_child. cbn. right. now left.
      - eapply adds_trans; [exact A1|]. eapply adds_trans; [apply adds_term, within_goto|apply adds_edge]. }
    injection X as <- _. eapply adds_trans; [exact A2|]. unfold mark_after.
    destruct (has_incoming g2 _); [apply adds_refl|now apply adds_upd].
  - assert (X : (if negb (has_incoming g cur) then (add_statement g cur (For r b), cur) else
       build stopping false (For r b) g cur ls) = (g', out)).
    { destruct body; cbn [build] in E |- *; destruct (negb (has_incoming g cur)); exact E. }
    clear E. destruct (negb (has_incoming g cur)) eqn:N; [injection X as <- _; now apply adds_upd|].
    cbn [build] in X. rewrite N in X. cbv zeta in X.
    match type of X with context [build stopping true b ?x ?y ?z] =>
      assert (A0 : adds (within (For r b)) g x);
      [|destruct (build stopping true b x y z) as [ga ea] eqn:Eb in X] end.
    { eapply adds_trans; [|apply adds_edge]. eapply adds_trans; [|apply adds_edge].
      eapply adds_trans; [|apply adds_term, within_loop]. eapply adds_trans; [|apply adds_edge].
      eapply adds_trans; [apply adds_new|]. apply adds_term, within_goto. }
    injection X as <- _. eapply adds_trans; [exact A0|]. eapply adds_trans; [|apply back_adds].
    eapply adds_weaken; [|eapply IHb; exact Eb]. intros x. apply within_child. now left.
  - assert (X : (if negb (has_incoming g cur) then (add_statement g cur (While r c b), cur) else
       build stopping false (While r c b) g cur ls) = (g', out)).
    { destruct body; cbn [build] in E |- *; destruct (negb (has_incoming g cur)); exact E. }
    clear E. destruct (negb (has_incoming g cur)) eqn:N; [injection X as <- _; now apply adds_upd|].
    cbn [build] in X. rewrite N in X. cbv zeta in X.
    match type of X with context [build stopping true b ?x ?y ?z] =>
      assert (A0 : adds (within (While r c b)) g x);
      [|destruct (build stopping true b x y z) as [ga ea] eqn:Eb in X] end.
    { eapply adds_trans; [|apply adds_edge]. eapply adds_trans; [|apply adds_edge].
      eapply adds_trans; [|apply adds_term, within_loop]. eapply adds_trans; [|apply adds_edge].
      eapply adds_trans; [apply adds_new|]. apply adds_term, within_goto. }
    injection X as <- _. eapply adds_trans; [exact A0|]. eapply adds_trans; [|apply back_adds].
    eapply adds_weaken; [|eapply IHb; exact Eb]. intros x. apply within_child. now left.
  - assert (X : (if negb (has_incoming g cur) then (add_statement g cur (Repeat r b), cur) else
       build stopping false (Repeat r b) g cur ls) = (g', out)).
    { destruct body; cbn [build] in E |- *; destruct (negb (has_incoming g cur)); exact E. }
    clear E. destruct (negb (has_incoming g cur)) eqn:N; [injection X as <- _; now apply adds_upd|].
    cbn [build] in X. rewrite N in X. cbv zeta in X.
    match type of X with context [build stopping true b ?x ?y ?z] =>
      assert (A0 : adds (within (Repeat r b)) g x);
      [|destruct (build stopping true b x y z) as [ga ea] eqn:Eb in X] end.
    { eapply adds_trans; [|apply adds_edge]. eapply adds_trans; [|apply adds_edge].
      eapply adds_trans; [apply adds_new|]. apply adds_term, within_goto. }
    injection X as <- _. eapply adds_trans; [exact A0|]. eapply adds_trans; [|apply back_adds].
    eapply adds_weaken; [|eapply IHb; exact Eb]. intros x. apply within_child. now left.
Qed.

Lemma new_graph_term i : b_term (blk new_graph i) = TNone.
Proof. destruct i as [|[|i]]; auto. cbn. now destruct i. Qed.

Lemma find_map_some {A B} (f : A -> option B) l y : find_map f l = Some y -> exists x, In x l /\ f x = Some y.
Proof.
  induction l as [|x l IH]; cbn; [discriminate|]. destruct (f x) eqn:E.
  - intros [= <-]. eauto.
  - intros H. destruct (IH H) as (z & ? & ?). eauto.
Qed.

Lemma branch_reason_only g i r : branch_reason g i = Some r -> r = AfterBranchTerminating.
Proof.
  unfold branch_reason. destruct (negb _); [discriminate|]. destruct (b_succ (blk g i)) as [|n l]; [discriminate|].
  destruct (fold_left _ _ _) as [[[? ?] ?] ?]. destruct (_ && _); [now intros [= <-]|discriminate].
Qed.
Lemma reason_term g i : about_statement (unreachable_reason g i) ->
  exists p, match unreachable_reason g i with
    | AfterReturn => b_term (blk g p) = TReturn | AfterBreak => b_term (blk g p) = TBreak
    | AfterNext => b_term (blk g p) = TNext | AfterStop => b_term (blk g p) = TStop
    | AfterBranchTerminating => b_term (blk g p) = TBranch | _ => False end.
Proof.
  unfold unreachable_reason. set (preds := filter _ _). intros A.
  match goal with |- context [find_map ?f preds] => destruct (find_map f preds) as [w|] eqn:E end.
  - apply find_map_some in E as (p & _ & E). exists p.
    destruct (b_term (blk g p)) eqn:T; try discriminate; injection E as <-; reflexivity.
  - match goal with |- context [find_map ?f preds] => destruct (find_map f preds) as [w|] eqn:E2 end.
    + apply find_map_some in E2 as (p & _ & E2). exists p.
      destruct (b_term (blk g p)) eqn:T; try discriminate. apply branch_reason_only in E2. subst w. reflexivity.
    + exfalso. destruct (b_pred (blk g i)); [exact A|]. revert A. destruct (existsb _ _); auto.
Qed.

Lemma insert_in x y l : In x (insert_by_start y l) -> x = y \/ In x l.
Proof.
  induction l as [|z l IH]; cbn; [intuition|]. destruct (_ <=? _); cbn; [intuition|]. intros [->|H]; auto.
  destruct (IH H); auto.
Qed.
Lemma sort_in x l : In x (sort_by_start l) -> In x l.
Proof. induction l as [|y l IH]; cbn; auto. intros H. apply insert_in in H as [->|H]; auto. Qed.
Lemma reason_eqb_eq a b : reason_eqb a b = true -> a = b.
Proof. destruct a, b; try discriminate; auto. Qed.
Lemma merge_reason l : forall cur x, In x (merge cur l) -> exists y, In y (cur :: l) /\ snd y = snd x.
Proof.
  induction l as [|z l IH]; intros cur x H; cbn [merge] in H.
  - destruct H as [<-|[]]. exists cur. split; [now left|auto].
  - destruct (reason_eqb (snd cur) (snd z) && _).
    + destruct (IH _ _ H) as (y & [<-|Hy] & E).
      * exists cur. split; [now left|]. exact E.
      * exists y. split; auto. right. now right.
    + destruct H as [<-|H]; [exists cur; split; [now left|auto]|].
      destruct (IH _ _ H) as (y & Hy & E). exists y. split; auto. now right.
Qed.
Lemma report_reason g x : In x (find_unreachable_code g) -> exists i, snd x = unreachable_reason g i.
Proof.
  unfold find_unreachable_code. intros H.
  assert (K : exists y, In y (unreachable_blocks g) /\ snd y = snd x).
  { destruct (sort_by_start (unreachable_blocks g)) as [|y l] eqn:E; [destruct H|].
    apply merge_reason in H as (z & Hz & Ez). exists z. split; auto. apply sort_in. now rewrite E. }
  destruct K as (y & Hy & <-). unfold unreachable_blocks in Hy. apply in_flat_map in Hy as (i & _ & Hy).
  destruct (_ || _); [destruct Hy|]. destruct (block_range (blk g i)); [|destruct Hy].
  destruct Hy as [<-|[]]. now exists i.
Qed.

Lemma graph_cause (Q : stmt -> Prop) g i : (forall t, (exists p, b_term (blk g p) = t) -> t <> TNone -> exists d, Q d /\ tcause t d) ->
  about_statement (unreachable_reason g i) -> exists d, Q d /\ cause stopping (unreachable_reason g i) d.
Proof.
  intros H A. destruct (reason_term g i A) as (p & R).
  destruct (unreachable_reason g i); try contradiction;
    (destruct (H _ (ex_intro _ p R) ltac:(discriminate)) as (d & Qd & K); exists d; split; auto; exact K).
Qed.
Lemma cause_exists body x : In x (unreachable_code stopping body) -> about_statement (snd x) ->
  exists d, descendant body d /\ cause stopping (snd x) d.
Proof.
  unfold unreachable_code, build_cfg. destruct (build stopping true body new_graph entry []) as [g out] eqn:E. cbn [fst].
  intros H A. apply report_reason in H as (i & R). rewrite R in *. apply graph_cause; auto.
  intros t (p & T) N. pose proof (build_adds body _ _ _ _ _ _ E p) as K. rewrite T, new_graph_term in K.
  destruct K as [K|K]; [congruence|exact K].
Qed.
Lemma cause_exists_top l x : In x (unreachable_code_top_level stopping l) -> about_statement (snd x) ->
  exists s d, In s l /\ descendant s d /\ cause stopping (snd x) d.
Proof.
  unfold unreachable_code_top_level, build_cfg_top_level.
  destruct (build_list (fun s g c => build stopping false s g c []) l new_graph entry) as [g out] eqn:E. cbn [fst].
  intros H A. apply filter_In in H as (H & _). apply report_reason in H as (i & R). rewrite R in *.
  destruct (graph_cause (fun d => exists s, In s l /\ descendant s d) g i) as (d & (s & Hs & D) & C); auto.
  - intros t (p & T) N.
    assert (B : adds (fun t => exists d, (exists s, In s l /\ descendant s d) /\ tcause t d) new_graph g).
    { eapply list_adds; [|exact E]. intros s g1 c1 g2 o Hs E1. eapply adds_weaken; [|eapply build_adds; exact E1].
      intros u (d & D & K). eauto 6. }
    pose proof (B p) as K. rewrite T, new_graph_term in K. destruct K as [K|K]; [congruence|exact K].
  - eauto 6.
Qed.
End Reason.
