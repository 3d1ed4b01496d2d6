(** After an if that always leaves: exactly one report, with the right message (C41). *)
From Verif Require Import Model.Text Model.Base Model.Cfg Spec.CfgSpec.
From Verif Require Import Proofs.TextProofs Proofs.RulesProofs.
From Verif Require Import Proofs.CfgGraph Proofs.CfgSem Proofs.CfgBuild Proofs.CfgReach Proofs.CfgComplete Proofs.CfgCause.
Import ListNotations.

(** ** Paths that end *)
Inductive path_ends (g : graph) (P : nat -> Prop) : nat -> Prop :=
| pe_end i : P i -> i < length g -> (b_term (blk g i) = TReturn \/ b_term (blk g i) = TStop) -> path_ends g P i
| pe_branch i a b : P i -> i < length g -> b_term (blk g i) = TBranch -> b_succ (blk g i) = [a; b] ->
    i < a -> i < b -> path_ends g P a -> path_ends g P b -> path_ends g P i.
Inductive walk (g : graph) (P : nat -> Prop) : nat -> nat -> Prop :=
| walk_refl i : walk g P i i
| walk_step i j k : P i -> In j (b_succ (blk g i)) -> walk g P j k -> walk g P i k.

Lemma pe_keep g g' (P P' : nat -> Prop) i : path_ends g P i -> length g <= length g' ->
  (forall j, P j -> b_term (blk g j) <> TNone -> P' j /\ blk g' j = blk g j) -> path_ends g' P' i.
Proof.
  intros H L K. induction H as [i Pi Li Ti|i a b Pi Li Ti Si Ia Ib _ IHa _ IHb].
  - destruct (K i Pi) as (P2 & E); [destruct Ti as [->| ->]; discriminate|]. apply pe_end; auto; [lia|now rewrite E].
  - destruct (K i Pi) as (P2 & E); [rewrite Ti; discriminate|]. apply pe_branch with a b; auto; [lia|now rewrite E|now rewrite E].
Qed.
Lemma walk_keep g g' (P P' : nat -> Prop) i j : walk g P i j ->
  (forall j, P j -> P' j /\ blk g' j = blk g j) -> walk g' P' i j.
Proof.
  intros H K. induction H as [i|i j k Pi Hj _ IH]; [constructor|]. destruct (K i Pi) as (P2 & E).
  apply walk_step with j; auto. now rewrite E.
Qed.
Lemma walk_trans g P i j k : walk g P i j -> walk g P j k -> walk g P i k.
Proof. induction 1; auto. intros H2. eapply walk_step; eauto. Qed.
Lemma walk_path g P i j k : path g k i -> walk g P i j -> path g k j.
Proof. intros H W. induction W as [i|i j l Pi Hj _ IH]; auto. apply IH. eapply path_edge; eauto. Qed.

(** ** What the search for the end of a path answers *)
Definition ending (r : option reason) : Prop := r = Some AfterReturn \/ r = Some AfterStop.
Definition vals (c : cache) : Prop := forall j r, cache_get c j = Some (Some r) -> ending (Some r).
Lemma term_ends g P i : path_ends g P i -> forall fuel c, length g < fuel + i -> vals c ->
  (forall j, cache_get c j = Some None -> j < i) ->
  exists r c', term_in_path fuel g i c = (r, c') /\ ending r /\ vals c' /\
    forall j, cache_get c' j = Some None -> cache_get c j = Some None.
Proof.
  induction 1 as [i Pi Li Ti|i a b Pi Li Ti Si Ia Ib Ha IHa Hb IHb]; intros fuel c F V G.
  all: destruct fuel as [|fuel]; [lia|]; cbn [term_in_path].
  all: destruct (cache_get c i) as [[r|]|] eqn:Eg;
    [exists (Some r), c; split; [reflexivity|]; split; [exact (V _ _ Eg)|]; split; auto
    |exfalso; specialize (G i Eg); lia|].
  all: replace (i <? length g) with true by (symmetry; now apply Nat.ltb_lt); cbn [negb].
  - assert (K : forall x, ending (Some x) -> vals ((i, Some x) :: (i, None) :: c) /\
      forall j, cache_get ((i, Some x) :: (i, None) :: c) j = Some None -> cache_get c j = Some None).
    { intros x Ex. split; intros j; [intros r|]; cbn [cache_get]; destruct (j =? i); auto; try discriminate; [|apply V].
      intros [= <-]. exact Ex. }
    destruct Ti as [Ti|Ti]; rewrite Ti; eexists _, _; (split; [reflexivity|]); (split; [unfold ending; auto|]);
      apply K; unfold ending; auto.
  - rewrite Ti, Si.
    assert (V1 : vals ((i, None) :: c)). { intros j r. cbn [cache_get]. destruct (j =? i); [discriminate|apply V]. }
    assert (G1 : forall j, cache_get ((i, None) :: c) j = Some None -> j = i \/ cache_get c j = Some None).
    { intros j. cbn [cache_get]. destruct (j =? i) eqn:E; auto. apply Nat.eqb_eq in E. auto. }
    assert (G2 : forall j, cache_get ((i, None) :: c) j = Some None -> j <= i).
    { intros j H. destruct (G1 j H) as [->|H']; auto. specialize (G j H'). lia. }
    destruct (IHa fuel ((i, None) :: c)) as (ra & ca & Ea & Na & Va & Ka); [lia|auto|intros j H; specialize (G2 j H); lia|].
    destruct (IHb fuel ca) as (rb & cb & Eb & Nb & Vb & Kb); [lia|auto|intros j H; apply Ka in H; specialize (G2 j H); lia|].
    rewrite Ea.
    assert (K : forall x, ending (Some x) -> vals ((i, Some x) :: cb) /\
      forall j, cache_get ((i, Some x) :: cb) j = Some None -> cache_get c j = Some None).
    { intros x Ex. split; intros j; [intros r|]; cbn [cache_get]; destruct (j =? i) eqn:E; auto; try discriminate; [| |].
      - intros [= <-]. exact Ex.
      - apply Vb.
      - intros H. apply Kb, Ka in H. destruct (G1 j H) as [->|H']; auto. now rewrite Nat.eqb_refl in E. }
    destruct Na as [Na|Na]; rewrite Na; rewrite Eb; destruct Nb as [Nb|Nb]; rewrite Nb;
      eexists _, _; (split; [reflexivity|]); (split; [unfold ending; auto|]); apply K; unfold ending; auto.
Qed.
Lemma branch_ends g P i a b : path_ends g P a -> path_ends g P b -> i < length g -> b_succ (blk g i) = [a; b] -> i < a -> i < b ->
  branch_reason g i = Some AfterBranchTerminating.
Proof.
  intros Ha Hb Li Si Ia Ib. unfold branch_reason. replace (i <? length g) with true by (symmetry; now apply Nat.ltb_lt).
  cbn [negb]. rewrite Si. cbn [fold_left].
  destruct (term_ends g P a Ha (S (length g)) []) as (ra & ca & Ea & Na & Va & Ka); [lia|intros j r; discriminate|discriminate|].
  destruct (term_ends g P b Hb (S (length g)) ca) as (rb & cb & Eb & Nb & _ & _); [lia|auto|intros j H; apply Ka in H; discriminate|].
  rewrite Ea. destruct Na as [Na|Na]; rewrite Na; rewrite Eb; destruct Nb as [Nb|Nb]; rewrite Nb; reflexivity.
Qed.

(** ** One edge *)
Lemma blk_edge_other g i j k : k <> i -> k <> j -> blk (add_edge g i j) k = blk g k.
Proof. intros A B. unfold add_edge. now rewrite !blk_upd_other by auto. Qed.
Lemma blk_edge_from g i j : i <> j -> i < length g -> ~ In j (b_succ (blk g i)) -> blk (add_edge g i j) i = push_succ j (blk g i).
Proof.
  intros N L H. unfold add_edge. rewrite blk_upd_other, blk_upd_same by auto. apply memn_false in H. now rewrite H.
Qed.
Lemma blk_edge_to g i j : i <> j -> j < length g -> ~ In i (b_pred (blk g j)) -> blk (add_edge g i j) j = push_pred i (blk g j).
Proof.
  intros N L H. unfold add_edge. rewrite blk_upd_same by (now rewrite upd_length). rewrite blk_upd_other by auto.
  apply memn_false in H. now rewrite H.
Qed.

Section Straight.
Variable stopping : list text.

Record grown (g : graph) (cur : nat) (g' : graph) (out : nat) : Prop := {
  gr_length : length g <= length g';
  gr_same : forall i, i < length g -> i <> cur -> blk g' i = blk g i;
  gr_pred : b_pred (blk g' cur) = b_pred (blk g cur);
  gr_ends : path_ends g' (fun j => j = cur \/ length g <= j < length g') cur;
  gr_cover : forall i, length g <= i < length g' ->
    block_range (blk g' i) = None \/ walk g' (fun j => j = cur \/ length g <= j < length g') cur i;
  gr_succ : forall i j, i = cur \/ length g <= i < length g' -> In j (b_succ (blk g' i)) -> length g <= j < length g';
  gr_out : terminated (b_term (blk g' out)) = true \/ has_incoming g' out = false }.
Definition ready_block (g : graph) (cur : nat) : Prop :=
  cur < length g /\ has_incoming g cur = true /\ b_succ (blk g cur) = [] /\ b_term (blk g cur) = TNone.

Lemma grown_term g cur t : ready_block g cur -> t = TReturn \/ t = TStop -> grown g cur (upd g cur (set_term t)) cur.
Proof.
  intros (L & H & Sc & T) Ht. split.
  - now rewrite upd_length.
  - intros i _ N. now rewrite blk_upd_other by auto.
  - now rewrite blk_upd_same by auto.
  - apply pe_end; [now left|now rewrite upd_length|rewrite blk_upd_same by auto; exact Ht].
  - intros i Hi. rewrite upd_length in Hi. lia.
  - intros i j [->|Hi]; [|rewrite upd_length in Hi; lia]. rewrite blk_upd_same by auto. cbn [set_term b_succ]. rewrite Sc. intros [].
  - left. rewrite blk_upd_same by auto. destruct Ht as [->| ->]; reflexivity.
Qed.
Lemma cold_incoming_add g i s : has_incoming (add_statement g i s) i = has_incoming g i.
Proof.
  unfold has_incoming. rewrite add_statement_pred. f_equal. induction (b_pred (blk g i)) as [|p l IH]; [reflexivity|].
  cbn [existsb]. now rewrite add_statement_succ, IH.
Qed.
Lemma ready_add g cur s : ready_block g cur -> ready_block (add_statement g cur s) cur.
Proof.
  intros (L & H & Sc & T). unfold ready_block. unfold add_statement at 1. rewrite upd_length. split; auto. split; [|split].
  - now rewrite cold_incoming_add.
  - now rewrite add_statement_succ.
  - unfold add_statement. now rewrite blk_upd_same by auto.
Qed.
Lemma grown_add g cur s g' out : grown (add_statement g cur s) cur g' out -> grown g cur g' out.
Proof.
  assert (L : length (add_statement g cur s) = length g) by apply upd_length.
  intros [A B C D E F G]. rewrite L in *. split; auto.
  - intros i Hi N. rewrite B by auto. unfold add_statement. now rewrite blk_upd_other by auto.
  - rewrite C. apply add_statement_pred.
Qed.
Lemma const_undecided c : undecided c -> const_cond c = None.
Proof.
  intros (A & B). destruct (const_cond c) as [b|] eqn:E; auto.
  pose proof (const_cond_sound c T b A E). pose proof (const_cond_sound c F b B E). destruct b; discriminate.
Qed.
Lemma carries_build s g cur ls : carries_on stopping s -> has_incoming g cur = true ->
  build stopping false s g cur ls = (add_statement g cur s, cur).
Proof.
  intros C H. destruct s as [r|r f|r|r|r|r l|r c t e|r b|r c b|r b]; try contradiction C; cbn [build]; rewrite H; cbn [negb]; auto.
  cbn [carries_on] in C.
  pose proof (classify_leaves stopping r f true) as K. destruct (classify stopping f); auto; exfalso.
  - destruct K as (K & _). exact (C _ K).
  - destruct (K eq_refl) as (K' & _). exact (C _ K').
  - destruct (K eq_refl) as (K' & _). exact (C _ K').
  - destruct K as (K & _). exact (C _ K).
Qed.

(** The graph right after the condition. *)
Lemma branch_blocks g cur : ready_block g cur ->
  let th := length g in let el := S th in let after := S el in
  let g0 := branch_edges (new_blocks g 3) None cur th el in
  length g0 = length g + 3 /\
  (forall i, i < length g -> i <> cur -> blk g0 i = blk g i) /\
  blk g0 cur = Blk (b_stmts (blk g cur)) [th; el] (b_pred (blk g cur)) TBranch (b_range (blk g cur)) /\
  blk g0 th = Blk [] [] [cur] TNone None /\ blk g0 el = Blk [] [] [cur] TNone None /\ blk g0 after = empty_block.
Proof.
  intros (L & H & Sc & T) th el after g0. unfold g0, branch_edges.
  set (ga := upd (new_blocks g 3) cur (set_term TBranch)).
  assert (La : length ga = length g + 3) by (unfold ga; now rewrite upd_length, new_blocks_length).
  assert (Ba : forall i, i <> cur -> blk ga i = blk g i) by (intros i N; unfold ga; now rewrite blk_upd_other, blk_new_blocks by auto).
  assert (Bc : blk ga cur = set_term TBranch (blk g cur)).
  { unfold ga. rewrite blk_upd_same by (rewrite new_blocks_length; lia). now rewrite blk_new_blocks. }
  assert (Bt : blk ga th = empty_block) by (rewrite Ba by (unfold th; lia); now apply blk_out).
  assert (Be : blk ga el = empty_block) by (rewrite Ba by (unfold el, th; lia); apply blk_out; unfold el, th; lia).
  assert (Bf : blk ga after = empty_block) by (rewrite Ba by (unfold after, el, th; lia); apply blk_out; unfold after, el, th; lia).
  set (gb := add_edge ga cur th).
  assert (Lb : length gb = length g + 3) by (unfold gb; now rewrite add_edge_length).
  assert (Cb : blk gb cur = push_succ th (set_term TBranch (blk g cur))).
  { unfold gb. rewrite blk_edge_from; [now rewrite Bc|unfold th; lia|lia|]. rewrite Bc. cbn [set_term b_succ]. rewrite Sc. intros []. }
  assert (Tb : blk gb th = push_pred cur empty_block).
  { unfold gb. rewrite blk_edge_to; [now rewrite Bt|unfold th; lia|unfold th; lia|]. rewrite Bt. intros []. }
  split; [now rewrite add_edge_length|]. split; [|split; [|split; [|split]]].
  - intros i Hi N. rewrite blk_edge_other by (unfold el, th; lia). unfold gb. rewrite blk_edge_other by (unfold th; lia). now apply Ba.
  - rewrite blk_edge_from; [| unfold el, th; lia | lia |].
    + rewrite Cb. unfold push_succ, set_term. cbn [b_stmts b_succ b_pred b_term b_range]. now rewrite Sc.
    + rewrite Cb. cbn [push_succ set_term b_succ]. rewrite Sc. intros [X|[]]. unfold el in X. lia.
  - rewrite blk_edge_other by (unfold el, th; lia). exact Tb.
  - rewrite blk_edge_to; [|unfold el, th; lia|unfold el, th; lia|].
    + unfold gb. rewrite blk_edge_other by (unfold el, th; lia). now rewrite Be.
    + unfold gb. rewrite blk_edge_other by (unfold el, th; lia). rewrite Be. intros [].
  - rewrite blk_edge_other by (unfold after, el, th; lia). unfold gb. rewrite blk_edge_other by (unfold after, el, th; lia). exact Bf.
Qed.
Lemma join_same g out after : terminated (b_term (blk g out)) = true \/ has_incoming g out = false -> join_branch g out after = g.
Proof. unfold join_branch. intros [->| ->]; [reflexivity|]. now rewrite Bool.andb_false_r. Qed.

Definition branch_ok (s : stmt) : Prop := forall g cur ls g' out, ready_block g cur ->
  build stopping true s g cur ls = (g', out) -> grown g cur g' out.
(** The if with both branches built. *)
Lemma if_built r c t e g cur ls b g' out : branch_ok t -> branch_ok e -> undecided c -> ready_block g cur ->
  build stopping b (If r c t (Some e)) g cur ls = (g', out) ->
  grown g cur g' out /\ out = S (S (length g)) /\ out < length g' /\ blk g' out = Blk [] [] [cur] TNone None /\
  has_incoming g' out = false /\
  blk g' cur = Blk (b_stmts (blk g cur)) [length g; S (length g)] (b_pred (blk g cur)) TBranch (b_range (blk g cur)) /\
  path_ends g' (fun j => length g <= j < length g') (length g) /\ path_ends g' (fun j => length g <= j < length g') (S (length g)) /\
  (forall i, i = cur \/ length g <= i < length g' -> ~ In out (b_succ (blk g' i))).
Proof.
  intros Kt Ke U R E. pose proof R as (L & H & Sc & T).
  assert (E' : build stopping true (If r c t (Some e)) g cur ls = (g', out)) by (destruct b; exact E). clear E.
  cbn [build] in E'. rewrite H, (const_undecided c U) in E'. cbn [negb is_true is_false] in E'.
  destruct (branch_blocks g cur R) as (L0 & S0 & Cb & Tb & Eb & Fb).
  set (th := length g) in *. set (el := S th) in *. set (after := S el) in *.
  set (g0 := branch_edges (new_blocks g 3) None cur th el) in *.
  assert (Ne : entry <> th /\ entry <> el /\ entry <> after). { unfold entry, after, el, th. destruct g; cbn in L |- *; lia. }
  assert (Rt : ready_block g0 th).
  { split; [unfold th; lia|]. split; [|now rewrite Tb]. unfold has_incoming. rewrite Tb. cbn [b_pred existsb]. rewrite Cb. cbn [b_succ memn existsb].
    rewrite Nat.eqb_refl. cbn. now rewrite Bool.orb_true_r. }
  destruct (build stopping true t g0 th ls) as [ga ea] eqn:Ba.
  pose proof (Kt g0 th ls ga ea Rt Ba) as Ga.
  rewrite (join_same ga ea after (gr_out _ _ _ _ Ga)) in E'.
  assert (La : length g0 <= length ga) by apply (gr_length _ _ _ _ Ga).
  assert (Sa : forall i, i < length g0 -> i <> th -> blk ga i = blk g0 i) by apply (gr_same _ _ _ _ Ga).
  assert (Re : ready_block ga el).
  { split; [unfold el, th; lia|]. rewrite (Sa el) by (unfold el, th; lia). split; [|now rewrite Eb].
    unfold has_incoming. rewrite (Sa el) by (unfold el, th; lia). rewrite Eb. cbn [b_pred existsb].
    rewrite (Sa cur) by (unfold th; lia). rewrite Cb. cbn [b_succ memn existsb].
    rewrite Nat.eqb_refl. cbn. now rewrite !Bool.orb_true_r. }
  destruct (build stopping true e ga el ls) as [gb eb] eqn:Bb.
  pose proof (Ke ga el ls gb eb Re Bb) as Gb.
  rewrite (join_same gb eb after (gr_out _ _ _ _ Gb)) in E'.
  assert (Lb : length ga <= length gb) by apply (gr_length _ _ _ _ Gb).
  assert (Sb : forall i, i < length ga -> i <> el -> blk gb i = blk ga i) by apply (gr_same _ _ _ _ Gb).
  assert (Fa : blk gb after = empty_block).
  { rewrite (Sb after), (Sa after) by (unfold after, el, th; lia). exact Fb. }
  assert (Hf : has_incoming gb after = false).
  { unfold has_incoming. rewrite Fa. cbn [empty_block b_pred existsb]. rewrite Bool.orb_false_r. apply Nat.eqb_neq. intuition. }
  unfold mark_after in E'. rewrite Hf in E'.
  apply pair_equal_spec in E'. destruct E' as (E1 & E2).
  assert (Lg : length g' = length gb) by (rewrite <- E1; apply upd_length).
  assert (So : forall i, i <> after -> blk g' i = blk gb i) by (intros i N; rewrite <- E1; now rewrite blk_upd_other by auto).
  assert (Fo : blk g' after = Blk [] [] [cur] TNone None).
  { rewrite <- E1. rewrite blk_upd_same by (unfold after, el, th; lia). now rewrite Fa. }
  assert (Co : blk g' cur = Blk (b_stmts (blk g cur)) [th; el] (b_pred (blk g cur)) TBranch (b_range (blk g cur))).
  { rewrite (So cur), (Sb cur), (Sa cur) by (unfold after, el, th; lia). exact Cb. }
  assert (Pt : path_ends g' (fun j => th <= j < length g') th).
  { eapply pe_keep; [exact (gr_ends _ _ _ _ Ga)|lia|]. intros j Hj _. split; [unfold th in *; lia|].
    rewrite So, Sb; auto; unfold after, el, th in *; lia. }
  assert (Pe : path_ends g' (fun j => th <= j < length g') el).
  { eapply pe_keep; [exact (gr_ends _ _ _ _ Gb)|lia|]. intros j Hj _. split; [unfold el, th in *; lia|].
    rewrite So; auto; unfold after, el, th in *; lia. }
  assert (Hi : has_incoming g' after = false).
  { unfold has_incoming. rewrite Fo. cbn [b_pred existsb]. rewrite Co. cbn [b_succ memn existsb].
    replace (after =? entry) with false by (symmetry; apply Nat.eqb_neq; intuition).
    replace (after =? th) with false by (symmetry; apply Nat.eqb_neq; unfold after, el; lia).
    replace (after =? el) with false by (symmetry; apply Nat.eqb_neq; unfold after; lia). reflexivity. }
  assert (Na : forall i, i = cur \/ length g <= i < length g' -> ~ In after (b_succ (blk g' i))).
  { intros i Hij Hj. destruct (Nat.eq_dec i cur) as [->|N0].
    { rewrite Co in Hj. cbn [b_succ] in Hj. unfold after, el in Hj. destruct Hj as [Hj|[Hj|[]]]; lia. }
    destruct Hij as [Hij|Hij]; [congruence|].
    destruct (Nat.eq_dec i after) as [->|N3]; [rewrite Fo in Hj; destruct Hj|]. rewrite So in Hj by auto.
    destruct (Nat.eq_dec i el) as [->|N2].
    { pose proof (gr_succ _ _ _ _ Gb el after (or_introl eq_refl) Hj). unfold after, el, th in *. lia. }
    destruct (Nat.lt_ge_cases i (length ga)) as [Li|Li].
    + rewrite Sb in Hj by auto. assert (X : i = th \/ length g0 <= i < length ga) by (unfold after, el, th in *; lia).
      pose proof (gr_succ _ _ _ _ Ga i after X Hj). unfold after, el, th in *. lia.
    + assert (X : i = el \/ length ga <= i < length gb) by lia. pose proof (gr_succ _ _ _ _ Gb i after X Hj).
      unfold after, el, th in *. lia. }
  subst out. split; [|split; [reflexivity|split; [unfold after, el, th; lia|auto 10]]].
  split.
  - lia.
  - intros i Hi' N. rewrite So, Sb, Sa, S0; auto; unfold after, el, th in *; lia.
  - now rewrite Co.
  - apply pe_branch with th el; auto; try (rewrite Co; reflexivity); try (unfold el, th in *; lia).
    + eapply pe_keep; [exact Pt|lia|]. intros j Hj _. split; auto.
    + eapply pe_keep; [exact Pe|lia|]. intros j Hj _. split; auto.
  - intros i Hi'. assert (W1 : walk g' (fun j => j = cur \/ length g <= j < length g') cur th).
    { eapply walk_step; [now left|rewrite Co; now left|constructor]. }
    assert (W2 : walk g' (fun j => j = cur \/ length g <= j < length g') cur el).
    { eapply walk_step; [now left|rewrite Co; right; now left|constructor]. }
    destruct (Nat.eq_dec i th) as [->|N1]; [now right|]. destruct (Nat.eq_dec i el) as [->|N2]; [now right|].
    destruct (Nat.eq_dec i after) as [->|N3]; [left; now rewrite Fo|].
    destruct (Nat.lt_ge_cases i (length ga)) as [Li|Li].
    + destruct (gr_cover _ _ _ _ Ga i) as [C|C]; [unfold after, el, th in *; lia| |].
      * left. rewrite So, Sb; auto.
      * right. eapply walk_trans; [exact W1|]. eapply walk_keep; [exact C|]. intros j Hj. split; [unfold th in *; lia|].
        rewrite So, Sb; auto; unfold after, el, th in *; lia.
    + destruct (gr_cover _ _ _ _ Gb i) as [C|C]; [lia| |].
      * left. rewrite So; auto.
      * right. eapply walk_trans; [exact W2|]. eapply walk_keep; [exact C|]. intros j Hj. split; [unfold el, th in *; lia|].
        rewrite So; auto; unfold after, el, th in *; lia.
  - intros i j Hij Hj. destruct (Nat.eq_dec i cur) as [->|N0].
    { rewrite Co in Hj. cbn [b_succ] in Hj. unfold el, th in Hj. destruct Hj as [<-|[<-|[]]]; lia. }
    destruct Hij as [Hij|Hij]; [congruence|].
    destruct (Nat.eq_dec i after) as [->|N3]; [rewrite Fo in Hj; destruct Hj|]. rewrite So in Hj by auto.
    destruct (Nat.eq_dec i el) as [->|N2].
    { pose proof (gr_succ _ _ _ _ Gb el j (or_introl eq_refl) Hj). lia. }
    destruct (Nat.lt_ge_cases i (length ga)) as [Li|Li].
    + rewrite Sb in Hj by auto. assert (X : i = th \/ length g0 <= i < length ga) by (unfold after, el, th in *; lia).
      pose proof (gr_succ _ _ _ _ Ga i j X Hj). lia.
    + assert (X : i = el \/ length ga <= i < length gb) by lia. pose proof (gr_succ _ _ _ _ Gb i j X Hj). lia.
  - right. exact Hi.
Qed.

Lemma list_step bs x y r g cur g1 c1 : bs x g cur = (g1, c1) -> terminated (b_term (blk g1 c1)) = false ->
  build_list bs (x :: y :: r) g cur = build_list bs (y :: r) g1 c1.
Proof. intros E T. cbn [build_list]. rewrite E, T. reflexivity. Qed.
(** Plain statements first. *)
Lemma plain_prefix ls l : forall g cur s0 s, Forall (carries_on stopping) l -> ready_block g cur ->
  exists g1, ready_block g1 cur /\ (forall g' out, grown g1 cur g' out -> grown g cur g' out) /\ length g1 = length g /\
    (forall i, i <> cur -> blk g1 i = blk g i) /\
    build_list (fun s g c => build stopping false s g c ls) (l ++ s0 :: s) g cur =
    build_list (fun s g c => build stopping false s g c ls) (s0 :: s) g1 cur.
Proof.
  induction l as [|x l IH]; intros g cur s0 s H R.
  - exists g. auto.
  - inversion H as [|? ? Hx Hl]; subst.
    destruct (IH (add_statement g cur x) cur s0 s Hl (ready_add g cur x R)) as (g1 & R1 & G1 & L1 & S1 & E1).
    exists g1. split; auto. split; [intros g' out K; apply grown_add with x; auto|].
    split; [rewrite L1; apply upd_length|]. split.
    { intros i N. rewrite S1 by auto. unfold add_statement. now rewrite blk_upd_other by auto. }
    assert (T : b_term (blk (add_statement g cur x) cur) = TNone) by apply (ready_add g cur x R).
    rewrite <- E1. destruct (l ++ s0 :: s) as [|y m] eqn:El; [now destruct l|].
    change ((x :: l) ++ s0 :: s) with (x :: (l ++ s0 :: s)). rewrite El. apply list_step; [|now rewrite T].
    apply carries_build; [exact Hx|apply R].
Qed.

Lemma leaves_ok b s : always_leaves stopping b s ->
  branch_ok s /\ (b = false -> forall g cur ls g' out, ready_block g cur ->
    build stopping false s g cur ls = (g', out) -> grown g cur g' out).
Proof.
  induction 1 as [b r|b r f D|b r c t e U _ (IHt & _) _ (IHe & _)|r pre s F _ (_ & IH)].
  - assert (K : forall b0 g cur ls g' out, ready_block g cur -> build stopping b0 (Return r) g cur ls = (g', out) -> grown g cur g' out).
    { intros b0 g cur ls g' out R E. destruct b0; cbn [build] in E; rewrite (proj1 (proj2 R)) in E; cbn [negb] in E;
        apply pair_equal_spec in E; destruct E as (<- & <-); apply grown_term; auto. }
    split; [intros g cur ls g' out; apply K|intros _; apply K].
  - assert (K : forall b0 g cur ls g' out, ready_block g cur -> build stopping b0 (Call r f) g cur ls = (g', out) -> grown g cur g' out).
    { intros b0 g cur ls g' out R E. destruct b0; cbn [build] in E; rewrite (proj1 (proj2 R)) in E; cbn [negb] in E;
        destruct (div_class stopping _ _ _ D) as [C|C]; rewrite C in E;
        apply pair_equal_spec in E; destruct E as (<- & <-); apply grown_term; auto. }
    split; [intros g cur ls g' out; apply K|intros _; apply K].
  - split; [intros g cur ls g' out R E|intros _ g cur ls g' out R E];
      apply (if_built r c t e g cur ls _ g' out IHt IHe U R E).
  - split; [|discriminate]. intros g cur ls g' out R E. cbn [build] in E.
    destruct (plain_prefix ls pre g cur s [] F R) as (g1 & R1 & G1 & _ & _ & E1). rewrite E1 in E. cbn [build_list] in E.
    destruct (build stopping false s g1 cur ls) as [g2 o2] eqn:E2. apply pair_equal_spec in E as (<- & <-).
    apply G1. exact (IH eq_refl _ _ _ _ _ R1 E2).
Qed.

(** Statements after a dead end are only collected. *)
Lemma cold_list ls l : forall g i, i < length g -> has_incoming g i = false -> b_term (blk g i) = TNone ->
  build_list (fun s g c => build stopping false s g c ls) l g i = (add_all g i l, i).
Proof.
  induction l as [|s l IH]; intros g i L H T; [reflexivity|]. cbn [build_list].
  assert (E : build stopping false s g i ls = (add_statement g i s, i)) by (destruct s; cbn [build]; rewrite H; reflexivity).
  rewrite E. assert (T' : b_term (blk (add_statement g i s) i) = TNone) by (unfold add_statement; now rewrite blk_upd_same by auto).
  destruct l as [|s' l']; [reflexivity|]. rewrite T'. cbn [terminated]. rewrite IH; auto.
  - unfold add_statement. now rewrite upd_length.
  - now rewrite cold_incoming_add.
Qed.
Lemma add_all_other l : forall g i j, j <> i -> blk (add_all g i l) j = blk g j.
Proof.
  induction l as [|s l IH]; intros g i j N; [reflexivity|]. cbn [add_all fold_left]. fold (add_all (add_statement g i s) i l).
  rewrite IH by auto. unfold add_statement. now rewrite blk_upd_other by auto.
Qed.
Lemma add_all_length l : forall g i, length (add_all g i l) = length g.
Proof.
  induction l as [|s l IH]; intros g i; [reflexivity|]. cbn [add_all fold_left]. fold (add_all (add_statement g i s) i l).
  rewrite IH. apply upd_length.
Qed.
Lemma add_all_stmts l : forall g i, i < length g -> b_stmts (blk (add_all g i l) i) = b_stmts (blk g i) ++ l /\
  b_succ (blk (add_all g i l) i) = b_succ (blk g i).
Proof.
  induction l as [|s l IH]; intros g i L; [now rewrite app_nil_r|]. cbn [add_all fold_left]. fold (add_all (add_statement g i s) i l).
  destruct (IH (add_statement g i s) i) as (A & B); [unfold add_statement; now rewrite upd_length|].
  rewrite A, B. unfold add_statement. rewrite blk_upd_same by auto. cbn [set_range push_stmt b_stmts b_succ].
  rewrite <- app_assoc. auto.
Qed.

Lemma flat_map_one {A} (f : nat -> list A) n k x : k < n -> f k = x -> (forall i, i < n -> i <> k -> f i = []) ->
  flat_map f (seq 0 n) = x.
Proof.
  intros H E N. replace n with (k + (1 + (n - k - 1))) by lia. rewrite seq_app, seq_app. cbn [seq].
  rewrite !flat_map_app. cbn [flat_map]. rewrite app_nil_r, Nat.add_0_l, E.
  assert (Z : forall a m, (forall i, a <= i < a + m -> f i = []) -> flat_map f (seq a m) = []).
  { intros a m. revert a. induction m as [|m IH]; intros a Ha; [reflexivity|]. cbn [seq flat_map]. rewrite Ha by lia.
    apply IH. intros i Hi. apply Ha. lia. }
  rewrite (Z 0 k), (Z (k + 1) (n - k - 1)); [now rewrite app_nil_r| |]; intros i Hi; apply N; lia.
Qed.

Lemma after_if ro pre ri c t e n post :
  Forall (carries_on stopping) pre -> undecided c -> always_leaves stopping true t -> always_leaves stopping true e ->
  unreachable_code stopping (Block ro (pre ++ If ri c t (Some e) :: n :: post)) =
    [(cover (rng n) (rng (last post n)), AfterBranchTerminating)].
Proof.
  intros F U Ht He. unfold unreachable_code, build_cfg. cbn [build].
  assert (R : ready_block new_graph entry) by (split; [cbn; unfold entry; lia|auto]).
  destruct (plain_prefix [] pre new_graph entry (If ri c t (Some e)) (n :: post) F R) as (g1 & R1 & _ & L1 & S1 & E1).
  rewrite E1. clear E1. destruct (build stopping false (If ri c t (Some e)) g1 entry []) as [g2 o2] eqn:E2.
  destruct (if_built ri c t e g1 entry [] false g2 o2 (proj1 (leaves_ok _ _ Ht)) (proj1 (leaves_ok _ _ He)) U R1 E2)
    as (G & Eo & Lo & Bo & Ho & Bc & Pt & Pe & Na).
  rewrite L1 in *. change (length new_graph) with 2 in *. subst o2.
  rewrite (list_step (fun s g c => build stopping false s g c []) (If ri c t (Some e)) n post g1 entry g2 4 E2) by now rewrite Bo.
  rewrite (cold_list [] (n :: post) g2 4) by (auto; now rewrite Bo). cbn [fst].
  set (gf := add_all g2 4 (n :: post)).
  assert (Lf : length gf = length g2) by apply add_all_length.
  assert (Sf : forall i, i <> 4 -> blk gf i = blk g2 i) by (intros i N; now apply add_all_other).
  destruct (add_all_stmts (n :: post) g2 4 Lo) as (Stf & Suf). fold gf in Stf, Suf. rewrite Bo in Stf, Suf. cbn [b_stmts b_succ app] in Stf, Suf.
  assert (Prf : b_pred (blk gf 4) = [0]). { unfold gf. rewrite add_all_pred, Bo. reflexivity. }
  assert (Cf : blk gf 0 = Blk (b_stmts (blk g1 0)) [2; 3] (b_pred (blk g1 0)) TBranch (b_range (blk g1 0))).
  { rewrite Sf by lia. exact Bc. }
  (* nothing leads to block 4 *)
  assert (N4 : forall i, ~ In 4 (b_succ (blk gf i))).
  { intros i I. destruct (Nat.eq_dec i 4) as [->|N]; [rewrite Suf in I; destruct I|]. rewrite Sf in I by auto.
    destruct (Nat.lt_ge_cases i 2) as [L|L].
    - destruct i as [|[|i]]; [|  |lia].
      + change 0 with entry in I. rewrite Bc in I. cbn in I. intuition discriminate.
      + rewrite (gr_same _ _ _ _ G 1) in I by (unfold entry; lia). rewrite S1 in I by (unfold entry; lia). exact I.
    - destruct (Nat.lt_ge_cases i (length g2)) as [L'|L']; [|rewrite blk_out in I by auto; exact I].
      exact (Na i (or_intror (conj L L')) I). }
  assert (U4 : ~ In 4 (find_reachable gf)).
  { intros I. apply find_reachable_exact in I. inversion I as [|i j k Hp Hk]; subst. exact (N4 j Hk). }
  assert (Re : forall i, 2 <= i < length gf -> i <> 4 -> block_range (blk gf i) = None \/ In i (find_reachable gf)).
  { intros i Hi N. rewrite Lf in Hi. destruct (gr_cover _ _ _ _ G i) as [C|C]; [rewrite L1; exact Hi| |].
    - left. now rewrite Sf by auto.
    - right. apply find_reachable_exact. eapply walk_path; [constructor|].
      assert (W : walk gf (fun _ => True) entry i \/ False).
      { left. clear - C Sf Bo. induction C as [i|i j k Pi Hj _ IH]; [constructor|].
        destruct (Nat.eq_dec i 4) as [->|N]; [rewrite Bo in Hj; destruct Hj|].
        eapply walk_step; [exact Logic.I| |exact IH]. now rewrite Sf by auto. }
      destruct W as [W|[]]. exact W. }
  assert (Rs : unreachable_reason gf 4 = AfterBranchTerminating).
  { unfold unreachable_reason. rewrite Prf. cbn [filter]. replace (0 <? length gf) with true by (symmetry; apply Nat.ltb_lt; lia).
    cbn [find_map]. rewrite Cf. cbn [b_term].
    assert (Kp : forall k, path_ends g2 (fun j => 2 <= j < length g2) k -> path_ends gf (fun _ => True) k).
    { intros k Hk. eapply pe_keep; [exact Hk|lia|]. intros j _ Tj. split; auto. apply Sf. intros ->. rewrite Bo in Tj. now apply Tj. }
    rewrite (branch_ends gf (fun _ => True) 0 2 3); auto; try lia. now rewrite Cf. }
  assert (Ub : unreachable_blocks gf = [(cover (rng n) (rng (last post n)), AfterBranchTerminating)]).
  { unfold unreachable_blocks. apply flat_map_one with 4; [lia| |].
    - cbn [Nat.eqb entry exit_ orb]. apply memn_false in U4. rewrite U4. unfold block_range. rewrite Stf, Rs. reflexivity.
    - intros i Hi N. destruct i as [|[|i]]; [reflexivity|reflexivity|].
      destruct (Re (S (S i))) as [C|C]; [lia|auto| |].
      + rewrite C. now destruct (_ || _).
      + apply memn_In in C. rewrite C. reflexivity. }
  unfold find_unreachable_code. rewrite Ub. reflexivity.
Qed.
End Straight.
