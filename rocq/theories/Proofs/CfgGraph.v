(** Elementary facts about the graph operations of Model/Cfg.v. *)
From Verif Require Import Model.Text Model.Base Model.Cfg.
Import ListNotations.

Lemma memn_In i l : memn i l = true <-> In i l.
Proof.
  unfold memn. rewrite existsb_exists. split.
  - intros (x & Hx & E). apply Nat.eqb_eq in E. now subst.
  - intros H. exists i. now rewrite Nat.eqb_refl.
Qed.

Lemma memn_false i l : memn i l = false <-> ~ In i l.
Proof. rewrite <- memn_In. destruct (memn i l); split; congruence. Qed.

Lemma upd_length g i f : length (upd g i f) = length g.
Proof. revert i; induction g as [|b g IH]; intros [|i]; cbn; auto. Qed.

Lemma blk_upd_same g i f : i < length g -> blk (upd g i f) i = f (blk g i).
Proof.
  revert i; induction g as [|b g IH]; intros [|i] H; cbn in *; try lia; auto.
  apply IH. lia.
Qed.

Lemma blk_upd_other g i j f : i <> j -> blk (upd g i f) j = blk g j.
Proof.
  revert i j; induction g as [|b g IH]; intros [|i] [|j] H; cbn in *; auto; try lia.
  apply IH. lia.
Qed.

Lemma upd_out g i f : length g <= i -> upd g i f = g.
Proof.
  revert i; induction g as [|b g IH]; intros [|i] H; cbn in *; auto; try lia.
  f_equal. apply IH. lia.
Qed.

Lemma blk_out g i : length g <= i -> blk g i = empty_block.
Proof. intros H. unfold blk. now apply nth_overflow. Qed.

Lemma new_blocks_length g n : length (new_blocks g n) = length g + n.
Proof. unfold new_blocks. now rewrite app_length, repeat_length. Qed.

Lemma blk_new_blocks g n i : blk (new_blocks g n) i = blk g i.
Proof.
  unfold new_blocks, blk. destruct (Nat.lt_ge_cases i (length g)) as [H|H].
  - now rewrite app_nth1.
  - rewrite app_nth2 by lia. rewrite nth_overflow with (l := g) by lia.
    destruct (Nat.lt_ge_cases (i - length g) n) as [H'|H'].
    + assert (In (nth (i - length g) (repeat empty_block n) empty_block) (repeat empty_block n)).
      { apply nth_In. now rewrite repeat_length. }
      now apply repeat_spec in H0.
    + apply nth_overflow. now rewrite repeat_length.
Qed.

(** [g'] extends [g], touching the contents of the blocks of [S] only. *)
Record ext (S : nat -> Prop) (g g' : graph) : Prop := {
  ext_len : length g <= length g';
  ext_succ : forall i, incl (b_succ (blk g i)) (b_succ (blk g' i));
  ext_pred : forall i, incl (b_pred (blk g i)) (b_pred (blk g' i));
  ext_keep : forall i, i < length g -> ~ S i ->
    b_stmts (blk g' i) = b_stmts (blk g i) /\
    b_range (blk g' i) = b_range (blk g i) /\
    b_term (blk g' i) = b_term (blk g i)
}.

Definition none : nat -> Prop := fun _ => False.

Lemma ext_refl S g : ext S g g.
Proof. split; auto; intros i; apply incl_refl. Qed.

Lemma ext_weaken (S S' : nat -> Prop) g g' :
  (forall i, i < length g -> S i -> S' i) -> ext S g g' -> ext S' g g'.
Proof.
  intros H [A B C D]. split; auto.
Qed.

Lemma ext_trans S g1 g2 g3 : ext S g1 g2 -> ext S g2 g3 -> ext S g1 g3.
Proof.
  intros [A B C D] [A' B' C' D']. split; [lia|..].
  - intros i. eapply incl_tran; eauto.
  - intros i. eapply incl_tran; eauto.
  - intros i Hi Hn. destruct (D i Hi Hn) as (E1 & E2 & E3).
    destruct (D' i ltac:(lia) Hn) as (F1 & F2 & F3). repeat split; congruence.
Qed.

Lemma ext_trans2 (S S' : nat -> Prop) g1 g2 g3 :
  ext S g1 g2 -> ext S' g2 g3 -> (forall i, i < length g1 -> S' i -> S i) -> ext S g1 g3.
Proof.
  intros [A B C D] [A' B' C' D'] H. split; [lia|..].
  - intros i. eapply incl_tran; eauto.
  - intros i. eapply incl_tran; eauto.
  - intros i Hi Hn. destruct (D i Hi Hn) as (E1 & E2 & E3).
    destruct (D' i ltac:(lia)) as (F1 & F2 & F3); auto. repeat split; congruence.
Qed.

Lemma ext_new S g n : ext S g (new_blocks g n).
Proof.
  split.
  - rewrite new_blocks_length. lia.
  - intros i. rewrite blk_new_blocks. apply incl_refl.
  - intros i. rewrite blk_new_blocks. apply incl_refl.
  - intros i _ _. now rewrite blk_new_blocks.
Qed.

Lemma upd_cases g i f j :
  (j = i /\ i < length g /\ blk (upd g i f) j = f (blk g j)) \/ blk (upd g i f) j = blk g j.
Proof.
  destruct (Nat.eq_dec i j) as [->|N].
  - destruct (Nat.lt_ge_cases j (length g)) as [H|H].
    + left. split; auto. split; auto. now apply blk_upd_same.
    + right. now rewrite upd_out.
  - right. now apply blk_upd_other.
Qed.

(** Updates that only touch what [ext S] does not protect. *)
Lemma ext_upd (S : nat -> Prop) g i f :
  (forall b, incl (b_succ b) (b_succ (f b))) ->
  (forall b, incl (b_pred b) (b_pred (f b))) ->
  (S i \/ forall b, b_stmts (f b) = b_stmts b /\ b_range (f b) = b_range b /\ b_term (f b) = b_term b) ->
  ext S g (upd g i f).
Proof.
  intros Hs Hp Hk. split.
  - now rewrite upd_length.
  - intros j. destruct (upd_cases g i f j) as [(-> & _ & ->)| ->]; auto. apply incl_refl.
  - intros j. destruct (upd_cases g i f j) as [(-> & _ & ->)| ->]; auto. apply incl_refl.
  - intros j Hj Hn. destruct (upd_cases g i f j) as [(-> & _ & ->)| ->]; auto.
    destruct Hk as [Hk|Hk]; [contradiction|]. apply Hk.
Qed.

Lemma ext_set_term (S : nat -> Prop) g i t : S i -> ext S g (upd g i (set_term t)).
Proof. intros H. apply ext_upd; auto; intros b; apply incl_refl. Qed.

Lemma ext_push_stmt (S : nat -> Prop) g i s : S i -> ext S g (upd g i (push_stmt s)).
Proof. intros H. apply ext_upd; auto; intros b; apply incl_refl. Qed.

Lemma ext_push_pred S g i p : ext S g (upd g i (push_pred p)).
Proof.
  apply ext_upd.
  - intros b; apply incl_refl.
  - intros b. cbn; intros ? ?; apply in_or_app; now left.
  - right. intros b; cbn; auto.
Qed.

Lemma ext_add_statement (S : nat -> Prop) g i s : S i -> ext S g (add_statement g i s).
Proof. intros H. apply ext_upd; auto; intros b; apply incl_refl. Qed.

Lemma ext_add_edge S g i j : ext S g (add_edge g i j).
Proof.
  unfold add_edge.
  apply ext_trans with (upd g i (fun b => if memn j (b_succ b) then b else push_succ j b)).
  - apply ext_upd; [| |right].
    + intros b. destruct (memn j (b_succ b)); [apply incl_refl|]. cbn; intros ? ?; apply in_or_app; now left.
    + intros b. destruct (memn j (b_succ b)); apply incl_refl.
    + intros b. destruct (memn j (b_succ b)); cbn; auto.
  - apply ext_upd; [| |right].
    + intros b. destruct (memn i (b_pred b)); apply incl_refl.
    + intros b. destruct (memn i (b_pred b)); [apply incl_refl|]. cbn; intros ? ?; apply in_or_app; now left.
    + intros b. destruct (memn i (b_pred b)); cbn; auto.
Qed.

Lemma add_edge_length g i j : length (add_edge g i j) = length g.
Proof. unfold add_edge. now rewrite !upd_length. Qed.

Lemma add_edge_succ g i j : i < length g -> In j (b_succ (blk (add_edge g i j) i)).
Proof.
  intros H. unfold add_edge.
  set (f := fun b => if memn j (b_succ b) then b else push_succ j b).
  set (g1 := upd g i f).
  assert (H1 : In j (b_succ (blk g1 i))).
  { unfold g1. rewrite blk_upd_same by auto. unfold f.
    destruct (memn j (b_succ (blk g i))) eqn:E.
    - now apply memn_In.
    - cbn. apply in_or_app. right. now left. }
  set (f2 := fun b => if memn i (b_pred b) then b else push_pred i b).
  destruct (upd_cases g1 j f2 i) as [(_ & _ & ->)| ->]; auto.
  unfold f2. destruct (memn i (b_pred (blk g1 i))); auto.
Qed.

Lemma add_edge_pred g i j : j < length g -> In i (b_pred (blk (add_edge g i j) j)).
Proof.
  intros H. unfold add_edge.
  set (f := fun b => if memn j (b_succ b) then b else push_succ j b).
  rewrite blk_upd_same by now rewrite upd_length.
  destruct (memn i (b_pred (blk (upd g i f) j))) eqn:E.
  - now apply memn_In.
  - cbn. apply in_or_app. right. now left.
Qed.

Lemma has_incoming_spec g i :
  has_incoming g i = true <->
  i = entry \/ exists p, In p (b_pred (blk g i)) /\ In i (b_succ (blk g p)).
Proof.
  unfold has_incoming. rewrite Bool.orb_true_iff, Nat.eqb_eq, existsb_exists.
  setoid_rewrite memn_In. reflexivity.
Qed.

Lemma has_incoming_ext S g g' i : ext S g g' -> has_incoming g i = true -> has_incoming g' i = true.
Proof.
  intros E. rewrite !has_incoming_spec. intros [H|(p & H1 & H2)]; auto.
  right. exists p. split.
  - now apply (ext_pred _ _ _ E).
  - now apply (ext_succ _ _ _ E).
Qed.

Lemma has_incoming_edge g i j : i < length g -> j < length g -> has_incoming (add_edge g i j) j = true.
Proof.
  intros Hi Hj. apply has_incoming_spec. right. exists i. split.
  - now apply add_edge_pred.
  - now apply add_edge_succ.
Qed.

Definition closed (R : nat -> Prop) (g : graph) : Prop :=
  forall i j, R i -> In j (b_succ (blk g i)) -> R j.

Lemma closed_ext R S g g' : ext S g g' -> closed R g' -> closed R g.
Proof. intros E C i j Hi Hj. apply (C i); auto. now apply (ext_succ _ _ _ E). Qed.

(** Blocks without statements have no range either. *)
Definition rinv (g : graph) : Prop :=
  forall i, b_stmts (blk g i) = [] -> b_range (blk g i) = None.

Lemma rinv_upd g i f :
  rinv g -> (forall b, b_stmts (f b) = [] -> b_stmts b = [] /\ b_range (f b) = b_range b) ->
  rinv (upd g i f).
Proof.
  intros H Hf j. destruct (upd_cases g i f j) as [(-> & _ & ->)| ->]; [|apply H].
  intros E. destruct (Hf _ E) as (E1 & ->). now apply H.
Qed.

Lemma rinv_new g n : rinv g -> rinv (new_blocks g n).
Proof. intros H i. rewrite blk_new_blocks. apply H. Qed.

Lemma rinv_set_term g i t : rinv g -> rinv (upd g i (set_term t)).
Proof. intros H. apply rinv_upd; auto. Qed.

Lemma rinv_push_pred g i t : rinv g -> rinv (upd g i (push_pred t)).
Proof. intros H. apply rinv_upd; auto. Qed.

Lemma rinv_push_stmt g i s : rinv g -> rinv (upd g i (push_stmt s)).
Proof.
  intros H. apply rinv_upd; auto. intros b. cbn. destruct (b_stmts b); discriminate.
Qed.

Lemma rinv_add_statement g i s : rinv g -> rinv (add_statement g i s).
Proof.
  intros H. apply rinv_upd; auto. intros b. cbn. destruct (b_stmts b); discriminate.
Qed.

Lemma rinv_add_edge g i j : rinv g -> rinv (add_edge g i j).
Proof.
  intros H. unfold add_edge. apply rinv_upd; [apply rinv_upd|]; auto.
  - intros b. destruct (memn j (b_succ b)); cbn; auto.
  - intros b. destruct (memn i (b_pred b)); cbn; auto.
Qed.

Lemma add_statement_length g i s : length (add_statement g i s) = length g.
Proof. apply upd_length. Qed.

Lemma add_statement_stmts g i s :
  i < length g -> b_stmts (blk (add_statement g i s) i) = b_stmts (blk g i) ++ [s].
Proof. intros H. unfold add_statement. now rewrite blk_upd_same. Qed.

Lemma add_statement_term g i s j : b_term (blk (add_statement g i s) j) = b_term (blk g j).
Proof.
  unfold add_statement.
  match goal with |- context [upd g i ?f] => destruct (upd_cases g i f j) as [(-> & _ & ->)| ->] end; auto.
Qed.

Lemma add_all_facts l : forall g i, i < length g ->
  ext (fun j => j = i) g (add_all g i l) /\
  length (add_all g i l) = length g /\
  b_stmts (blk (add_all g i l) i) = b_stmts (blk g i) ++ l /\
  b_term (blk (add_all g i l) i) = b_term (blk g i) /\
  (rinv g -> rinv (add_all g i l)).
Proof.
  induction l as [|s l IH]; intros g i Hi.
  - cbn. rewrite app_nil_r. repeat split; auto; intros; apply incl_refl.
  - change (add_all g i (s :: l)) with (add_all (add_statement g i s) i l).
    destruct (IH (add_statement g i s) i) as (E & L & St & T & Rv).
    { now rewrite add_statement_length. }
    split; [|split; [|split; [|split]]].
    + eapply ext_trans; [|exact E]. now apply ext_add_statement.
    + rewrite L. apply add_statement_length.
    + rewrite St, add_statement_stmts by auto. now rewrite <- app_assoc.
    + rewrite T. apply add_statement_term.
    + intros H. apply Rv. now apply rinv_add_statement.
Qed.
