(** Without constant conditions, a report begins right after the statement its message is about (C41). *)
From Verif Require Import Model.Text Model.Base Model.Cfg Spec.CfgSpec.
From Verif Require Import Proofs.TextProofs Proofs.RulesProofs.
From Verif Require Import Proofs.CfgGraph Proofs.CfgSem Proofs.CfgBuild Proofs.CfgReach Proofs.CfgComplete.
Import ListNotations.

Definition term_reason (t : term) : option reason :=
  match t with
  | TReturn => Some AfterReturn | TBreak => Some AfterBreak
  | TNext => Some AfterNext | TStop => Some AfterStop | _ => None
  end.

Section Cause.
Variable stopping : list text.
Variable Q : bool -> stmt -> stmt -> Prop.

Definition expl (g : graph) (i : nat) (n : stmt) : Prop :=
  exists p d b, b_pred (blk g i) = [p] /\ p < length g /\ Q b d n /\
    ((exists w, leaves_here stopping b w d /\ term_reason (b_term (blk g p)) = Some w) \/
     (b_term (blk g p) = TBranch /\ (exists r c t e, d = If r c t (Some e)) /\ blocked stopping b d)).

Definition inv (g : graph) : Prop :=
  sym g /\ (forall x j, In j (b_succ (blk g x)) -> path g entry j) /\
  (forall i, cold g i -> i <> entry ->
     match b_stmts (blk g i) with [] => b_range (blk g i) = None | n :: _ => expl g i n end).

Lemma expl_keep g g' i n :
  length g <= length g' -> b_pred (blk g' i) = b_pred (blk g i) ->
  (forall p, p < length g -> b_term (blk g p) <> TNone -> b_term (blk g' p) = b_term (blk g p)) ->
  expl g i n -> expl g' i n.
Proof.
  intros L P T (p & d & b & H1 & H2 & H3 & H4). exists p, d, b.
  rewrite P. split; auto. split; [lia|]. split; auto.
  rewrite T; auto. destruct H4 as [(w & _ & E)|(E & _)]; intros N; rewrite N in E; discriminate.
Qed.

Lemma path_mono g g' i j :
  (forall x, incl (b_succ (blk g x)) (b_succ (blk g' x))) -> path g i j -> path g' i j.
Proof. intros H P. induction P; [constructor|]. eapply path_edge; eauto. now apply H. Qed.

Lemma cold_mono g g' i :
  (forall x, incl (b_succ (blk g x)) (b_succ (blk g' x))) -> cold g' i -> cold g i.
Proof. intros H C x N. apply (C x). now apply H. Qed.

Lemma same_succ_inv g g' :
  length g <= length g' -> sym g' ->
  (forall x, b_succ (blk g' x) = b_succ (blk g x)) ->
  (forall p, p < length g -> b_term (blk g p) <> TNone -> b_term (blk g' p) = b_term (blk g p)) ->
  (forall i, cold g i -> i <> entry ->
     (b_pred (blk g' i) = b_pred (blk g i) /\ b_stmts (blk g' i) = b_stmts (blk g i) /\ b_range (blk g' i) = b_range (blk g i)) \/
     match b_stmts (blk g' i) with [] => b_range (blk g' i) = None | n :: _ => expl g' i n end) ->
  inv g -> inv g'.
Proof.
  intros L Sy Su T K (_ & P & E). split; auto. split.
  - intros x j H. rewrite Su in H. eapply path_mono; [|exact (P x j H)]. intros y. rewrite Su. apply incl_refl.
  - intros i C N. assert (C0 : cold g i) by (intros x H; apply (C x); now rewrite Su).
    destruct (K i C0 N) as [(K1 & K2 & K3)|K']; auto.
    specialize (E i C0 N). rewrite K2, K3. destruct (b_stmts (blk g i)) as [|n l]; auto.
    eapply expl_keep; eauto.
Qed.

Lemma inv_new g n : inv g -> inv (new_blocks g n).
Proof.
  intros I. pose proof I as (Sy & _). apply (same_succ_inv g); [| | | | |exact I].
  - rewrite new_blocks_length. lia.
  - now apply sym_new.
  - intros x. now rewrite blk_new_blocks.
  - intros p _ _. now rewrite blk_new_blocks.
  - intros i _ _. left. now rewrite blk_new_blocks.
Qed.

Lemma inv_term g i t : inv g -> b_term (blk g i) = TNone -> inv (upd g i (set_term t)).
Proof.
  intros I H. pose proof I as (Sy & _). apply (same_succ_inv g); [| | | | |exact I].
  - rewrite upd_length. lia.
  - now apply sym_set_term.
  - intros x. destruct (upd_cases g i (set_term t) x) as [(-> & _ & ->)| ->]; reflexivity.
  - intros p _ N. destruct (upd_cases g i (set_term t) p) as [(-> & _ & ->)| ->]; [contradiction|reflexivity].
  - intros j _ _. left. destruct (upd_cases g i (set_term t) j) as [(-> & _ & ->)| ->]; auto.
Qed.

Lemma inv_pred g i p : inv g -> b_stmts (blk g i) = [] -> inv (upd g i (push_pred p)).
Proof.
  intros I H. pose proof I as (Sy & _ & E). apply (same_succ_inv g); [| | | | |exact I].
  - rewrite upd_length. lia.
  - now apply sym_push_pred.
  - intros x. destruct (upd_cases g i (push_pred p) x) as [(-> & _ & ->)| ->]; reflexivity.
  - intros q _ N. destruct (upd_cases g i (push_pred p) q) as [(-> & _ & ->)| ->]; reflexivity.
  - intros j C N. destruct (upd_cases g i (push_pred p) j) as [(-> & _ & ->)| ->]; auto.
    right. cbn [push_pred b_stmts b_range]. specialize (E _ C N). now rewrite H in *.
Qed.

Lemma add_statement_pred g i s j : b_pred (blk (add_statement g i s) j) = b_pred (blk g j).
Proof.
  unfold add_statement. match goal with |- context [upd g i ?f] => destruct (upd_cases g i f j) as [(-> & _ & ->)| ->] end; reflexivity.
Qed.
Lemma add_statement_succ g i s j : b_succ (blk (add_statement g i s) j) = b_succ (blk g j).
Proof.
  unfold add_statement. match goal with |- context [upd g i ?f] => destruct (upd_cases g i f j) as [(-> & _ & ->)| ->] end; reflexivity.
Qed.
Lemma add_statement_other g i s j : j <> i -> blk (add_statement g i s) j = blk g j.
Proof. intros N. unfold add_statement. apply blk_upd_other. auto. Qed.

Definition ready (g : graph) (cur : nat) (s : stmt) : Prop :=
  cold g cur -> cur <> entry -> b_stmts (blk g cur) = [] -> expl g cur s.

Lemma inv_add g cur s : inv g -> cur < length g -> ready g cur s -> inv (add_statement g cur s).
Proof.
  intros I Hc R. pose proof I as (Sy & _ & E). apply (same_succ_inv g); [| | | | |exact I].
  - rewrite add_statement_length. lia.
  - now apply sym_add_statement.
  - intros x. apply add_statement_succ.
  - intros p _ _. apply add_statement_term.
  - intros j C N. destruct (Nat.eq_dec j cur) as [->|Ne].
    + right. rewrite add_statement_stmts by auto. specialize (E _ C N). specialize (R C N).
      assert (K : forall n, expl g cur n -> expl (add_statement g cur s) cur n).
      { intros n. apply expl_keep.
        - rewrite add_statement_length. lia.
        - apply add_statement_pred.
        - intros. apply add_statement_term. }
      destruct (b_stmts (blk g cur)) as [|n l]; cbn [app]; auto.
    + left. now rewrite add_statement_other.
Qed.

Lemma inv_edge g i j :
  inv g -> i < length g -> j < length g -> (path g entry i \/ ~ cold g j) -> inv (add_edge g i j).
Proof.
  intros (Sy & P & E) Hi Hj HP.
  pose proof (ext_add_edge none g i j) as X.
  assert (In j (b_succ (blk (add_edge g i j) i))) as Hij by now apply add_edge_succ.
  assert (Pj : path (add_edge g i j) entry j).
  { destruct HP as [HP|HP].
    - eapply path_edge; [|exact Hij]. eapply path_mono; [|exact HP]. apply (ext_succ _ _ _ X).
    - destruct (has_incoming g j) eqn:HI.
      + apply has_incoming_spec in HI as [-> | (p & _ & H)]; [constructor|].
        eapply path_mono; [|exact (P p j H)]. apply (ext_succ _ _ _ X).
      + exfalso. apply HP. now apply not_incoming_cold. }
  split; [now apply sym_edge|]. split.
  - intros x k H. apply edge_inv in H as [H|(-> & ->)]; auto.
    eapply path_mono; [|exact (P x k H)]. apply (ext_succ _ _ _ X).
  - intros k C N. assert (Nk : k <> j) by (intros ->; now apply (C i)).
    assert (C0 : cold g k) by (eapply cold_mono; [apply (ext_succ _ _ _ X)|exact C]).
    specialize (E k C0 N). rewrite add_edge_stmts, add_edge_range.
    destruct (b_stmts (blk g k)) as [|n l]; auto.
    eapply expl_keep; [| | |exact E].
    + rewrite add_edge_length. lia.
    + unfold add_edge. rewrite blk_upd_other by auto.
      destruct (upd_cases g i (fun b => if memn j (b_succ b) then b else push_succ j b) k) as [(-> & _ & ->)| ->]; auto.
      destruct (memn _ _); reflexivity.
    + intros p _ _. apply add_edge_term.
Qed.
Lemma add_edge_pred_other g i j k : k <> j -> b_pred (blk (add_edge g i j) k) = b_pred (blk g k).
Proof.
  intros N. unfold add_edge. rewrite blk_upd_other by auto.
  destruct (upd_cases g i (fun b => if memn j (b_succ b) then b else push_succ j b) k) as [(-> & _ & ->)| ->]; auto.
  destruct (memn _ _); reflexivity.
Qed.

Lemma incoming_path g i : inv g -> has_incoming g i = true -> path g entry i.
Proof. intros (_ & P & _) H. apply has_incoming_spec in H as [-> | (p & _ & H)]; [constructor|eauto]. Qed.


Definition tgt (ls : loops) (g : graph) : Prop := forall j, targets ls j -> j < length g /\ ~ cold g j.
Definition qs (b : bool) (s : stmt) : Prop := forall b' l d n, inner b s b' l -> adjacent l d n -> Q b' d n.
Definition qb (b : bool) (s : stmt) : Prop := forall b' l d n, sequence b s b' l -> adjacent l d n -> Q b' d n.

Record kpost (ls : loops) (g : graph) (cur : nat) (g' : graph) (out : nat) : Prop := {
  k_ext : ext (fun i => i = cur) g g';
  k_out : out < length g' /\ (out = cur \/ length g <= out);
  k_edges : only_new (fun j => length g <= j \/ targets ls j) g g';
  k_pred : forall i, i < length g -> b_pred (blk g' i) = b_pred (blk g i) \/ targets ls i;
  k_inv : inv g'
}.

Lemma tgt_ext S ls g g' : ext S g g' -> tgt ls g -> tgt ls g'.
Proof.
  intros X T j Hj. destruct (T j Hj) as (A & B). split; [pose proof (ext_len _ _ _ X); lia|].
  intros C. apply B. eapply cold_mono; [apply (ext_succ _ _ _ X)|exact C].
Qed.

Lemma kpost_trans ls g cur g1 c1 g2 out :
  kpost ls g cur g1 c1 -> kpost ls g1 c1 g2 out -> kpost ls g cur g2 out.
Proof.
  intros [A1 B1 C1 D1 E1] [A2 B2 C2 D2 E2].
  pose proof (ext_len _ _ _ A1). pose proof (ext_len _ _ _ A2). split.
  - eapply ext_trans2; [exact A1|exact A2|]. cbn. intros. lia.
  - lia.
  - eapply only_new_trans; [exact C1|]. eapply only_new_weaken; [|exact C2]. cbn. intros j [?|?]; auto. left. lia.
  - intros i Hi. destruct (D1 i Hi) as [<-|]; auto. apply D2. lia.
  - exact E2.
Qed.

Lemma term_reason_terminated t : terminated t = true <-> exists w, term_reason t = Some w.
Proof. destruct t; cbn; split; intros H; try discriminate; eauto; destruct H; discriminate. Qed.
Lemma not_cold_incoming g i : has_incoming g i = true -> i <> entry -> ~ cold g i.
Proof. intros H N C. apply has_incoming_spec in H as [H|(p & _ & H)]; [contradiction|now apply (C p)]. Qed.

(** What the block that is current after a statement says about it. *)
Definition after_single (ls : loops) (g : graph) (cur : nat) (s : stmt) (g' : graph) (out : nat) : Prop :=
  if has_incoming g cur then
    (out = cur /\ exists w, leaves_here stopping (flag ls) w s /\ term_reason (b_term (blk g' out)) = Some w) \/
    (b_term (blk g' out) = TNone /\ has_incoming g' out = true) \/
    (b_term (blk g' out) = TNone /\ b_stmts (blk g' out) = [] /\ has_incoming g' out = false /\
       (exists r c t e, s = If r c t (Some e)) /\ blocked stopping (flag ls) s /\
       exists p, b_pred (blk g' out) = [p] /\ p < length g' /\ b_term (blk g' p) = TBranch)
  else out = cur /\ b_term (blk g' out) = TNone /\ has_incoming g' out = false /\ b_stmts (blk g' out) <> [].

Definition ksingle (s : stmt) : Prop := forall g cur ls g' out,
  inv g -> cur < length g -> b_term (blk g cur) = TNone -> tgt ls g -> ready g cur s ->
  qs (flag ls) s -> no_constant_if s -> build stopping false s g cur ls = (g', out) ->
  kpost ls g cur g' out /\ after_single ls g cur s g' out.
Definition kbodied (s : stmt) : Prop := forall g cur ls g' out,
  inv g -> cur < length g -> b_term (blk g cur) = TNone -> tgt ls g -> has_incoming g cur = true ->
  qb (flag ls) s -> no_constant_if s -> build stopping true s g cur ls = (g', out) ->
  kpost ls g cur g' out /\ (terminated (b_term (blk g' out)) = true \/ b_term (blk g' out) = TNone) /\
  (terminated (b_term (blk g' out)) = true \/ has_incoming g' out = false -> blocked stopping (flag ls) s).

Lemma nci_child s c : no_constant_if s -> In c (children s) -> no_constant_if c.
Proof. intros H I r k t e D. apply (H r k t e). eapply desc_child; eauto. Qed.

Lemma next_ready ls g cur s g' out n :
  inv g' -> after_single ls g cur s g' out -> terminated (b_term (blk g' out)) = false -> Q (flag ls) s n ->
  b_term (blk g' out) = TNone /\ ready g' out n.
Proof.
  intros I A T q. unfold after_single in A. destruct (has_incoming g cur).
  - destruct A as [(-> & w & _ & E)|[(E & H)|(E & St & H & If & B & p & P1 & P2 & P3)]].
    + assert (X : terminated (b_term (blk g' cur)) = true) by (apply term_reason_terminated; eauto). congruence.
    + split; auto. intros C N. exfalso. now apply (not_cold_incoming g' out).
    + split; auto. intros _ _ _. exists p, s, (flag ls). repeat split; auto.
  - destruct A as (-> & E & _ & N). split; auto. intros _ _ St. contradiction.
Qed.

Lemma inv_add_all l : forall g i, inv g -> i < length g ->
  match l with [] => True | s :: _ => ready g i s end -> inv (add_all g i l).
Proof.
  induction l as [|s l IH]; intros g i I Hi R; [exact I|].
  change (add_all g i (s :: l)) with (add_all (add_statement g i s) i l). apply IH.
  - now apply inv_add.
  - now rewrite add_statement_length.
  - destruct l as [|n l]; auto. intros _ _ St. rewrite add_statement_stmts in St by auto.
    destruct (b_stmts (blk g i)); discriminate.
Qed.
Lemma add_all_incoming l : forall g i j, has_incoming (add_all g i l) j = has_incoming g j.
Proof.
  induction l as [|s l IH]; intros g i j; [reflexivity|].
  change (add_all g i (s :: l)) with (add_all (add_statement g i s) i l). rewrite IH. apply add_statement_incoming.
Qed.
Lemma add_all_pred l : forall g i j, b_pred (blk (add_all g i l) j) = b_pred (blk g j).
Proof.
  induction l as [|s l IH]; intros g i j; [reflexivity|].
  change (add_all g i (s :: l)) with (add_all (add_statement g i s) i l). rewrite IH. apply add_statement_pred.
Qed.
Lemma add_all_term l : forall g i j, b_term (blk (add_all g i l) j) = b_term (blk g j).
Proof.
  induction l as [|s l IH]; intros g i j; [reflexivity|].
  change (add_all g i (s :: l)) with (add_all (add_statement g i s) i l). rewrite IH. apply add_statement_term.
Qed.

Lemma kbuild_list ls l : forall g cur g' out,
  Forall ksingle l -> inv g -> cur < length g -> b_term (blk g cur) = TNone -> tgt ls g ->
  match l with [] => True | s :: _ => ready g cur s end ->
  (forall s, In s l -> qs (flag ls) s) -> (forall d n, adjacent l d n -> Q (flag ls) d n) ->
  (forall s, In s l -> no_constant_if s) ->
  build_list (fun s g c => build stopping false s g c ls) l g cur = (g', out) ->
  kpost ls g cur g' out /\ (terminated (b_term (blk g' out)) = true \/ b_term (blk g' out) = TNone) /\
  (has_incoming g cur = true -> terminated (b_term (blk g' out)) = true \/ has_incoming g' out = false ->
   exists s, In s l /\ blocked stopping (flag ls) s).
Proof.
  induction l as [|s l IH]; intros g cur g' out Hs I Hc Tc HT R Hq Ha Hn E.
  { cbn in E. injection E as <- <-. split; [|split].
    - split; auto; [apply ext_refl|apply only_new_refl].
    - now right.
    - intros H1 [H2|H2]; [rewrite Tc in H2; discriminate|congruence]. }
  inversion Hs as [|? ? Hs1 Hs2]; subst. cbn [build_list] in E.
  destruct (build stopping false s g cur ls) as [g1 c1] eqn:E1.
  destruct (Hs1 g cur ls g1 c1 I Hc Tc HT R (Hq s (or_introl eq_refl)) (Hn s (or_introl eq_refl)) E1) as (P1 & A1).
  pose proof (k_ext _ _ _ _ _ P1) as X1. pose proof (ext_len _ _ _ X1) as XL1.
  pose proof (k_inv _ _ _ _ _ P1) as I1. destruct (k_out _ _ _ _ _ P1) as (O1 & O2).
  assert (B1 : has_incoming g cur = true -> terminated (b_term (blk g1 c1)) = true \/ has_incoming g1 c1 = false ->
     blocked stopping (flag ls) s).
  { intros H H'. unfold after_single in A1. rewrite H in A1.
    destruct A1 as [(-> & w & L & _)|[(T & H2)|(_ & _ & _ & _ & B & _)]]; auto.
    - now apply (bl_here _ _ w).
    - exfalso. destruct H' as [H'|H']; [rewrite T in H'; discriminate|congruence]. }
  destruct l as [|n l].
  { injection E as <- <-. split; auto. split.
    - unfold after_single in A1. destruct (has_incoming g cur).
      + destruct A1 as [(-> & w & _ & L)|[(T & _)|(T & _)]]; auto. left. apply term_reason_terminated. eauto.
      + right. apply A1.
    - intros H H'. exists s. split; [now left|auto]. }
  assert (Qn : Q (flag ls) s n) by (apply Ha; now exists [], l).
  destruct (terminated (b_term (blk g1 c1))) eqn:Et.
  - set (dead := length g1) in *. set (ga := upd (new_blocks g1 1) dead (push_pred c1)) in *.
    apply pair_equal_spec in E. destruct E as [<- <-].
    assert (La : length ga = Datatypes.S dead) by (unfold ga; rewrite upd_length, new_blocks_length; unfold dead; lia).
    assert (Bd : blk ga dead = push_pred c1 empty_block).
    { unfold ga. rewrite blk_upd_same by (rewrite new_blocks_length; unfold dead; lia).
      rewrite blk_new_blocks. now rewrite blk_out by (unfold dead; lia). }
    assert (Bo : forall i, i <> dead -> blk ga i = blk g1 i).
    { intros i Ni. unfold ga. rewrite blk_upd_other by auto. apply blk_new_blocks. }
    assert (Ia : inv ga).
    { apply inv_pred; [now apply inv_new|]. rewrite blk_new_blocks, blk_out by (unfold dead; lia). reflexivity. }
    assert (Lh : exists w, leaves_here stopping (flag ls) w s /\ term_reason (b_term (blk g1 c1)) = Some w).
    { unfold after_single in A1. destruct (has_incoming g cur).
      - destruct A1 as [(-> & A1)|[(T & _)|(T & _)]]; auto; rewrite T in Et; discriminate.
      - destruct A1 as (_ & T & _). rewrite T in Et. discriminate. }
    assert (Rd : ready ga dead n).
    { intros _ _ _. exists c1, s, (flag ls). rewrite Bd. cbn [push_pred b_pred empty_block app]. split; auto.
      split; [unfold dead in *; lia|]. split; auto. left.
      destruct Lh as (w & L1 & L2). exists w. split; auto. rewrite Bo by (unfold dead; lia). exact L2. }
    destruct (add_all_facts (n :: l) ga dead) as (X3 & L3 & _ & _ & _); [lia|].
    set (g2 := add_all ga dead (n :: l)) in *.
    assert (X : ext (fun i => i = dead) g1 g2).
    { eapply ext_trans; [|exact X3]. unfold ga. eapply ext_trans; [apply ext_new|apply ext_push_pred]. }
    split; [|split].
    + apply (kpost_trans ls g cur g1 c1); auto. split.
      * eapply ext_weaken; [|exact X]. cbn. unfold dead. intros. lia.
      * rewrite L3, La. unfold dead. lia.
      * apply (only_new_weaken (fun _ => False)); [tauto|]. unfold g2.
        eapply only_new_trans; [|apply only_new_add_all].
        unfold ga. eapply only_new_trans; [apply only_new_blocks|]. now apply only_new_upd.
      * intros i Hi. left. unfold g2. rewrite add_all_pred. rewrite Bo; auto. unfold dead. lia.
      * apply inv_add_all; auto. lia.
    + right. unfold g2. rewrite add_all_term, Bd. reflexivity.
    + intros H _. exists s. split; [now left|auto].
  - destruct (next_ready ls g cur s g1 c1 n I1 A1 Et Qn) as (T1 & R1).
    edestruct (IH g1 c1 g' out) as (P2 & T2 & B2); eauto.
    + eapply tgt_ext; eauto.
    + intros x Hx. apply Hq. now right.
    + intros d m (pre & post & Ea). apply Ha. exists (s :: pre), post. cbn. now rewrite Ea.
    + intros x Hx. apply Hn. now right.
    + split; [eapply kpost_trans; eauto|]. split; auto.
      intros H H'. destruct (has_incoming g1 c1) eqn:H1.
      * destruct (B2 eq_refl H') as (x & Hx & Bx). exists x. split; [now right|auto].
      * exists s. split; [now left|auto].
Qed.

Lemma join_facts g from after :
  inv g -> from < length g -> after < length g -> from <> after ->
  (terminated (b_term (blk g from)) = true \/ b_term (blk g from) = TNone) ->
  let g' := join_branch g from after in
  inv g' /\ length g' = length g /\ ext (fun i => i = from) g g' /\ only_new (fun j => j = after) g g' /\
  (forall i, i <> after -> b_pred (blk g' i) = b_pred (blk g i)) /\
  (has_incoming g' after = true \/
   (g' = g /\ (terminated (b_term (blk g from)) = true \/ has_incoming g from = false))).
Proof.
  intros I Hf Ha Ne T g'. unfold g', join_branch.
  destruct (terminated (b_term (blk g from))) eqn:Et; [cbn [negb andb]|].
  { split; auto. split; auto. split; [apply ext_refl|]. split; [apply only_new_refl|]. split; auto. }
  destruct T as [T|T]; [discriminate|]. destruct (has_incoming g from) eqn:Hi; cbn [negb andb].
  2:{ split; auto. split; auto. split; [apply ext_refl|]. split; [apply only_new_refl|]. split; auto. }
  set (g1 := upd g from (set_term TGoto)).
  assert (L1 : length g1 = length g) by apply upd_length.
  assert (I1 : inv g1) by now apply inv_term.
  split; [|split; [|split; [|split; [|split]]]].
  - apply inv_edge; auto; try lia. left. apply incoming_path; auto.
    eapply has_incoming_ext; [|exact Hi]. now apply (ext_set_term (fun i => i = from)).
  - now rewrite add_edge_length.
  - eapply ext_trans; [|apply ext_add_edge]. now apply ext_set_term.
  - eapply only_new_trans; [|now apply only_new_edge]. now apply only_new_upd.
  - intros i Hi'. rewrite add_edge_pred_other by auto. unfold g1.
    destruct (upd_cases g from (set_term TGoto) i) as [(-> & _ & ->)| ->]; reflexivity.
  - left. apply has_incoming_edge; lia.
Qed.

Lemma branch_step ls s g b after ga ea :
  kbodied s -> inv g -> b < length g -> b_term (blk g b) = TNone -> has_incoming g b = true -> tgt ls g ->
  after < length g -> b <> after -> qb (flag ls) s -> no_constant_if s -> build stopping true s g b ls = (ga, ea) ->
  let g' := join_branch ga ea after in
  inv g' /\ ext (fun i => i = b) g g' /\
  only_new (fun j => length g <= j \/ targets ls j \/ j = after) g g' /\
  (forall i, i < length g -> i <> after -> b_pred (blk g' i) = b_pred (blk g i) \/ targets ls i) /\
  (has_incoming g' after = true \/
   (blocked stopping (flag ls) s /\ (b_pred (blk g' after) = b_pred (blk g after) \/ targets ls after))).
Proof.
  intros K I Hb Tb Hi HT Ha Ne q nc E g'.
  destruct (K g b ls ga ea I Hb Tb HT Hi q nc E) as (P & T & B).
  pose proof (k_ext _ _ _ _ _ P) as X. pose proof (ext_len _ _ _ X) as XL. destruct (k_out _ _ _ _ _ P) as (O1 & O2).
  destruct (join_facts ga ea after (k_inv _ _ _ _ _ P) O1 ltac:(lia) ltac:(lia) T) as (J1 & J2 & J3 & J4 & J5 & J6).
  fold g' in J1, J2, J3, J4, J5, J6. split; auto. split; [|split; [|split]].
  - eapply ext_trans2; [exact X|exact J3|]. cbn. intros. lia.
  - eapply only_new_trans; [eapply only_new_weaken; [|exact (k_edges _ _ _ _ _ P)]|eapply only_new_weaken; [|exact J4]]; cbn; intros; tauto.
  - intros i Hi' Ni. rewrite J5 by auto. now apply (k_pred _ _ _ _ _ P).
  - destruct J6 as [J6|(J6 & J7)]; auto. right. split; [now apply B|]. rewrite J6. now apply (k_pred _ _ _ _ _ P).
Qed.

(** ** Statements *)
Lemma qb_qs b s : qb b s -> qs b s.
Proof. intros H b' l d n I A. eapply H; eauto. now constructor. Qed.

Lemma dead_single s g cur ls g' out :
  inv g -> cur < length g -> b_term (blk g cur) = TNone -> ready g cur s -> has_incoming g cur = false ->
  (g', out) = (add_statement g cur s, cur) -> kpost ls g cur g' out /\ after_single ls g cur s g' out.
Proof.
  intros I Hc Tc R H E. apply pair_equal_spec in E. destruct E as [-> ->]. split.
  - split.
    + now apply ext_add_statement.
    + rewrite add_statement_length. auto.
    + now apply only_new_upd.
    + intros i _. left. apply add_statement_pred.
    + now apply inv_add.
  - unfold after_single. rewrite H. split; auto. rewrite add_statement_term, add_statement_incoming.
    split; auto. split; auto. rewrite add_statement_stmts by auto. destruct (b_stmts (blk g cur)); discriminate.
Qed.

Lemma plain_single s g cur ls :
  inv g -> cur < length g -> b_term (blk g cur) = TNone -> has_incoming g cur = true ->
  kpost ls g cur (add_statement g cur s) cur /\ after_single ls g cur s (add_statement g cur s) cur.
Proof.
  intros I Hc Tc H. split.
  - split.
    + now apply ext_add_statement.
    + rewrite add_statement_length. auto.
    + now apply only_new_upd.
    + intros i _. left. apply add_statement_pred.
    + apply inv_add; auto. intros C N. exfalso. now apply (not_cold_incoming g cur).
  - unfold after_single. rewrite H. right. left. rewrite add_statement_term, add_statement_incoming. auto.
Qed.

Lemma same_single s g cur ls :
  inv g -> cur < length g -> b_term (blk g cur) = TNone -> has_incoming g cur = true ->
  kpost ls g cur g cur /\ after_single ls g cur s g cur.
Proof.
  intros I Hc Tc H. split.
  - split; auto; [apply ext_refl|apply only_new_refl].
  - unfold after_single. rewrite H. auto.
Qed.

Lemma term_single s g cur ls t w :
  inv g -> cur < length g -> b_term (blk g cur) = TNone -> has_incoming g cur = true ->
  leaves_here stopping (flag ls) w s -> term_reason t = Some w ->
  kpost ls g cur (upd g cur (set_term t)) cur /\ after_single ls g cur s (upd g cur (set_term t)) cur.
Proof.
  intros I Hc Tc H L Tr. split.
  - split.
    + now apply ext_set_term.
    + rewrite upd_length. auto.
    + now apply only_new_upd.
    + intros i _. left. destruct (upd_cases g cur (set_term t) i) as [(-> & _ & ->)| ->]; reflexivity.
    + now apply inv_term.
  - unfold after_single. rewrite H. left. split; auto. exists w. split; auto. now rewrite blk_upd_same.
Qed.

Lemma jump_single s g cur ls t w target :
  inv g -> cur < length g -> b_term (blk g cur) = TNone -> has_incoming g cur = true -> tgt ls g -> targets ls target ->
  leaves_here stopping (flag ls) w s -> term_reason t = Some w ->
  kpost ls g cur (add_edge (upd g cur (set_term t)) cur target) cur /\
  after_single ls g cur s (add_edge (upd g cur (set_term t)) cur target) cur.
Proof.
  intros I Hc Tc H HT Ht L Tr. destruct (HT _ Ht) as (A & B). split.
  - split.
    + eapply ext_trans; [|apply ext_add_edge]. now apply ext_set_term.
    + rewrite add_edge_length, upd_length. auto.
    + eapply only_new_trans; [|apply only_new_edge; right; exact Ht]. now apply only_new_upd.
    + intros i _. destruct (Nat.eq_dec i target) as [->|N]; auto. left. rewrite add_edge_pred_other by auto.
      destruct (upd_cases g cur (set_term t) i) as [(-> & _ & ->)| ->]; reflexivity.
    + apply inv_edge; rewrite ?upd_length; auto; [now apply inv_term|].
      right. intros C. apply B. eapply cold_mono; [|exact C].
      apply (ext_succ _ _ _ (ext_set_term (fun i => i = cur) g cur t eq_refl)).
  - unfold after_single. rewrite H. left. split; auto. exists w. split; auto.
    rewrite add_edge_term, blk_upd_same by auto. exact Tr.
Qed.

Lemma classify_leaves r f b :
  match classify stopping f with
  | KReturn => leaves_here stopping b AfterReturn (Call r f)
  | KBreak => b = true -> leaves_here stopping b AfterBreak (Call r f)
  | KNext => b = true -> leaves_here stopping b AfterNext (Call r f)
  | KStop => leaves_here stopping b AfterStop (Call r f)
  | KOther => True
  end.
Proof.
  pose proof (fun_name_unqualified f) as U. unfold classify, leaves_here.
  destruct (teqb (fun_name f) (lit "return")) eqn:E1; [|destruct (teqb (fun_name f) (lit "break")) eqn:E2; [|destruct (teqb (fun_name f) (lit "next")) eqn:E3; [|destruct (mem (fun_name f) stopping) eqn:E4; auto]]].
  - apply teqb_eq in E1. rewrite E1 in U. split; [now constructor|]. split; [discriminate|]. intros [?|?]; discriminate.
  - apply teqb_eq in E2. rewrite E2 in U. intros ->. split; [now constructor|]. split; [discriminate|auto].
  - apply teqb_eq in E3. rewrite E3 in U. intros ->. split; [now constructor|]. split; [discriminate|auto].
  - apply mem_iff in E4. split; [econstructor; eauto|]. split; [discriminate|]. intros [?|?]; discriminate.
Qed.

Lemma kbodied_of_ksingle s : (forall r l, s <> Block r l) -> ksingle s -> kbodied s.
Proof.
  intros NB K g cur ls g' out I Hc Tc HT H q nc E.
  assert (E' : build stopping false s g cur ls = (g', out)).
  { destruct s; auto. exfalso. eapply NB; reflexivity. }
  destruct (K g cur ls g' out I Hc Tc HT) as (P & A); auto using qb_qs.
  { intros C N. exfalso. now apply (not_cold_incoming g cur). }
  split; auto. unfold after_single in A. rewrite H in A.
  destruct A as [(-> & w & L & T)|[(T & H')|(T & _ & _ & _ & B & _)]].
  - split; [left; apply term_reason_terminated; eauto|]. intros _. now apply (bl_here _ _ w).
  - split; auto. intros [D|D]; [rewrite T in D; discriminate|congruence].
  - split; auto.
Qed.

Lemma nci_const r c t e : no_constant_if (If r c t e) -> const_cond c = None.
Proof.
  intros H. destruct (H r c t e (desc_self _)) as (A & B). destruct (const_cond c) as [b|] eqn:E; auto.
  pose proof (const_cond_sound c T b A E). pose proof (const_cond_sound c F b B E). destruct b; discriminate.
Qed.

Lemma branch_setup g cur :
  inv g -> cur < length g -> b_term (blk g cur) = TNone -> has_incoming g cur = true ->
  let th := length g in let el := S th in let after := S el in
  let g0 := branch_edges (new_blocks g 3) None cur th el in
  inv g0 /\ length g0 = length g + 3 /\ ext (fun i => i = cur) g g0 /\ only_new (fun j => length g <= j) g g0 /\
  (forall i, i < length g -> b_pred (blk g0 i) = b_pred (blk g i)) /\
  has_incoming g0 th = true /\ has_incoming g0 el = true /\ b_term (blk g0 cur) = TBranch /\
  (forall i, length g <= i -> b_term (blk g0 i) = TNone /\ b_stmts (blk g0 i) = []) /\ b_pred (blk g0 after) = [].
Proof.
  intros I Hc Tc H th el after g0. unfold g0, branch_edges.
  set (ga := upd (new_blocks g 3) cur (set_term TBranch)) in *.
  set (gb := add_edge ga cur th) in *.
  assert (La : length ga = length g + 3) by (unfold ga; now rewrite upd_length, new_blocks_length).
  assert (Lb : length gb = length g + 3) by (unfold gb; now rewrite add_edge_length).
  assert (Xa : ext (fun i => i = cur) g ga).
  { unfold ga. eapply ext_trans; [apply ext_new|now apply ext_set_term]. }
  assert (Ia : inv ga).
  { apply inv_term; [now apply inv_new|]. now rewrite blk_new_blocks. }
  assert (Ha : has_incoming ga cur = true) by (eapply has_incoming_ext; eauto).
  assert (Ib : inv gb).
  { apply inv_edge; auto; [lia|unfold th; lia|]. left. now apply incoming_path. }
  assert (Hb : has_incoming gb cur = true).
  { eapply has_incoming_ext; [|exact Ha]. apply (ext_add_edge none). }
  assert (Bo : forall i, i <> cur -> blk ga i = blk g i).
  { intros i Ni. unfold ga. rewrite blk_upd_other by auto. apply blk_new_blocks. }
  split; [|split; [|split; [|split; [|split; [|split; [|split; [|split; [|split]]]]]]]].
  - apply inv_edge; auto; [lia|unfold el, th; lia|]. left. now apply incoming_path.
  - now rewrite add_edge_length.
  - eapply ext_trans; [exact Xa|]. eapply ext_trans; apply ext_add_edge.
  - unfold gb. eapply only_new_trans; [|apply only_new_edge; unfold el, th; lia].
    eapply only_new_trans; [|apply only_new_edge; unfold el, th; lia].
    unfold ga. eapply only_new_trans; [apply only_new_blocks|now apply only_new_upd].
  - intros i Hi. unfold gb. rewrite !add_edge_pred_other by (unfold el, th; lia).
    unfold ga. destruct (upd_cases (new_blocks g 3) cur (set_term TBranch) i) as [(-> & _ & ->)| ->]; cbn; now rewrite blk_new_blocks.
  - eapply has_incoming_ext; [apply (ext_add_edge none)|]. apply has_incoming_edge; unfold th; lia.
  - apply has_incoming_edge; unfold el, th; lia.
  - unfold gb. rewrite !add_edge_term. unfold ga. rewrite blk_upd_same by (rewrite new_blocks_length; lia). reflexivity.
  - intros i Hi. unfold gb. rewrite !add_edge_term, !add_edge_stmts. rewrite Bo by lia. now rewrite blk_out.
  - unfold gb. rewrite !add_edge_pred_other by (unfold after, el, th; lia). rewrite Bo by (unfold after, el, th; lia).
    now rewrite blk_out by (unfold after, el, th; lia).
Qed.

Lemma mark_facts g after cur :
  inv g -> b_stmts (blk g after) = [] -> after < length g ->
  let g' := mark_after g after cur in
  inv g' /\ length g' = length g /\ ext none g g' /\ only_new none g g' /\
  (forall i, i <> after -> blk g' i = blk g i) /\
  b_term (blk g' after) = b_term (blk g after) /\ b_stmts (blk g' after) = b_stmts (blk g after) /\
  (has_incoming g after = true -> g' = g) /\
  (has_incoming g after = false -> has_incoming g' after = false /\ b_pred (blk g' after) = b_pred (blk g after) ++ [cur]).
Proof.
  intros I St Ha g'. unfold g', mark_after. destruct (has_incoming g after) eqn:H.
  - split; [exact I|]. split; [reflexivity|]. split; [apply ext_refl|]. split; [apply only_new_refl|]. split; [reflexivity|]. split; [reflexivity|]. split; [reflexivity|]. split; [auto|]. discriminate.
  - split; [now apply inv_pred|]. split; [apply upd_length|]. split; [apply ext_push_pred|].
    split; [now apply only_new_upd|]. split; [intros i N; now rewrite blk_upd_other by auto|].
    rewrite blk_upd_same by auto. cbn [push_pred b_term b_stmts b_pred]. split; auto. split; auto. split; [discriminate|].
    intros _. split; auto. pose proof I as (Sy & _).
    destruct (not_incoming_cold g after Sy H) as (N & C).
    apply cold_not_incoming; auto. intros x Hx. apply (C x).
    destruct (upd_cases g after (push_pred cur) x) as [(-> & _ & E)|E]; rewrite E in Hx; exact Hx.
Qed.

Lemma kif r c t e : ksingle t -> kbodied t -> (forall x, e = Some x -> kbodied x) -> ksingle (If r c t e).
Proof.
  intros _ Kt Ke g cur ls g' out I Hc Tc HT R q nc E.
  pose proof (nci_const r c t e nc) as Ec.
  cbn [build] in E. rewrite Ec in E. cbn [is_false is_true] in E.
  destruct (has_incoming g cur) eqn:Hi; cbn [negb] in E; [|apply dead_single; auto].
  destruct (branch_setup g cur I Hc Tc Hi) as (I0 & L0 & X0 & N0 & Pr0 & Ht0 & He0 & T0 & Fr0 & Pa0).
  set (th := length g) in *. set (el := S th) in *. set (after := S el) in *.
  set (g0 := branch_edges (new_blocks g 3) None cur th el) in *.
  assert (HT0 : tgt ls g0) by (eapply tgt_ext; eauto).
  destruct (build stopping true t g0 th ls) as [ga ea] eqn:Ea.
  assert (qt : qb (flag ls) t) by (intros b' l d n S A; apply (q b' l d n); auto; now constructor).
  assert (nt : no_constant_if t) by (apply (nci_child _ _ nc); destruct e; now left).
  destruct (branch_step ls t g0 th after ga ea Kt I0 ltac:(unfold th; lia) (proj1 (Fr0 th ltac:(unfold th; lia))) Ht0 HT0
     ltac:(unfold after, el, th; lia) ltac:(unfold after, el, th; lia) qt nt Ea) as (I1 & X1 & N1 & Pr1 & J1).
  set (g1 := join_branch ga ea after) in *.
  pose proof (ext_len _ _ _ X1) as XL1.
  assert (NTa : ~ targets ls after) by (intros H; destruct (HT _ H); unfold after, el, th in *; lia).
  assert (K1 : forall i, i < length g0 -> i <> th -> b_stmts (blk g1 i) = b_stmts (blk g0 i) /\ b_term (blk g1 i) = b_term (blk g0 i)).
  { intros i Hi' Ni. destruct (ext_keep _ _ _ X1 i Hi' Ni) as (? & _ & ?). auto. }
  match type of E with (mark_after ?x _ _, _) = _ => set (g2 := x) in E end.
  (* the else branch *)
  assert (B2 : inv g2 /\ ext (fun i => i = el) g1 g2 /\
    only_new (fun j => length g1 <= j \/ targets ls j \/ j = after) g1 g2 /\
    (forall i, i < length g1 -> i <> after -> b_pred (blk g2 i) = b_pred (blk g1 i) \/ targets ls i) /\
    (has_incoming g2 after = true \/
     ((exists x, e = Some x /\ blocked stopping (flag ls) x) /\ b_pred (blk g2 after) = b_pred (blk g1 after)))).
  { assert (Tel : b_term (blk g1 el) = TNone).
    { destruct (K1 el) as (_ & ->); try (unfold el, th; lia). apply Fr0. unfold el, th; lia. }
    assert (Hel : has_incoming g1 el = true) by (eapply has_incoming_ext; eauto).
    unfold g2. destruct e as [x|].
    - destruct (build stopping true x g1 el ls) as [gb eb] eqn:Eb.
      assert (qx : qb (flag ls) x) by (intros b' l d n S A; apply (q b' l d n); auto; now constructor).
      assert (nx : no_constant_if x) by (apply (nci_child _ _ nc); right; now left).
      destruct (branch_step ls x g1 el after gb eb (Ke x eq_refl) I1 ltac:(unfold el, th in *; lia) Tel Hel
        (tgt_ext _ _ _ _ X1 HT0) ltac:(unfold after, el, th in *; lia) ltac:(unfold after; lia) qx nx Eb) as (I2 & X2 & N2 & Pr2 & J2).
      split; auto. split; auto. split; auto. split; auto.
      destruct J2 as [J2|(Bx & [J2|J2])]; auto; try contradiction. right. eauto.
    - set (gt := upd g1 el (set_term TGoto)).
      assert (Lt : length gt = length g1) by apply upd_length.
      assert (It : inv gt) by now apply inv_term.
      assert (Xt : ext (fun i => i = el) g1 gt) by now apply ext_set_term.
      split; [|split; [|split; [|split]]].
      + apply inv_edge; auto; try (unfold after, el, th in *; lia). left. apply incoming_path; auto.
        eapply has_incoming_ext; eauto.
      + eapply ext_trans; [exact Xt|apply ext_add_edge].
      + eapply only_new_trans; [|apply only_new_edge; auto]. now apply only_new_upd.
      + intros i Hi' Ni. left. rewrite add_edge_pred_other by auto. unfold gt.
        destruct (upd_cases g1 el (set_term TGoto) i) as [(-> & _ & ->)| ->]; reflexivity.
      + left. apply has_incoming_edge; unfold after, el, th in *; lia. }
  destruct B2 as (I2 & X2 & N2 & Pr2 & J2). pose proof (ext_len _ _ _ X2) as XL2.
  assert (K2 : forall i, i < length g0 -> i <> th -> i <> el -> b_stmts (blk g2 i) = b_stmts (blk g0 i) /\ b_term (blk g2 i) = b_term (blk g0 i)).
  { intros i Hi' N1' N2'. destruct (K1 i Hi' N1') as (<- & <-). destruct (ext_keep _ _ _ X2 i) as (? & _ & ?); auto. lia. }
  destruct (K2 after) as (Sa & Ta); try (unfold after, el, th; lia).
  destruct (Fr0 after) as (Ta0 & Sa0); [unfold after, el, th; lia|].
  rewrite Sa0 in Sa. rewrite Ta0 in Ta.
  destruct (mark_facts g2 after cur I2 Sa ltac:(unfold after, el, th in *; lia)) as (I3 & L3 & X3 & N3 & O3 & T3 & S3 & M1 & M2).
  apply pair_equal_spec in E. destruct E as [<- <-].
  set (g3 := mark_after g2 after cur) in *.
  split.
  - split.
    + apply (ext_trans2 _ (fun i => i = th \/ i = el) g g0); [exact X0| |cbn; unfold el, th; intros; lia].
      eapply ext_trans2; [eapply ext_weaken; [|exact X1]; cbn; auto| |intros i Hi' Hx; exact Hx].
      eapply ext_trans2; [eapply ext_weaken; [|exact X2]; cbn; auto|exact X3|intros i Hi' []].
    + rewrite L3. unfold after, el, th in *. lia.
    + eapply only_new_trans; [eapply only_new_weaken; [|exact N0]; cbn; auto|].
      eapply only_new_trans; [eapply only_new_weaken; [|exact N1]; cbv beta; unfold after, el, th in *; intros j [?|[?|?]]; auto; left; lia|].
      eapply only_new_trans; [eapply only_new_weaken; [|exact N2]; cbv beta; unfold after, el, th in *; intros j [?|[?|?]]; auto; left; lia|].
      eapply only_new_weaken; [|exact N3]. intros j [].
    + intros i Hi'. rewrite O3 by (unfold after, el, th; lia).
      destruct (Pr2 i) as [->|?]; auto; try (unfold after, el, th in *; lia).
      destruct (Pr1 i) as [->|?]; auto; try (unfold after, el, th in *; lia).
    + exact I3.
  - unfold after_single. rewrite Hi. right. rewrite T3, Ta, S3, Sa.
    destruct (has_incoming g2 after) eqn:H2.
    + left. split; auto. now rewrite (M1 eq_refl).
    + right. destruct (M2 eq_refl) as (M3 & M4). split; auto. split; auto. split; auto.
      destruct J2 as [J2|((x & -> & Bx) & J2)]; [congruence|].
      destruct J1 as [J1|(Bt & [J1|J1])]; [|split; [eauto|]|contradiction].
      { exfalso. assert (X : has_incoming g2 after = true) by (eapply has_incoming_ext; eauto). congruence. }
      split; [now constructor|]. exists cur. rewrite M4, J2, J1, Pa0. split; auto. split; [lia|].
      rewrite O3 by (unfold after, el, th; lia). destruct (K2 cur) as (_ & ->); auto; unfold el, th in *; lia.
Qed.

Lemma kloop ls s b g cur g0 lbody after header g1 e1 :
  kbodied b -> (forall f b' l, sequence true b b' l -> inner f s b' l) -> In b (children s) ->
  has_incoming g cur = true -> qs (flag ls) s -> no_constant_if s -> tgt ls g ->
  inv g0 -> ext (fun i => i = cur) g g0 -> only_new (fun j => length g <= j) g g0 ->
  (forall i, i < length g -> b_pred (blk g0 i) = b_pred (blk g i)) ->
  length g <= lbody < length g0 -> length g <= after < length g0 -> length g <= header < length g0 -> lbody <> after ->
  b_term (blk g0 lbody) = TNone -> b_term (blk g0 after) = TNone ->
  0 < length g ->
  has_incoming g0 lbody = true -> has_incoming g0 header = true -> has_incoming g0 after = true ->
  build stopping true b g0 lbody ((header, after) :: ls) = (g1, e1) ->
  let g2 := loop_back g1 e1 header in
  kpost ls g cur g2 after /\ after_single ls g cur s g2 after.
Proof.
  intros Kb In_ Ch Hi q nc HT I0 X0 N0 Pr0 Hl Ha Hh Ne Tl Ta Lg Il Ih Ia E g2.
  pose proof (ext_len _ _ _ X0) as XL0.
  assert (HT0 : tgt ((header, after) :: ls) g0).
  { intros j (h & a & [E'|Hin] & Hj).
    - injection E' as <- <-. destruct Hj as [ -> | -> ]; (split; [lia|]); apply not_cold_incoming; auto; unfold entry; lia.
    - apply (tgt_ext _ _ _ _ X0 HT). now exists h, a. }
  assert (qb_ : qb true b).
  { intros b' l d n S A. apply (q b' l d n); auto. }
  destruct (Kb g0 lbody _ g1 e1 I0 (proj2 Hl) Tl HT0 Il qb_ (nci_child _ _ nc Ch) E) as (P & T & _).
  pose proof (k_ext _ _ _ _ _ P) as X1. pose proof (ext_len _ _ _ X1) as XL1. destruct (k_out _ _ _ _ _ P) as (O1 & O2).
  pose proof (k_inv _ _ _ _ _ P) as I1.
  assert (F : inv g2 /\ length g2 = length g1 /\ ext (fun i => i = e1) g1 g2 /\ only_new (fun j => j = header) g1 g2 /\
     (forall i, i <> header -> b_pred (blk g2 i) = b_pred (blk g1 i))).
  { unfold g2, loop_back. destruct (terminated (b_term (blk g1 e1))) eqn:Et; cbn [negb].
    - split; auto. split; auto. split; [apply ext_refl|]. split; [apply only_new_refl|auto].
    - destruct T as [T|T]; [discriminate|].
      assert (Xt : ext (fun i => i = e1) g1 (upd g1 e1 (set_term TGoto))) by now apply ext_set_term.
      split; [|split; [|split; [|split]]].
      + apply inv_edge; rewrite ?upd_length; auto; [now apply inv_term|lia|]. right.
        apply not_cold_incoming; [|unfold entry; lia].
        eapply has_incoming_ext; [exact Xt|]. eapply has_incoming_ext; [exact X1|exact Ih].
      + now rewrite add_edge_length, upd_length.
      + eapply ext_trans; [exact Xt|apply ext_add_edge].
      + eapply only_new_trans; [|now apply only_new_edge]. now apply only_new_upd.
      + intros i Ni. rewrite add_edge_pred_other by auto.
        destruct (upd_cases g1 e1 (set_term TGoto) i) as [(-> & _ & ->)| ->]; reflexivity. }
  destruct F as (I2 & L2 & X2 & N2 & Pr2).
  split.
  - split.
    + apply (ext_trans2 _ (fun i => i = lbody) g g0); [exact X0| |cbn; intros; lia].
      eapply ext_trans2; [exact X1|exact X2|]. cbn. intros. lia.
    + lia.
    + eapply only_new_trans; [eapply only_new_weaken; [|exact N0]; cbn; auto|].
      eapply only_new_trans.
      * eapply only_new_weaken; [|exact (k_edges _ _ _ _ _ P)]. cbn. intros j [H|(h & a & [E'|Hin] & Hj)].
        -- left. lia.
        -- injection E' as <- <-. left. lia.
        -- right. now exists h, a.
      * eapply only_new_weaken; [|exact N2]. cbn. intros j ->. left. lia.
    + intros i Hi'. rewrite Pr2 by lia. destruct (k_pred _ _ _ _ _ P i ltac:(lia)) as [->|(h & a & [E'|Hin] & Hj)]; auto.
      * injection E' as <- <-. lia.
      * right. now exists h, a.
    + exact I2.
  - unfold after_single. rewrite Hi. right. left. split.
    + destruct (ext_keep _ _ _ X2 after) as (_ & _ & ->); [lia|lia|].
      destruct (ext_keep _ _ _ X1 after) as (_ & _ & ->); auto; lia.
    + eapply has_incoming_ext; [exact X2|]. eapply has_incoming_ext; [exact X1|exact Ia].
Qed.

Lemma for_setup_inv g cur :
  inv g -> cur < length g -> b_term (blk g cur) = TNone -> has_incoming g cur = true ->
  let header := length g in let lbody := S header in let after := S lbody in
  let g0 := add_edge (add_edge (upd (add_edge (upd (new_blocks g 3) cur (set_term TGoto)) cur header)
              header (set_term TLoop)) header lbody) header after in
  inv g0 /\ length g0 = length g + 3 /\ ext (fun i => i = cur) g g0 /\ only_new (fun j => length g <= j) g g0 /\
  (forall i, i < length g -> b_pred (blk g0 i) = b_pred (blk g i)) /\
  b_term (blk g0 lbody) = TNone /\ b_term (blk g0 after) = TNone /\
  has_incoming g0 lbody = true /\ has_incoming g0 header = true /\ has_incoming g0 after = true.
Proof.
  intros I Hc Tc H header lbody after g0.
  set (ga := upd (new_blocks g 3) cur (set_term TGoto)) in *.
  set (gb := add_edge ga cur header) in *.
  set (gc := upd gb header (set_term TLoop)) in *.
  set (gd := add_edge gc header lbody) in *.
  assert (La : length ga = length g + 3) by (unfold ga; now rewrite upd_length, new_blocks_length).
  assert (Lb : length gb = length g + 3) by (unfold gb; now rewrite add_edge_length).
  assert (Lc : length gc = length g + 3) by (unfold gc; now rewrite upd_length).
  assert (Ld : length gd = length g + 3) by (unfold gd; now rewrite add_edge_length).
  assert (Xa : ext (fun i => i = cur) g ga).
  { unfold ga. eapply ext_trans; [apply ext_new|now apply ext_set_term]. }
  assert (Ia : inv ga) by (apply inv_term; [now apply inv_new|now rewrite blk_new_blocks]).
  assert (Ha : has_incoming ga cur = true) by (eapply has_incoming_ext; eauto).
  assert (Ib : inv gb) by (apply inv_edge; auto; [lia|unfold header; lia|left; now apply incoming_path]).
  assert (Bo : forall i, i <> cur -> blk ga i = blk g i).
  { intros i Ni. unfold ga. rewrite blk_upd_other by auto. apply blk_new_blocks. }
  assert (Tb : forall i, length g <= i -> b_term (blk gb i) = TNone).
  { intros i Hi. unfold gb. rewrite add_edge_term, Bo by lia. now rewrite blk_out. }
  assert (Ic : inv gc) by (apply inv_term; auto; apply Tb; unfold header; lia).
  assert (Hb : has_incoming gb header = true) by (apply has_incoming_edge; unfold header; lia).
  assert (Xc : ext (fun i => i = header) gb gc) by now apply ext_set_term.
  assert (Hh : has_incoming gc header = true) by (eapply has_incoming_ext; eauto).
  assert (Id : inv gd) by (apply inv_edge; auto; [unfold header; lia|unfold lbody, header; lia|left; now apply incoming_path]).
  assert (Hd : has_incoming gd header = true) by (eapply has_incoming_ext; [apply (ext_add_edge none)|exact Hh]).
  split; [|split; [|split; [|split; [|split; [|split; [|split; [|split; [|split]]]]]]]].
  - apply inv_edge; auto; [unfold header; lia|unfold after, lbody, header; lia|left; now apply incoming_path].
  - unfold g0. now rewrite add_edge_length.
  - apply (ext_trans2 _ (fun i => i = header) g ga); [exact Xa| |cbn; unfold header; intros; lia].
    eapply ext_trans; [apply ext_add_edge|]. eapply ext_trans; [exact Xc|]. eapply ext_trans; apply ext_add_edge.
  - unfold g0. eapply only_new_trans; [|apply only_new_edge; unfold after, lbody, header; lia].
    unfold gd. eapply only_new_trans; [|apply only_new_edge; unfold after, lbody, header; lia].
    unfold gc. eapply only_new_trans; [|now apply only_new_upd].
    unfold gb. eapply only_new_trans; [|apply only_new_edge; unfold after, lbody, header; lia].
    unfold ga. eapply only_new_trans; [apply only_new_blocks|now apply only_new_upd].
  - intros i Hi. unfold g0, gd. rewrite !add_edge_pred_other by (unfold after, lbody, header; lia).
    unfold gc. rewrite blk_upd_other by (unfold header; lia). unfold gb. rewrite add_edge_pred_other by (unfold header; lia).
    unfold ga. destruct (upd_cases (new_blocks g 3) cur (set_term TGoto) i) as [(-> & _ & ->)| ->]; cbn; now rewrite blk_new_blocks.
  - unfold g0, gd. rewrite !add_edge_term. unfold gc. rewrite blk_upd_other by (unfold lbody; lia). apply Tb. unfold lbody, header; lia.
  - unfold g0, gd. rewrite !add_edge_term. unfold gc. rewrite blk_upd_other by (unfold after, lbody; lia). apply Tb. unfold after, lbody, header; lia.
  - eapply has_incoming_ext; [apply (ext_add_edge none)|]. apply has_incoming_edge; unfold lbody, header; lia.
  - eapply has_incoming_ext; [apply (ext_add_edge none)|exact Hd].
  - apply has_incoming_edge; unfold after, lbody, header; lia.
Qed.

Lemma repeat_setup_inv g cur :
  inv g -> cur < length g -> b_term (blk g cur) = TNone -> has_incoming g cur = true ->
  let lbody := length g in let after := S lbody in
  let g0 := add_edge (add_edge (upd (new_blocks g 2) cur (set_term TGoto)) cur lbody) lbody after in
  inv g0 /\ length g0 = length g + 2 /\ ext (fun i => i = cur) g g0 /\ only_new (fun j => length g <= j) g g0 /\
  (forall i, i < length g -> b_pred (blk g0 i) = b_pred (blk g i)) /\
  b_term (blk g0 lbody) = TNone /\ b_term (blk g0 after) = TNone /\
  has_incoming g0 lbody = true /\ has_incoming g0 after = true.
Proof.
  intros I Hc Tc H lbody after g0.
  set (ga := upd (new_blocks g 2) cur (set_term TGoto)) in *.
  set (gb := add_edge ga cur lbody) in *.
  assert (La : length ga = length g + 2) by (unfold ga; now rewrite upd_length, new_blocks_length).
  assert (Lb : length gb = length g + 2) by (unfold gb; now rewrite add_edge_length).
  assert (Xa : ext (fun i => i = cur) g ga).
  { unfold ga. eapply ext_trans; [apply ext_new|now apply ext_set_term]. }
  assert (Ia : inv ga) by (apply inv_term; [now apply inv_new|now rewrite blk_new_blocks]).
  assert (Ha : has_incoming ga cur = true) by (eapply has_incoming_ext; eauto).
  assert (Ib : inv gb) by (apply inv_edge; auto; [lia|unfold lbody; lia|left; now apply incoming_path]).
  assert (Bo : forall i, i <> cur -> blk ga i = blk g i).
  { intros i Ni. unfold ga. rewrite blk_upd_other by auto. apply blk_new_blocks. }
  assert (Tb : forall i, length g <= i -> b_term (blk gb i) = TNone).
  { intros i Hi. unfold gb. rewrite add_edge_term, Bo by lia. now rewrite blk_out. }
  assert (Hb : has_incoming gb lbody = true) by (apply has_incoming_edge; unfold lbody; lia).
  split; [|split; [|split; [|split; [|split; [|split; [|split; [|split]]]]]]].
  - apply inv_edge; auto; [unfold lbody; lia|unfold after, lbody; lia|left; now apply incoming_path].
  - unfold g0. now rewrite add_edge_length.
  - eapply ext_trans; [exact Xa|]. eapply ext_trans; apply ext_add_edge.
  - unfold g0. eapply only_new_trans; [|apply only_new_edge; unfold after, lbody; lia].
    unfold gb. eapply only_new_trans; [|apply only_new_edge; unfold after, lbody; lia].
    unfold ga. eapply only_new_trans; [apply only_new_blocks|now apply only_new_upd].
  - intros i Hi. unfold g0, gb. rewrite !add_edge_pred_other by (unfold after, lbody; lia).
    unfold ga. destruct (upd_cases (new_blocks g 2) cur (set_term TGoto) i) as [(-> & _ & ->)| ->]; cbn; now rewrite blk_new_blocks.
  - unfold g0. rewrite !add_edge_term. apply Tb. unfold lbody; lia.
  - unfold g0. rewrite !add_edge_term. apply Tb. unfold after, lbody; lia.
  - eapply has_incoming_ext; [apply (ext_add_edge none)|exact Hb].
  - apply has_incoming_edge; unfold after, lbody; lia.
Qed.

Lemma kbuild_ok s : ksingle s /\ kbodied s.
Proof.
  assert (NB : forall s, (forall r l, s <> Block r l) -> ksingle s -> ksingle s /\ kbodied s)
    by (intros; split; auto; now apply kbodied_of_ksingle).
  induction s as [r|r f|r|r|r|r l IHl|r c t e IHt IHe|r b IHb|r c b IHb|r b IHb] using stmt_ind';
    try (apply NB; [discriminate|]).
  - intros g cur ls g' out I Hc Tc HT R q nc E. cbn [build] in E.
    destruct (has_incoming g cur) eqn:Hi; cbn [negb] in E; [|apply dead_single; auto].
    apply pair_equal_spec in E. destruct E as [<- <-]. now apply plain_single.
  - intros g cur ls g' out I Hc Tc HT R q nc E. cbn [build] in E.
    destruct (has_incoming g cur) eqn:Hi; cbn [negb] in E; [|apply dead_single; auto].
    pose proof (classify_leaves r f (flag ls)) as C.
    destruct (classify stopping f); apply pair_equal_spec in E; destruct E as [<- <-].
    + now apply (term_single (Call r f) g cur ls TReturn AfterReturn).
    + destruct ls as [|[h a] ls]; [now apply same_single|].
      apply (jump_single (Call r f) g cur _ TBreak AfterBreak a); auto. apply target_break.
    + destruct ls as [|[h a] ls]; [now apply same_single|].
      apply (jump_single (Call r f) g cur _ TNext AfterNext h); auto. apply target_next.
    + now apply (term_single (Call r f) g cur ls TStop AfterStop).
    + now apply plain_single.
  - intros g cur ls g' out I Hc Tc HT R q nc E. cbn [build] in E.
    destruct (has_incoming g cur) eqn:Hi; cbn [negb] in E; [|apply dead_single; auto].
    apply pair_equal_spec in E. destruct E as [<- <-].
    destruct ls as [|[h a] ls]; [now apply same_single|].
    apply (jump_single (Break r) g cur _ TBreak AfterBreak a); auto; [apply target_break|].
    split; [constructor|]. split; [discriminate|auto].
  - intros g cur ls g' out I Hc Tc HT R q nc E. cbn [build] in E.
    destruct (has_incoming g cur) eqn:Hi; cbn [negb] in E; [|apply dead_single; auto].
    apply pair_equal_spec in E. destruct E as [<- <-].
    destruct ls as [|[h a] ls]; [now apply same_single|].
    apply (jump_single (Next r) g cur _ TNext AfterNext h); auto; [apply target_next|].
    split; [constructor|]. split; [discriminate|auto].
  - intros g cur ls g' out I Hc Tc HT R q nc E. cbn [build] in E.
    destruct (has_incoming g cur) eqn:Hi; cbn [negb] in E; [|apply dead_single; auto].
    apply pair_equal_spec in E. destruct E as [<- <-].
    apply (term_single (Return r) g cur ls TReturn AfterReturn); auto.
    split; [constructor|]. split; [discriminate|]. intros [?|?]; discriminate.
  - split.
    + intros g cur ls g' out I Hc Tc HT R q nc E. cbn [build] in E.
      destruct (has_incoming g cur) eqn:Hi; cbn [negb] in E; [|apply dead_single; auto].
      apply pair_equal_spec in E. destruct E as [<- <-]. now apply plain_single.
    + intros g cur ls g' out I Hc Tc HT Hi q nc E. cbn [build] in E.
      destruct (kbuild_list ls l g cur g' out) as (P & T & B); auto.
      * eapply Forall_impl; [|exact IHl]. now intros ? [].
      * destruct l; auto. intros C N. exfalso. now apply (not_cold_incoming g cur).
      * intros x Hx b' l' d n Hin A. apply (q b' l' d n); auto. eapply seq_in; eauto.
      * intros d n A. apply (q (flag ls) l d n); auto. constructor.
      * intros x Hx. apply (nci_child _ _ nc). exact Hx.
      * split; auto. split; auto. intros H. destruct (B Hi H) as (x & Hx & Bx). eapply bl_braces; eauto.
  - apply kif; [apply IHt|apply IHt|]. intros x Hx. now apply (IHe x).
  - intros g cur ls g' out I Hc Tc HT R q nc E. cbn [build] in E.
    destruct (has_incoming g cur) eqn:Hi; cbn [negb] in E; [|apply dead_single; auto].
    destruct (for_setup_inv g cur I Hc Tc Hi) as (I0 & L0 & X0 & N0 & Pr0 & T1 & T2 & H1 & H2 & H3).
    match type of E with context [build stopping true b ?x ?y ?z] =>
      destruct (build stopping true b x y z) as [g1 e1] eqn:Eb in E end.
    apply pair_equal_spec in E. destruct E as [<- <-].
    refine (kloop ls (For r b) b g cur _ _ _ _ g1 e1 (proj2 IHb) _ _ Hi q nc HT I0 X0 N0 Pr0 _ _ _ _ T1 T2 _ H1 H2 H3 Eb); try lia.
    + intros f b' l S. now constructor.
    + now left.
  - intros g cur ls g' out I Hc Tc HT R q nc E. cbn [build] in E.
    destruct (has_incoming g cur) eqn:Hi; cbn [negb] in E; [|apply dead_single; auto].
    destruct (for_setup_inv g cur I Hc Tc Hi) as (I0 & L0 & X0 & N0 & Pr0 & T1 & T2 & H1 & H2 & H3).
    match type of E with context [build stopping true b ?x ?y ?z] =>
      destruct (build stopping true b x y z) as [g1 e1] eqn:Eb in E end.
    apply pair_equal_spec in E. destruct E as [<- <-].
    refine (kloop ls (While r c b) b g cur _ _ _ _ g1 e1 (proj2 IHb) _ _ Hi q nc HT I0 X0 N0 Pr0 _ _ _ _ T1 T2 _ H1 H2 H3 Eb); try lia.
    + intros f b' l S. now constructor.
    + now left.
  - intros g cur ls g' out I Hc Tc HT R q nc E. cbn [build] in E.
    destruct (has_incoming g cur) eqn:Hi; cbn [negb] in E; [|apply dead_single; auto].
    destruct (repeat_setup_inv g cur I Hc Tc Hi) as (I0 & L0 & X0 & N0 & Pr0 & T1 & T2 & H1 & H3).
    match type of E with context [build stopping true b ?x ?y ?z] =>
      destruct (build stopping true b x y z) as [g1 e1] eqn:Eb in E end.
    apply pair_equal_spec in E. destruct E as [<- <-].
    refine (kloop ls (Repeat r b) b g cur _ _ _ _ g1 e1 (proj2 IHb) _ _ Hi q nc HT I0 X0 N0 Pr0 _ _ _ _ T1 T2 _ H1 H1 H3 Eb); try lia.
    + intros f b' l S. now constructor.
    + now left.
Qed.
End Cause.

(** ** Reports *)
Lemma merge_start l : forall cur x,
  (forall y, In y (cur :: l) -> r_start (fst y) <= r_end (fst y)) -> In x (merge cur l) ->
  exists y, In y (cur :: l) /\ snd y = snd x /\ r_start (fst y) = r_start (fst x).
Proof.
  induction l as [|z l IH]; intros cur x W H; cbn [merge] in H.
  - destruct H as [<-|[]]. exists cur. split; [now left|auto].
  - destruct (reason_eqb (snd cur) (snd z) && (r_start (fst z) =? r_end (fst cur))) eqn:E.
    + apply Bool.andb_true_iff in E as (_ & E). apply Nat.eqb_eq in E.
      pose proof (W cur (or_introl eq_refl)) as W1. pose proof (W z (or_intror (or_introl eq_refl))) as W2.
      assert (W3 : forall y, In y ((cover (fst cur) (fst z), snd cur) :: l) -> r_start (fst y) <= r_end (fst y)).
      { intros y [<-|Hy]; [unfold cover; cbn [fst r_start r_end]; lia|apply W; right; now right]. }
      destruct (IH _ _ W3 H) as (y & [<-|Hy] & E1 & E2).
      * exists cur. split; [now left|]. split; [exact E1|]. rewrite <- E2. unfold cover. cbn [fst r_start r_end]. lia.
      * exists y. split; auto. right. now right.
    + destruct H as [<-|H]; [exists cur; split; [now left|auto]|].
      destruct (IH z x (fun y Hy => W y (or_intror Hy)) H) as (y & Hy & E1). exists y. split; auto. now right.
Qed.

Lemma report_start g x :
  (forall i r, 2 <= i < length g -> ~ path g entry i -> block_range (blk g i) = Some r -> r_start r <= r_end r) ->
  In x (find_unreachable_code g) ->
  exists i r, 2 <= i < length g /\ ~ path g entry i /\ block_range (blk g i) = Some r /\
    r_start r = r_start (fst x) /\ snd x = unreachable_reason g i.
Proof.
  intros W H. unfold find_unreachable_code in H.
  destruct (sort_by_start (unreachable_blocks g)) as [|y l] eqn:E; [destruct H|].
  apply merge_start in H as (z & Hz & E1 & E2).
  - rewrite <- E in Hz. apply (proj1 (sort_In _ _)) in Hz. apply unreachable_blocks_In in Hz as (i & Hi & Hn & Hb & Hr).
    exists i, (fst z). split; auto. split; [intros P; apply Hn; now apply find_reachable_exact|]. split; auto. split; auto. congruence.
  - intros z Hz. rewrite <- E in Hz. apply (proj1 (sort_In _ _)) in Hz. apply unreachable_blocks_In in Hz as (i & Hi & Hn & Hb & _).
    eapply W; eauto. intros P. apply Hn. now apply find_reachable_exact.
Qed.

Section Reports.
Variable stopping : list text.

Lemma branch_reason_only' g i r : branch_reason g i = Some r -> r = AfterBranchTerminating.
Proof.
  unfold branch_reason. destruct (negb _); [discriminate|]. destruct (b_succ _); [discriminate|].
  destruct (fold_left _ _ _) as [[[a b] c] d]. destruct (_ && _); [|discriminate]. congruence.
Qed.

Lemma reports_explained (Q : bool -> stmt -> stmt -> Prop) g x :
  inv stopping Q g ->
  (forall i, 2 <= i < length g -> exists lo hi, ordered lo (b_stmts (blk g i)) hi) ->
  In x (find_unreachable_code g) ->
  exists b d n, Q b d n /\ r_start (fst x) = r_start (rng n) /\
    (leaves_here stopping b (snd x) d \/
     (exists r c t e, d = If r c t (Some e)) /\ blocked stopping b d /\ (snd x = AfterBranchTerminating \/ snd x = DeadBranch)).
Proof.
  intros I O H.
  assert (S0 : forall i, 2 <= i < length g -> cold g i ->
     forall r, block_range (blk g i) = Some r -> exists n l, b_stmts (blk g i) = n :: l /\ r_start r = r_start (rng n)).
  { intros i Hi C r Hr. pose proof I as (_ & _ & E). specialize (E i C ltac:(unfold entry; lia)).
    unfold block_range in Hr. destruct (b_stmts (blk g i)) as [|n l] eqn:St; [congruence|].
    exists n, l. split; auto. injection Hr as <-. destruct (O i Hi) as (lo & hi & Ho). rewrite St in Ho.
    destruct Ho as (_ & O2 & O3).
    assert (In (last l n) (n :: l)) as Hl.
    { destruct l as [|m l]; [now left|]. right. rewrite last_cons. clear. revert m. induction l as [|k l IH]; intros m; [now left|].
      rewrite last_cons. right. apply IH. }
    destruct (ordered_last l n (last l n) hi O2 O3 Hl) as (A & _). unfold cover. cbn [r_start]. lia. }
  assert (Co : forall i, ~ path g entry i -> cold g i).
  { intros i Np. destruct (has_incoming g i) eqn:Hin.
    - exfalso. apply Np. eapply incoming_path; eauto.
    - apply not_incoming_cold; auto. apply I. }
  apply report_start in H as (i & r & Hi & Np & Hr & Hs & Hx).
  2:{ intros i r Hi Np Hr. destruct (S0 i Hi (Co i Np) r Hr) as (n & l & St & Es).
      unfold block_range in Hr. rewrite St in Hr. injection Hr as <-.
      destruct (O i Hi) as (lo & hi & Ho). rewrite St in Ho. destruct Ho as (_ & O2 & _). unfold cover. cbn. lia. }
  destruct (S0 i Hi (Co i Np) r Hr) as (n & l & St & Es).
  pose proof I as (_ & _ & E). specialize (E i (Co i Np) ltac:(unfold entry; lia)). rewrite St in E.
  destruct E as (p & d & b & Pr & Lp & q & R). exists b, d, n. split; auto. split; [congruence|].
  rewrite Hx. unfold unreachable_reason. rewrite Pr. cbn [filter].
  replace (p <? length g) with true by (symmetry; now apply Nat.ltb_lt). cbn [find_map].
  destruct R as [(w & L & Tr)|(Tr & Iff & B)].
  - left. destruct (b_term (blk g p)); try discriminate; cbn in Tr; injection Tr as <-; exact L.
  - right. split; auto. split; auto. rewrite Tr. destruct (branch_reason g p) as [w|] eqn:Br.
    + left. now apply branch_reason_only' in Br.
    + right. cbn [existsb]. replace (memn i (b_succ (blk g p))) with false; auto.
      symmetry. apply memn_false. apply (Co i Np).
Qed.

Lemma inv_new_graph Q : inv stopping Q new_graph.
Proof.
  assert (E : forall i, blk new_graph i = empty_block) by (intros [|[|[|i]]]; reflexivity).
  split; [apply good_new|]. split.
  - intros x j H. rewrite E in H. destruct H.
  - intros i _ _. now rewrite E.
Qed.
Lemma incoming_entry : has_incoming new_graph entry = true. Proof. reflexivity. Qed.

Theorem explained body x :
  well_ranged body -> no_constant_if body -> In x (unreachable_code stopping body) ->
  exists b l d n, sequence false body b l /\ adjacent l d n /\ r_start (fst x) = r_start (rng n) /\
    (leaves_here stopping b (snd x) d \/
     (exists r c t e, d = If r c t (Some e)) /\ blocked stopping b d /\ (snd x = AfterBranchTerminating \/ snd x = DeadBranch)).
Proof.
  intros W nc H. unfold unreachable_code, build_cfg in H.
  destruct (build stopping true body new_graph entry []) as [g out] eqn:E. cbn [fst] in H.
  set (Q := fun b d n => exists l, sequence false body b l /\ adjacent l d n).
  destruct (kbuild_ok stopping Q body) as (_ & K).
  destruct (K new_graph entry [] g out) as (P & _); auto using inv_new_graph.
  - apply Nat.ltb_lt. reflexivity.
  - intros j (h & a & [] & _).
  - intros b' l d n S A. now exists l.
  - destruct (cbuild_ok stopping body) as (_ & Hb). pose proof (Hb _ _ _ good_new W _ _ E) as C.
    destruct (reports_explained Q g x (k_inv _ _ _ _ _ _ _ P)) as (b & d & n & (l & Sq & A) & Es & R); auto.
    + intros i Hi. eexists. eexists. apply (c_new _ _ _ _ _ _ _ _ C). exact Hi.
    + exists b, l, d, n. auto.
Qed.

Theorem explained_top stmts x :
  well_ranged_top stmts -> Forall no_constant_if stmts -> In x (unreachable_code_top_level stopping stmts) ->
  exists b l d n, (b = false /\ l = stmts \/ exists s, In s stmts /\ inner false s b l) /\ adjacent l d n /\
    r_start (fst x) = r_start (rng n) /\
    (leaves_here stopping b (snd x) d \/
     (exists r c t e, d = If r c t (Some e)) /\ blocked stopping b d /\ (snd x = AfterBranchTerminating \/ snd x = DeadBranch)).
Proof.
  intros ((lo & hi & Ho) & W) nc H. unfold unreachable_code_top_level, build_cfg_top_level in H.
  apply filter_In in H as (H & _).
  destruct (build_list _ stmts new_graph entry) as [g out] eqn:E. cbn [fst] in H.
  set (Q := fun b d n => exists l, (b = false /\ l = stmts \/ exists s, In s stmts /\ inner false s b l) /\ adjacent l d n).
  destruct (kbuild_list stopping Q [] stmts new_graph entry g out) as (P & _); auto using inv_new_graph.
  - apply Forall_forall. intros s _. apply kbuild_ok.
  - apply Nat.ltb_lt. reflexivity.
  - intros j (h & a & [] & _).
  - destruct stmts; auto. intros _ N. now elim N.
  - intros s Hs b' l d n S A. exists l. split; auto. right. eauto.
  - intros d n A. exists stmts. auto.
  - now apply Forall_forall.
  - assert (C : cpost [] new_graph entry lo hi g out (fun n => dlist stopping (flag []) stmts n \/ (has_incoming new_graph entry = false /\ In n stmts))).
    { apply cbuild_list; auto using good_new. apply Forall_forall. intros s _. apply cbuild_ok. }
    destruct (reports_explained Q g x (k_inv _ _ _ _ _ _ _ P)) as (b & d & n & (l & Sq & A) & Es & R); auto.
    + intros i Hi. eexists. eexists. apply (c_new _ _ _ _ _ _ _ _ C). exact Hi.
    + exists b, l, d, n. auto.
Qed.
End Reports.
