(** What the graph builder guarantees about every block it makes. *)
From Verif Require Import Model.Text Model.Base Model.Cfg Spec.CfgSpec.
From Verif Require Import Proofs.CfgGraph Proofs.CfgSem.
Import ListNotations.

(** ** Source ranges *)
Lemma ordered_bounds l : forall lo hi s,
  ordered lo l hi -> In s l -> lo <= r_start (rng s) /\ r_end (rng s) <= hi.
Proof.
  assert (Hlo : forall l lo hi, ordered lo l hi -> lo <= hi).
  { induction l0 as [|x l0 IH]; cbn; auto. intros lo hi (A & B & C). apply IH in C. lia. }
  induction l as [|x l IH]; intros lo hi s H [].
  - subst. cbn in H. destruct H as (A & B & C). apply Hlo in C. lia.
  - cbn in H. destruct H as (A & B & C). destruct (IH _ _ _ C H0). lia.
Qed.

Lemma wr_child s c : well_ranged s -> In c (children s) -> well_ranged c.
Proof. intros H Hc n Hn. apply H. now apply (desc_child s c n). Qed.

Lemma wr_nonempty s : well_ranged s -> r_start (rng s) < r_end (rng s).
Proof. intros H. apply H. constructor. Qed.

Lemma wr_desc s n :
  descendant s n -> well_ranged s ->
  r_start (rng s) <= r_start (rng n) /\ r_start (rng n) < r_end (rng s) /\
  r_end (rng n) <= r_end (rng s).
Proof.
  induction 1 as [s|s c n Hc Hd IH]; intros W.
  - pose proof (wr_nonempty _ W). lia.
  - destruct (IH (wr_child _ _ W Hc)) as (A & B & C).
    destruct (W s (desc_self s)) as (_ & O).
    destruct (ordered_bounds _ _ _ _ O Hc). lia.
Qed.

Section Build.
Variable stopping : list text.
Notation mayend := (mayend stopping).
Notation starts := (starts stopping).
Notation startsl := (startsl stopping).

Lemma starts_desc s n : starts s n -> descendant s n.
Proof.
  induction 1; try (now constructor); eapply desc_child; eauto; cbn.
  - apply in_or_app. right. now left.
  - destruct e; now left.
  - right. now left.
  - now left.
  - now left.
  - now left.
Qed.

Lemma starts_bounds s n :
  well_ranged s -> starts s n -> r_start (rng s) <= r_start (rng n) < r_end (rng s).
Proof. intros W H. apply starts_desc in H. pose proof (wr_desc _ _ H W). lia. Qed.

Lemma startsl_bounds l n lo hi :
  ordered lo l hi -> Forall well_ranged l -> startsl l n -> lo <= r_start (rng n) < hi.
Proof.
  intros O W (pre & s & post & -> & _ & Hs).
  assert (I : In s (pre ++ s :: post)) by (apply in_or_app; right; now left).
  destruct (ordered_bounds _ _ _ _ O I).
  rewrite Forall_forall in W. pose proof (starts_bounds _ _ (W s I) Hs). lia.
Qed.

(** ** The invariant of the builder *)
Definition inside (lo hi : nat) (s : stmt) : Prop := lo <= r_start (rng s) /\ r_end (rng s) <= hi.
Definition within (lo hi : nat) (l : list stmt) : Prop := Forall (inside lo hi) l.

Lemma within_weaken lo hi lo' hi' l :
  lo' <= lo -> hi <= hi' -> within lo hi l -> within lo' hi' l.
Proof. intros A B H. unfold within in *. eapply Forall_impl; [|exact H]. unfold inside; intros; lia. Qed.

Lemma block_range_bounds g i r lo hi :
  rinv g -> within lo hi (b_stmts (blk g i)) -> block_range (blk g i) = Some r ->
  lo <= r_start r /\ r_end r <= hi.
Proof.
  intros Rv W. unfold block_range. destruct (b_stmts (blk g i)) as [|s l] eqn:E.
  - rewrite (Rv _ E). discriminate.
  - intros H. injection H as <-. cbn.
    inversion W as [|? ? W1 W2]; subst.
    assert (W3 : inside lo hi (last l s)).
    { destruct l as [|x l]; auto.
      assert (In (last (x :: l) s) (x :: l)).
      { clear. revert x. induction l as [|y l IH]; intros x; [now left|]. right. apply IH. }
      unfold within in W. rewrite Forall_forall in W2. auto. }
    unfold inside in *. lia.
Qed.

Definition nonterm (g : graph) (i : nat) : Prop := terminated (b_term (blk g i)) = false.
Definition live (R : nat -> Prop) (g : graph) (i : nat) : Prop :=
  R i /\ has_incoming g i = true /\ nonterm g i.

Record post (g : graph) (cur : nat) (l : list stmt) (lo hi : nat) (g' : graph) (out : nat) : Prop := {
  p_ext : ext (fun i => i = cur) g g';
  p_out : out < length g' /\ (out = cur \/ length g <= out);
  p_cur : exists added, b_stmts (blk g' cur) = b_stmts (blk g cur) ++ added /\ within lo hi added;
  p_within : forall i, length g <= i < length g' -> within lo hi (b_stmts (blk g' i));
  p_sound : forall i, length g <= i < length g' ->
    forall R, closed R g' -> live R g cur ->
    forall n r, startsl l n -> block_range (blk g' i) = Some r -> begins_in n r -> R i;
  p_live : forall R, closed R g' -> live R g cur -> forallb mayend l = true -> live R g' out;
  p_rinv : rinv g'
}.

(** [build_statement] either stays in the block or moves to a new, empty one. *)
Definition fresh_out (g : graph) (cur : nat) (g' : graph) (out : nat) : Prop :=
  out = cur \/ b_stmts (blk g' out) = [].

Definition single (s : stmt) : Prop :=
  forall g cur ls, cur < length g -> rinv g -> well_ranged s -> no_bare_return s ->
    forall g' out, build stopping false s g cur ls = (g', out) ->
    post g cur [s] (r_start (rng s)) (r_end (rng s)) g' out /\ fresh_out g cur g' out.

Definition bodied (s : stmt) : Prop :=
  forall g cur ls, cur < length g -> rinv g -> well_ranged s -> no_bare_return s ->
    forall g' out, build stopping true s g cur ls = (g', out) ->
    post g cur [s] (r_start (rng s)) (r_end (rng s)) g' out.

Lemma live_ext_cur R g g' cur S :
  ext S g g' -> nonterm g' cur -> live R g cur -> live R g' cur.
Proof. intros E N (A & B & _). repeat split; auto. eapply has_incoming_ext; eauto. Qed.

(** ** Leaves *)
Lemma post_leaf g cur s g' :
  cur < length g ->
  ext (fun i => i = cur) g g' -> length g' = length g -> rinv g' ->
  (exists added, b_stmts (blk g' cur) = b_stmts (blk g cur) ++ added /\
     within (r_start (rng s)) (r_end (rng s)) added) ->
  (mayend s = true -> nonterm g cur -> nonterm g' cur) ->
  post g cur [s] (r_start (rng s)) (r_end (rng s)) g' cur.
Proof.
  intros Hc E L Rv Ad N. split; auto.
  - split; [lia|now left].
  - intros i Hi. lia.
  - intros i Hi. lia.
  - intros R _ H M. cbn in M. rewrite Bool.andb_true_r in M.
    eapply live_ext_cur; eauto. apply N; auto. apply H.
Qed.

Lemma leaf_add g cur s :
  cur < length g -> rinv g ->
  post g cur [s] (r_start (rng s)) (r_end (rng s)) (add_statement g cur s) cur.
Proof.
  intros Hc Rv. apply post_leaf; auto.
  - now apply ext_add_statement.
  - apply add_statement_length.
  - now apply rinv_add_statement.
  - exists [s]. split.
    + now apply add_statement_stmts.
    + constructor; [|constructor]. unfold inside. lia.
  - intros _. unfold nonterm. now rewrite add_statement_term.
Qed.

Lemma leaf_term g cur s t :
  cur < length g -> rinv g -> mayend s = false ->
  post g cur [s] (r_start (rng s)) (r_end (rng s)) (upd g cur (set_term t)) cur.
Proof.
  intros Hc Rv M. apply post_leaf; auto.
  - now apply ext_set_term.
  - apply upd_length.
  - now apply rinv_set_term.
  - exists []. split; [|constructor]. rewrite blk_upd_same by auto. cbn. now rewrite app_nil_r.
  - congruence.
Qed.

Lemma leaf_same g cur s :
  cur < length g -> rinv g ->
  post g cur [s] (r_start (rng s)) (r_end (rng s)) g cur.
Proof.
  intros Hc Rv. apply post_leaf; auto.
  - apply ext_refl.
  - exists []. split; [|constructor]. now rewrite app_nil_r.
Qed.

Lemma add_edge_stmts g i j k : b_stmts (blk (add_edge g i j) k) = b_stmts (blk g k).
Proof.
  destruct (Nat.lt_ge_cases k (length g)) as [H|H].
  - now apply (ext_keep none _ _ (ext_add_edge none g i j) k H).
  - rewrite !blk_out; auto. now rewrite add_edge_length.
Qed.

Lemma add_edge_term g i j k : b_term (blk (add_edge g i j) k) = b_term (blk g k).
Proof.
  destruct (Nat.lt_ge_cases k (length g)) as [H|H].
  - now apply (ext_keep none _ _ (ext_add_edge none g i j) k H).
  - rewrite !blk_out; auto. now rewrite add_edge_length.
Qed.

Lemma add_edge_range g i j k : b_range (blk (add_edge g i j) k) = b_range (blk g k).
Proof.
  destruct (Nat.lt_ge_cases k (length g)) as [H|H].
  - now apply (ext_keep none _ _ (ext_add_edge none g i j) k H).
  - rewrite !blk_out; auto. now rewrite add_edge_length.
Qed.

Lemma leaf_jump g cur s t target :
  cur < length g -> rinv g -> mayend s = false ->
  post g cur [s] (r_start (rng s)) (r_end (rng s))
    (add_edge (upd g cur (set_term t)) cur target) cur.
Proof.
  intros Hc Rv M. apply post_leaf; auto.
  - eapply ext_trans; [now apply ext_set_term|apply ext_add_edge].
  - rewrite add_edge_length. apply upd_length.
  - now apply rinv_add_edge, rinv_set_term.
  - exists []. split; [|constructor]. rewrite add_edge_stmts, blk_upd_same by auto. cbn.
    now rewrite app_nil_r.
  - congruence.
Qed.

(** ** Sequences *)
Lemma build_list_post ls l : forall g cur lo hi,
  Forall single l -> Forall well_ranged l -> Forall no_bare_return l ->
  ordered lo l hi -> cur < length g -> rinv g ->
  forall g' out, build_list (fun s g c => build stopping false s g c ls) l g cur = (g', out) ->
  post g cur l lo hi g' out.
Proof.
  induction l as [|s l IH]; intros g cur lo hi Hs Hw Hn Ho Hc Rv g' out E.
  - cbn in E. injection E as <- <-. split; auto.
    + apply ext_refl.
    + exists []. split; [now rewrite app_nil_r|constructor].
    + intros i Hi. lia.
    + intros i Hi. lia.
  - inversion Hs as [|? ? Hs1 Hs2]; subst. inversion Hw as [|? ? Hw1 Hw2]; subst.
    inversion Hn as [|? ? Hn1 Hn2]; subst. destruct Ho as (O1 & O2 & O3).
    cbn [build_list] in E.
    destruct (build stopping false s g cur ls) as [g1 c1] eqn:E1.
    destruct (Hs1 g cur ls Hc Rv Hw1 Hn1 g1 c1 E1) as (P1 & F1).
    assert (Hse : r_end (rng s) <= hi).
    { destruct (ordered_bounds (s :: l) lo hi s) as (_ & X); cbn; auto. }
    destruct (p_out _ _ _ _ _ _ _ P1) as (Q1 & Q2).
    pose proof (p_ext _ _ _ _ _ _ _ P1) as X1.
    pose proof (p_rinv _ _ _ _ _ _ _ P1) as Rv1.
    (* a statement that begins in or after [s] *)
    assert (Hfrom : forall n r, startsl (s :: l) n -> begins_in n r ->
              r_start (rng s) <= r_start r -> r_end r <= r_end (rng s) -> startsl [s] n).
    { intros n r Hst (B1 & B2) B3 B4. apply startsl_cons in Hst.
      apply startsl_cons. destruct Hst as [Hst|(_ & Hst)]; auto.
      pose proof (startsl_bounds _ _ _ _ O3 Hw2 Hst). lia. }
    assert (Hrest : forall n r, startsl (s :: l) n -> begins_in n r ->
              r_end (rng s) <= r_start r -> mayend s = true /\ startsl l n).
    { intros n r Hst (B1 & B2) B3. apply startsl_cons in Hst. destruct Hst as [Hst|Hst]; auto.
      pose proof (starts_bounds _ _ Hw1 Hst). lia. }
    destruct l as [|s2 l].
    { injection E as <- <-.
      destruct P1 as [A B (ad & C1 & C2) D1 D2 F G]. split; auto.
      - exists ad. split; auto. eapply within_weaken; [| |exact C2]; lia.
      - intros i Hi. eapply within_weaken; [| |exact (D1 i Hi)]; lia. }
    destruct (terminated (b_term (blk g1 c1))) eqn:Et.
    + (* the rest is dead *)
      set (dead := length g1) in *.
      set (g2 := upd (new_blocks g1 1) dead (push_pred c1)) in *.
      assert (L2 : length g2 = S dead).
      { unfold g2. rewrite upd_length, new_blocks_length. unfold dead. lia. }
      destruct (add_all_facts (s2 :: l) g2 dead) as (X3 & L3 & S3 & T3 & R3); [lia|].
      apply pair_equal_spec in E. destruct E as [<- <-].
      assert (X2 : ext (fun i => i = dead) g1 g2).
      { unfold g2. eapply ext_trans; [apply ext_new|apply ext_push_pred]. }
      assert (X : ext (fun i => i = dead) g1 (add_all g2 dead (s2 :: l))).
      { eapply ext_trans; eauto. }
      assert (S2 : b_stmts (blk g2 dead) = []).
      { unfold g2. rewrite blk_upd_same by (rewrite new_blocks_length; unfold dead; lia).
        cbn. rewrite blk_new_blocks. now rewrite blk_out by (unfold dead; lia). }
      rewrite S2 in S3. cbn [app] in S3.
      assert (Hkeep : forall i, i < dead ->
                b_stmts (blk (add_all g2 dead (s2 :: l)) i) = b_stmts (blk g1 i) /\
                b_range (blk (add_all g2 dead (s2 :: l)) i) = b_range (blk g1 i)).
      { intros i Hi. destruct (ext_keep _ _ _ X i) as (K1 & K2 & _); auto. lia. }
      assert (Hdead : forall R, closed R (add_all g2 dead (s2 :: l)) -> live R g cur ->
                mayend s = true -> False).
      { intros R Hcl Hl Hm. destruct (p_live _ _ _ _ _ _ _ P1 R) as (_ & _ & N); auto.
        - eapply closed_ext; eauto.
        - cbn. now rewrite Hm.
        - unfold nonterm in N. congruence. }
      assert (Rall : rinv (add_all g2 dead (s2 :: l))).
      { apply R3. unfold g2. apply rinv_push_pred. now apply rinv_new. }
      assert (Wd : within (r_end (rng s)) hi (s2 :: l)).
      { apply Forall_forall. intros x Hx. exact (ordered_bounds _ _ _ _ O3 Hx). }
      pose proof (ext_len _ _ _ X1) as XL.
      split.
      * eapply ext_trans2; [exact X1|exact X|]. unfold dead. cbn. intros. lia.
      * rewrite L3, L2. split; [lia|right]. unfold dead. lia.
      * destruct (p_cur _ _ _ _ _ _ _ P1) as (ad & A1 & A2). exists ad. split.
        -- destruct (Hkeep cur) as (-> & _); auto. unfold dead. lia.
        -- eapply within_weaken; [| |exact A2]; lia.
      * intros i Hi. rewrite L3, L2 in Hi. destruct (Nat.eq_dec i dead) as [->|Ne].
        -- rewrite S3. eapply within_weaken; [| |exact Wd]; lia.
        -- destruct (Hkeep i) as (-> & _); [lia|].
           eapply within_weaken; [| |apply (p_within _ _ _ _ _ _ _ P1 i)]; unfold dead in *; lia.
      * intros i Hi R Hcl Hl n r Hst Hb Hbeg. rewrite L3, L2 in Hi.
        destruct (Nat.eq_dec i dead) as [->|Ne].
        -- exfalso. destruct (block_range_bounds _ dead r (r_end (rng s)) hi Rall) as (B1 & B2); auto.
           { now rewrite S3. }
           destruct (Hrest n r Hst Hbeg B1) as (Hm & _). eauto.
        -- assert (Hi' : length g <= i < length g1) by (unfold dead in *; lia).
           assert (Hb' : block_range (blk g1 i) = Some r).
           { rewrite <- Hb. unfold block_range. destruct (Hkeep i) as (-> & ->); auto. unfold dead; lia. }
           destruct (block_range_bounds _ i r _ _ Rv1 (p_within _ _ _ _ _ _ _ P1 i Hi') Hb') as (B1 & B2).
           apply (p_sound _ _ _ _ _ _ _ P1 i Hi' R) with (n := n) (r := r); auto.
           { eapply closed_ext; eauto. }
           now apply (Hfrom n r).
      * intros R Hcl Hl M. exfalso. cbn [forallb] in M. apply andb_prop in M. destruct M. eauto.
      * exact Rall.
    + (* go on with the rest *)
      pose proof (IH g1 c1 (r_end (rng s)) hi Hs2 Hw2 Hn2 O3 Q1 Rv1 g' out E) as P2.
      pose proof (p_ext _ _ _ _ _ _ _ P2) as X2.
      pose proof (ext_len _ _ _ X1) as XL1. pose proof (ext_len _ _ _ X2) as XL2.
      destruct (p_out _ _ _ _ _ _ _ P2) as (Q3 & Q4).
      pose proof (p_rinv _ _ _ _ _ _ _ P2) as Rv2.
      assert (X : ext (fun i => i = cur) g g').
      { eapply ext_trans2; [exact X1|exact X2|]. cbn. intros. lia. }
      assert (Hkeep : forall i, i < length g1 -> i <> c1 ->
                b_stmts (blk g' i) = b_stmts (blk g1 i) /\ b_range (blk g' i) = b_range (blk g1 i)).
      { intros i Hi Ne. destruct (ext_keep _ _ _ X2 i) as (K1 & K2 & _); auto. }
      assert (Hlive : forall R, closed R g' -> live R g cur -> mayend s = true -> live R g1 c1).
      { intros R Hcl Hl Hm. apply (p_live _ _ _ _ _ _ _ P1 R); auto.
        - eapply closed_ext; eauto.
        - cbn. now rewrite Hm. }
      assert (Hc1 : c1 <> cur -> within (r_end (rng s)) hi (b_stmts (blk g' c1))).
      { intros Ne. destruct F1 as [F1|F1]; [contradiction|].
        destruct (p_cur _ _ _ _ _ _ _ P2) as (ad & A1 & A2). rewrite A1, F1. exact A2. }
      split.
      * exact X.
      * split; auto. lia.
      * destruct (p_cur _ _ _ _ _ _ _ P1) as (ad & A1 & A2).
        destruct (Nat.eq_dec c1 cur) as [->|Ne].
        -- destruct (p_cur _ _ _ _ _ _ _ P2) as (ad2 & B1 & B2).
           exists (ad ++ ad2). split.
           ++ rewrite B1, A1. now rewrite app_assoc.
           ++ apply Forall_app. split; [eapply within_weaken; [| |exact A2]|eapply within_weaken; [| |exact B2]]; lia.
        -- exists ad. split.
           ++ destruct (Hkeep cur) as (-> & _); auto. lia.
           ++ eapply within_weaken; [| |exact A2]; lia.
      * intros i Hi. destruct (Nat.lt_ge_cases i (length g1)) as [Hi1|Hi1].
        -- destruct (Nat.eq_dec i c1) as [->|Ne].
           ++ eapply within_weaken; [| |apply Hc1]; lia.
           ++ destruct (Hkeep i) as (-> & _); auto.
              eapply within_weaken; [| |apply (p_within _ _ _ _ _ _ _ P1 i)]; lia.
        -- eapply within_weaken; [| |apply (p_within _ _ _ _ _ _ _ P2 i)]; lia.
      * intros i Hi R Hcl Hl n r Hst Hb Hbeg.
        destruct (Nat.lt_ge_cases i (length g1)) as [Hi1|Hi1].
        -- destruct (Nat.eq_dec i c1) as [->|Ne].
           ++ assert (Ne : c1 <> cur) by lia.
              destruct (block_range_bounds _ c1 r _ _ Rv2 (Hc1 Ne) Hb) as (B1 & B2).
              destruct (Hrest n r Hst Hbeg B1) as (Hm & _).
              apply (Hlive R Hcl Hl Hm).
           ++ assert (Hb' : block_range (blk g1 i) = Some r).
              { rewrite <- Hb. unfold block_range. now destruct (Hkeep i) as (-> & ->). }
              assert (Hi' : length g <= i < length g1) by lia.
              destruct (block_range_bounds _ i r _ _ Rv1 (p_within _ _ _ _ _ _ _ P1 i Hi') Hb') as (B1 & B2).
              apply (p_sound _ _ _ _ _ _ _ P1 i Hi' R) with (n := n) (r := r); auto.
              { eapply closed_ext; eauto. }
              now apply (Hfrom n r).
        -- assert (Hi' : length g1 <= i < length g') by lia.
           destruct (block_range_bounds _ i r _ _ Rv2 (p_within _ _ _ _ _ _ _ P2 i Hi') Hb) as (B1 & B2).
           destruct (Hrest n r Hst Hbeg B1) as (Hm & Hst').
           apply (p_sound _ _ _ _ _ _ _ P2 i Hi' R) with (n := n) (r := r); auto.
      * intros R Hcl Hl M. cbn [forallb] in M. apply andb_prop in M. destruct M as (M1 & M2).
        apply (p_live _ _ _ _ _ _ _ P2 R); auto.
      * exact Rv2.
Qed.

(** ** Branches *)
Record branch_ok (dead : bool) (s : stmt) (g : graph) (b after : nat) (g' : graph) : Prop := {
  bo_ext : ext (fun i => i = b) g g';
  bo_rinv : rinv g';
  bo_b : within (r_start (rng s)) (r_end (rng s)) (b_stmts (blk g' b));
  bo_within : forall i, length g <= i < length g' ->
    within (r_start (rng s)) (r_end (rng s)) (b_stmts (blk g' i));
  bo_sound : forall i, length g <= i < length g' ->
    forall R, closed R g' -> dead = false -> R b ->
    forall n r, starts s n -> block_range (blk g' i) = Some r -> begins_in n r -> R i;
  bo_join : forall R, closed R g' -> dead = false -> R b -> mayend s = true ->
    R after /\ has_incoming g' after = true
}.

Lemma set_term_stmts g i t k : b_stmts (blk (upd g i (set_term t)) k) = b_stmts (blk g k).
Proof. destruct (upd_cases g i (set_term t) k) as [(-> & _ & ->)| ->]; reflexivity. Qed.
Lemma set_term_range g i t k : b_range (blk (upd g i (set_term t)) k) = b_range (blk g k).
Proof. destruct (upd_cases g i (set_term t) k) as [(-> & _ & ->)| ->]; reflexivity. Qed.

Lemma join_stmts g a b k : b_stmts (blk (join_branch g a b) k) = b_stmts (blk g k).
Proof.
  unfold join_branch. destruct (_ && _); auto. now rewrite add_edge_stmts, set_term_stmts.
Qed.
Lemma join_range g a b k : b_range (blk (join_branch g a b) k) = b_range (blk g k).
Proof.
  unfold join_branch. destruct (_ && _); auto. now rewrite add_edge_range, set_term_range.
Qed.
Lemma join_length g a b : length (join_branch g a b) = length g.
Proof.
  unfold join_branch. destruct (_ && _); auto. now rewrite add_edge_length, upd_length.
Qed.
Lemma join_ext (S : nat -> Prop) g a b : S a -> ext S g (join_branch g a b).
Proof.
  intros H. unfold join_branch. destruct (_ && _); [|apply ext_refl].
  eapply ext_trans; [|apply ext_add_edge]. now apply ext_set_term.
Qed.
Lemma join_rinv g a b : rinv g -> rinv (join_branch g a b).
Proof.
  intros H. unfold join_branch. destruct (_ && _); auto. now apply rinv_add_edge, rinv_set_term.
Qed.

Lemma block_range_eq b b' :
  b_stmts b' = b_stmts b -> b_range b' = b_range b -> block_range b' = block_range b.
Proof. intros A B. unfold block_range. now rewrite A, B. Qed.

Lemma startsl_one s n : startsl [s] n <-> starts s n.
Proof.
  rewrite startsl_cons. split; auto. intros [H|(_ & H)]; auto. now apply startsl_nil in H.
Qed.

Lemma branch_live s g b after ls :
  bodied s -> b < length g -> after < length g -> b <> after ->
  b_stmts (blk g b) = [] -> nonterm g b -> rinv g -> well_ranged s -> no_bare_return s ->
  has_incoming g b = true ->
  forall g1 e1, build stopping true s g b ls = (g1, e1) ->
  branch_ok false s g b after (join_branch g1 e1 after).
Proof.
  intros Hb Lb La Ne S0 N0 Rv W NB Inc g1 e1 E.
  pose proof (Hb g b ls Lb Rv W NB g1 e1 E) as P.
  destruct (p_out _ _ _ _ _ _ _ P) as (Q1 & Q2).
  pose proof (p_ext _ _ _ _ _ _ _ P) as X. pose proof (ext_len _ _ _ X) as XL.
  assert (Xj : ext (fun i => i = e1) g1 (join_branch g1 e1 after)) by now apply join_ext.
  split.
  - eapply ext_trans2; [exact X|exact Xj|]. cbn. intros. lia.
  - apply join_rinv. apply (p_rinv _ _ _ _ _ _ _ P).
  - rewrite join_stmts. destruct (p_cur _ _ _ _ _ _ _ P) as (ad & -> & A). now rewrite S0.
  - intros i Hi. rewrite join_length in Hi. rewrite join_stmts. now apply (p_within _ _ _ _ _ _ _ P).
  - intros i Hi R Hcl _ Rb n r Hst Hbr Hbeg. rewrite join_length in Hi.
    rewrite (block_range_eq (blk g1 i)) in Hbr by (apply join_stmts || apply join_range).
    apply (p_sound _ _ _ _ _ _ _ P i Hi R) with (n := n) (r := r); auto.
    + eapply closed_ext; eauto.
    + repeat split; auto.
    + now apply startsl_one.
  - intros R Hcl _ Rb M.
    destruct (p_live _ _ _ _ _ _ _ P R) as (L1 & L2 & L3); auto.
    + eapply closed_ext; eauto.
    + repeat split; auto.
    + cbn. now rewrite M.
    + unfold nonterm in L3. unfold join_branch in *. rewrite L3, L2 in *. cbn [negb andb] in *.
      split.
      * apply (Hcl e1); auto. apply add_edge_succ. now rewrite upd_length.
      * apply has_incoming_edge; rewrite upd_length; lia.
Qed.

Lemma branch_dead s g b after :
  b < length g -> b_stmts (blk g b) = [] -> rinv g ->
  branch_ok true s g b after (upd g b (push_stmt s)).
Proof.
  intros Lb S0 Rv. split; try discriminate.
  - now apply ext_push_stmt.
  - now apply rinv_push_stmt.
  - rewrite blk_upd_same by auto. cbn. rewrite S0. constructor; [|constructor]. unfold inside; lia.
  - intros i. rewrite upd_length. lia.
Qed.

Lemma branch_edges_facts g c cur :
  cur < length g -> rinv g ->
  let th := length g in let el := S th in
  let g0 := branch_edges (new_blocks g 3) c cur th el in
  length g0 = length g + 3 /\ ext (fun i => i = cur) g g0 /\ rinv g0 /\
  (forall i, length g <= i -> b_stmts (blk g0 i) = [] /\ nonterm g0 i) /\
  (b_stmts (blk g0 cur) = b_stmts (blk g cur)) /\
  (is_false c = false -> In th (b_succ (blk g0 cur)) /\ has_incoming g0 th = true) /\
  (is_true c = false -> In el (b_succ (blk g0 cur)) /\ has_incoming g0 el = true).
Proof.
  intros Hc Rv th el g0.
  set (g1 := upd (new_blocks g 3) cur (set_term TBranch)).
  assert (L1 : length g1 = length g + 3).
  { unfold g1. now rewrite upd_length, new_blocks_length. }
  assert (X1 : ext (fun i => i = cur) g g1).
  { unfold g1. eapply ext_trans; [apply ext_new|now apply ext_set_term]. }
  assert (Rv1 : rinv g1) by now apply rinv_set_term, rinv_new.
  assert (S1 : b_stmts (blk g1 cur) = b_stmts (blk g cur)).
  { unfold g1. now rewrite set_term_stmts, blk_new_blocks. }
  assert (X0 : ext none g1 g0).
  { unfold g0, branch_edges. fold g1. destruct c as [[|]|].
    - eapply ext_trans; [apply ext_add_edge|apply ext_push_pred].
    - eapply ext_trans; [apply ext_add_edge|apply ext_push_pred].
    - eapply ext_trans; apply ext_add_edge. }
  assert (L0 : length g0 = length g1).
  { unfold g0, branch_edges. fold g1. destruct c as [[|]|]; now rewrite ?upd_length, ?add_edge_length. }
  assert (Rv0 : rinv g0).
  { unfold g0, branch_edges. fold g1. destruct c as [[|]|];
      try apply rinv_push_pred; repeat apply rinv_add_edge; auto. }
  split; [lia|]. split; [|split; [auto|split; [|split]]].
  - eapply ext_trans2; [exact X1|exact X0|]. unfold none. tauto.
  - intros i Hi. unfold nonterm. destruct (Nat.lt_ge_cases i (length g1)) as [H|H].
    + destruct (ext_keep _ _ _ X0 i H) as (-> & _ & ->); [unfold none; tauto|].
      unfold g1. rewrite blk_upd_other by lia. rewrite blk_new_blocks, blk_out by lia. auto.
    + rewrite blk_out by lia. auto.
  - destruct (ext_keep _ _ _ X0 cur) as (-> & _ & _); [lia|unfold none; tauto|]. exact S1.
  - unfold g0, branch_edges. fold g1. destruct c as [[|]|]; cbn [is_false is_true]; split; try discriminate; intros _.
    + set (ge := add_edge g1 cur th).
      assert (Xe : ext none ge (upd ge el (push_pred cur))) by apply ext_push_pred.
      split.
      * apply (ext_succ _ _ _ Xe). apply add_edge_succ. lia.
      * apply (has_incoming_ext _ _ _ _ Xe). apply has_incoming_edge; unfold th; lia.
    + set (ge := add_edge g1 cur el).
      assert (Xe : ext none ge (upd ge th (push_pred cur))) by apply ext_push_pred.
      split.
      * apply (ext_succ _ _ _ Xe). apply add_edge_succ. lia.
      * apply (has_incoming_ext _ _ _ _ Xe). apply has_incoming_edge; unfold th, el; lia.
    + set (ge := add_edge g1 cur th).
      assert (Xe : ext none ge (add_edge ge cur el)) by apply ext_add_edge.
      split.
      * apply (ext_succ _ _ _ Xe). apply add_edge_succ. lia.
      * apply (has_incoming_ext _ _ _ _ Xe). apply has_incoming_edge; unfold th; lia.
    + split.
      * apply add_edge_succ. rewrite add_edge_length. lia.
      * apply has_incoming_edge; rewrite add_edge_length; unfold th, el; lia.
Qed.

Lemma mark_after_facts g a c :
  ext none g (mark_after g a c) /\ length (mark_after g a c) = length g /\
  (forall i, b_stmts (blk (mark_after g a c) i) = b_stmts (blk g i)) /\
  (forall i, b_range (blk (mark_after g a c) i) = b_range (blk g i)) /\
  (forall i, b_term (blk (mark_after g a c) i) = b_term (blk g i)) /\
  (rinv g -> rinv (mark_after g a c)).
Proof.
  unfold mark_after. destruct (has_incoming g a).
  - repeat split; auto; intros; apply incl_refl.
  - split; [apply ext_push_pred|]. split; [apply upd_length|].
    repeat split; [intros i..|apply rinv_push_pred];
      destruct (upd_cases g a (push_pred c) i) as [(-> & _ & ->)| ->]; reflexivity.
Qed.

Lemma nbr_child s c : no_bare_return s -> In c (children s) -> no_bare_return c.
Proof. intros H Hc r Hd. apply (H r). eapply desc_child; eauto. Qed.

(** The else part when there is none. *)
Definition else_ok (e : option stmt) (dead : bool) (g : graph) (b after : nat) (g' : graph) : Prop :=
  match e with
  | Some s => branch_ok dead s g b after g'
  | None => ext (fun i => i = b) g g' /\ rinv g' /\ length g' = length g /\
            b_stmts (blk g' b) = [] /\
            (forall R, closed R g' -> R b -> R after /\ has_incoming g' after = true)
  end.

Lemma if_post r c t e g cur g0 g1 g2 :
  well_ranged (If r c t e) -> cur < length g -> rinv g ->
  let th := length g in let el := S th in let after := S el in
  g0 = branch_edges (new_blocks g 3) (const_cond c) cur th el ->
  branch_ok (is_false (const_cond c)) t g0 th after g1 ->
  else_ok e (is_true (const_cond c)) g1 el after g2 ->
  let g3 := mark_after g2 after cur in
  post g cur [If r c t e] (r_start r) (r_end r) g3 after /\ fresh_out g cur g3 after.
Proof.
  intros W Hc Rv th el after -> B1 B2 g3.
  destruct (branch_edges_facts g (const_cond c) cur Hc Rv) as (L0 & X0 & Rv0 & Fr0 & S0 & ET & EF).
  fold th el in L0, X0, Rv0, Fr0, S0, ET, EF.
  set (g0 := branch_edges (new_blocks g 3) (const_cond c) cur th el) in *.
  destruct (mark_after_facts g2 after cur) as (X3 & L3 & S3 & R3 & T3 & Rv3). fold g3 in X3, L3, S3, R3, T3, Rv3.
  pose proof (bo_ext _ _ _ _ _ _ B1) as X1. pose proof (ext_len _ _ _ X1) as XL1.
  assert (X2 : ext (fun i => i = el) g1 g2).
  { destruct e; [apply (bo_ext _ _ _ _ _ _ B2)|apply B2]. }
  pose proof (ext_len _ _ _ X2) as XL2.
  assert (Rv2 : rinv g2).
  { destruct e; [apply (bo_rinv _ _ _ _ _ _ B2)|apply B2]. }
  assert (Rv3' : rinv g3) by auto.
  (* ranges of the branches *)
  assert (Wt : well_ranged t) by (apply (wr_child _ t W); destruct e; now left).
  assert (Ot : S (r_start r) <= r_start (rng t) /\ r_end (rng t) <= r_end r).
  { destruct (W _ (desc_self _)) as (_ & O). apply (ordered_bounds _ _ _ _ O). destruct e; now left. }
  assert (Oe : forall x, e = Some x -> well_ranged x /\ r_end (rng t) <= r_start (rng x) /\ r_end (rng x) <= r_end r).
  { intros x ->. split; [apply (wr_child _ x W); right; now left|].
    destruct (W _ (desc_self _)) as (_ & O). cbn in O. lia. }
  (* keeping *)
  assert (K01 : forall i, i < length g + 3 -> i <> th ->
            b_stmts (blk g1 i) = b_stmts (blk g0 i) /\ b_range (blk g1 i) = b_range (blk g0 i) /\
            b_term (blk g1 i) = b_term (blk g0 i)).
  { intros i Hi Ne. apply (ext_keep _ _ _ X1); auto. lia. }
  assert (K13 : forall i, i < length g1 -> i <> el ->
            b_stmts (blk g3 i) = b_stmts (blk g1 i) /\ b_range (blk g3 i) = b_range (blk g1 i) /\
            b_term (blk g3 i) = b_term (blk g1 i)).
  { intros i Hi Ne. rewrite S3, R3, T3. apply (ext_keep _ _ _ X2); auto. }
  assert (X13 : ext (fun i => i = el) g1 g3).
  { eapply ext_trans2; [exact X2|exact X3|]. unfold none; tauto. }
  assert (X03 : ext (fun i => i = th \/ i = el) g0 g3).
  { eapply ext_trans2; [eapply ext_weaken; [|exact X1]|exact X13|]; cbn; auto. }
  assert (Xg : ext (fun i => i = cur) g g3).
  { eapply ext_trans2; [exact X0|exact X03|]. unfold th, el. cbn. intros. lia. }
  assert (Hafter : b_stmts (blk g3 after) = [] /\ nonterm g3 after).
  { unfold nonterm. destruct (K13 after) as (-> & _ & ->); [unfold after, el, th; lia..|].
    destruct (K01 after) as (-> & _ & ->); [unfold after, el, th; lia..|].
    apply Fr0. unfold after, el, th. lia. }
  (* reaching the branches *)
  assert (Rth : forall R, closed R g3 -> R cur -> is_false (const_cond c) = false -> R th).
  { intros R Hcl Rc Hf. apply (Hcl cur); auto. apply (ext_succ _ _ _ X03). now apply ET. }
  assert (Rel : forall R, closed R g3 -> R cur -> is_true (const_cond c) = false -> R el).
  { intros R Hcl Rc Hf. apply (Hcl cur); auto. apply (ext_succ _ _ _ X03). now apply EF. }
  (* which branch a node of the statement lies in *)
  assert (Loc_t : forall n q, starts (If r c t e) n -> begins_in n q ->
            r_start (rng t) <= r_start q -> r_end q <= r_end (rng t) ->
            is_false (const_cond c) = false /\ starts t n).
  { intros n q Hst (Q1 & Q2) Q3 Q4. inversion Hst; subst; auto.
    - cbn in *. lia.
    - destruct (Oe e0 eq_refl) as (We & Oe1 & Oe2).
      pose proof (starts_bounds _ _ We H5). lia. }
  assert (Loc_e : forall x n q, e = Some x -> starts (If r c t e) n -> begins_in n q ->
            r_start (rng x) <= r_start q -> r_end q <= r_end (rng x) ->
            is_true (const_cond c) = false /\ starts x n).
  { intros x n q -> Hst (Q1 & Q2) Q3 Q4. destruct (Oe x eq_refl) as (We & Oe1 & Oe2).
    inversion Hst; subst; auto.
    - cbn in *. pose proof (wr_nonempty _ Wt). lia.
    - pose proof (starts_bounds _ _ Wt H5). lia. }
  (* the statements of every new block *)
  assert (Wth : within (r_start (rng t)) (r_end (rng t)) (b_stmts (blk g3 th))).
  { destruct (K13 th) as (-> & _); [unfold th, el; lia..|]. apply (bo_b _ _ _ _ _ _ B1). }
  assert (Wel : match e with
                | Some x => within (r_start (rng x)) (r_end (rng x)) (b_stmts (blk g3 el))
                | None => b_stmts (blk g3 el) = []
                end).
  { rewrite S3. destruct e; [apply (bo_b _ _ _ _ _ _ B2)|apply B2]. }
  split.
  - split.
    + exact Xg.
    + rewrite L3. unfold after, el, th. split; [lia|right; lia].
    + exists []. split; [|constructor]. rewrite app_nil_r, S3.
      destruct (K13 cur) as (E13 & _); [unfold el, th; lia..|]. rewrite S3 in E13. rewrite E13.
      destruct (K01 cur) as (-> & _); [unfold th; lia..|]. exact S0.
    + intros i Hi.
      destruct (Nat.eq_dec i th) as [->|N1]; [eapply within_weaken; [| |exact Wth]; lia|].
      destruct (Nat.eq_dec i el) as [->|N2].
      { destruct e as [x|]; [|rewrite Wel; constructor].
        pose proof (wr_nonempty _ Wt); destruct (Oe x eq_refl) as (? & ? & ?). eapply within_weaken; [| |exact Wel]; lia. }
      destruct (Nat.eq_dec i after) as [->|N3]; [destruct Hafter as (-> & _); constructor|].
      destruct (Nat.lt_ge_cases i (length g1)) as [H|H].
      * destruct (K13 i) as (-> & _); auto.
        eapply within_weaken; [| |apply (bo_within _ _ _ _ _ _ B1 i)]; unfold after, el, th in *; lia.
      * rewrite S3. destruct e as [x|].
        -- pose proof (wr_nonempty _ Wt); destruct (Oe x eq_refl) as (? & ? & ?).
           eapply within_weaken; [| |apply (bo_within _ _ _ _ _ _ B2 i)]; lia.
        -- destruct B2 as (_ & _ & BL & _). lia.
    + intros i Hi R Hcl (Rc & _ & _) n q Hst Hbr Hbeg. apply startsl_one in Hst.
      destruct (Nat.eq_dec i th) as [->|N1].
      { destruct (block_range_bounds _ _ _ _ _ Rv3' Wth Hbr) as (Q1 & Q2).
        destruct (Loc_t n q Hst Hbeg Q1 Q2) as (Hf & _). apply Rth; auto. }
      destruct (Nat.eq_dec i el) as [->|N2].
      { destruct e as [x|].
        - destruct (block_range_bounds _ _ _ _ _ Rv3' Wel Hbr) as (Q1 & Q2).
          destruct (Loc_e x n q eq_refl Hst Hbeg Q1 Q2) as (Hf & _). apply Rel; auto.
        - unfold block_range in Hbr. rewrite Wel, (Rv3' _ Wel) in Hbr. discriminate. }
      destruct (Nat.eq_dec i after) as [->|N3].
      { destruct Hafter as (A1 & _). unfold block_range in Hbr. rewrite A1, (Rv3' _ A1) in Hbr. discriminate. }
      destruct (Nat.lt_ge_cases i (length g1)) as [H|H].
      * destruct (K13 i) as (K1 & K2 & _); auto.
        rewrite (block_range_eq (blk g1 i)) in Hbr by auto.
        assert (Hi' : length g0 <= i < length g1) by (unfold after, el, th in *; lia).
        destruct (block_range_bounds _ _ _ _ _ (bo_rinv _ _ _ _ _ _ B1) (bo_within _ _ _ _ _ _ B1 i Hi') Hbr) as (Q1 & Q2).
        destruct (Loc_t n q Hst Hbeg Q1 Q2) as (Hf & Hst').
        apply (bo_sound _ _ _ _ _ _ B1 i Hi' R) with (n := n) (r := q); auto;
          [eapply closed_ext; eauto|apply Rth; auto].
      * destruct e as [x|].
        -- assert (Hi' : length g1 <= i < length g2) by lia.
           rewrite (block_range_eq (blk g2 i)) in Hbr by auto.
           destruct (block_range_bounds _ _ _ _ _ Rv2 (bo_within _ _ _ _ _ _ B2 i Hi') Hbr) as (Q1 & Q2).
           destruct (Loc_e x n q eq_refl Hst Hbeg Q1 Q2) as (Hf & Hst').
           apply (bo_sound _ _ _ _ _ _ B2 i Hi' R) with (n := n) (r := q); auto;
             [eapply closed_ext; eauto|apply Rel; auto].
        -- destruct B2 as (_ & _ & BL & _). lia.
    + intros R Hcl (Rc & _ & _) M. cbn [forallb CfgSem.mayend] in M. rewrite Bool.andb_true_r in M.
      apply Bool.orb_prop in M.
      assert (J : R after /\ has_incoming g3 after = true).
      { destruct M as [M|M]; apply andb_prop in M; destruct M as (M1 & M2); apply Bool.negb_true_iff in M1.
        - destruct (bo_join _ _ _ _ _ _ B1 R) as (J1 & J2); auto.
          + eapply closed_ext; eauto.
          + apply Rth; auto.
          + split; auto. exact (has_incoming_ext _ _ _ _ X13 J2).
        - destruct e as [x|].
          + destruct (bo_join _ _ _ _ _ _ B2 R) as (J1 & J2); auto.
            * eapply closed_ext; eauto.
            * apply Rel; auto.
            * split; auto. exact (has_incoming_ext _ _ _ _ X3 J2).
          + destruct B2 as (_ & _ & _ & _ & B2). destruct (B2 R) as (J1 & J2); auto.
            * eapply closed_ext; eauto.
            * apply Rel; auto.
            * split; auto. exact (has_incoming_ext _ _ _ _ X3 J2). }
      destruct J. repeat split; auto. apply Hafter.
    + exact Rv3'.
  - right. apply Hafter.
Qed.
(** ** Loops *)
Lemma loop_back_facts g a h :
  length (loop_back g a h) = length g /\ ext (fun i => i = a) g (loop_back g a h) /\
  (forall i, b_stmts (blk (loop_back g a h) i) = b_stmts (blk g i)) /\
  (forall i, b_range (blk (loop_back g a h) i) = b_range (blk g i)) /\
  (rinv g -> rinv (loop_back g a h)).
Proof.
  unfold loop_back. destruct (negb _).
  - split; [now rewrite add_edge_length, upd_length|].
    split; [eapply ext_trans; [|apply ext_add_edge]; now apply ext_set_term|].
    repeat split.
    + intros i. now rewrite add_edge_stmts, set_term_stmts.
    + intros i. now rewrite add_edge_range, set_term_range.
    + intros H. now apply rinv_add_edge, rinv_set_term.
  - split; [auto|]. split; [apply ext_refl|]. auto.
Qed.

Lemma loop_post s b g cur g0 lbody after header ls g1 e1 :
  cur < length g -> well_ranged s -> no_bare_return s -> children s = [b] ->
  (forall n, starts s n -> n = s \/ starts b n) ->
  bodied b ->
  ext (fun i => i = cur) g g0 -> rinv g0 ->
  length g <= lbody < length g0 -> length g <= after < length g0 -> lbody <> after ->
  (forall i, length g <= i -> b_stmts (blk g0 i) = []) ->
  nonterm g0 lbody -> nonterm g0 after ->
  b_stmts (blk g0 cur) = b_stmts (blk g cur) ->
  has_incoming g0 lbody = true -> has_incoming g0 after = true ->
  (forall R, closed R g0 -> R cur -> R lbody /\ R after) ->
  build stopping true b g0 lbody ls = (g1, e1) ->
  let g2 := loop_back g1 e1 header in
  post g cur [s] (r_start (rng s)) (r_end (rng s)) g2 after /\ fresh_out g cur g2 after.
Proof.
  intros Hc W NB Ch St Hb X0 Rv0 Lb La Ne Fr Nb Na Sc Ib Ia HR E g2.
  assert (Wb : well_ranged b) by (apply (wr_child s); auto; rewrite Ch; now left).
  assert (NBb : no_bare_return b) by (apply (nbr_child s); auto; rewrite Ch; now left).
  assert (Ob : S (r_start (rng s)) <= r_start (rng b) /\ r_end (rng b) <= r_end (rng s)).
  { destruct (W s (desc_self s)) as (_ & O). apply (ordered_bounds _ _ _ _ O). rewrite Ch. now left. }
  pose proof (Hb g0 lbody ls (proj2 Lb) Rv0 Wb NBb g1 e1 E) as P.
  destruct (p_out _ _ _ _ _ _ _ P) as (Q1 & Q2).
  pose proof (p_ext _ _ _ _ _ _ _ P) as X1.
  pose proof (ext_len _ _ _ X0) as XL0. pose proof (ext_len _ _ _ X1) as XL1.
  pose proof (p_rinv _ _ _ _ _ _ _ P) as Rv1.
  destruct (loop_back_facts g1 e1 header) as (L2 & X2 & S2 & R2 & Rv2). fold g2 in L2, X2, S2, R2, Rv2.
  specialize (Rv2 Rv1).
  assert (X02 : ext (fun i => i = lbody) g0 g2).
  { eapply ext_trans2; [exact X1|exact X2|]. cbn. intros. lia. }
  assert (K : forall i, i < length g0 -> i <> lbody ->
            b_stmts (blk g2 i) = b_stmts (blk g0 i) /\ b_term (blk g2 i) = b_term (blk g0 i)).
  { intros i Hi Hn. destruct (ext_keep _ _ _ X02 i) as (A & _ & B); auto. }
  assert (Wl : within (r_start (rng b)) (r_end (rng b)) (b_stmts (blk g2 lbody))).
  { rewrite S2. destruct (p_cur _ _ _ _ _ _ _ P) as (ad & -> & A). rewrite Fr by lia. exact A. }
  assert (Wi : forall i, length g <= i < length g2 -> within (r_start (rng b)) (r_end (rng b)) (b_stmts (blk g2 i))).
  { intros i Hi. destruct (Nat.eq_dec i lbody) as [->|N1]; auto.
    destruct (Nat.lt_ge_cases i (length g0)) as [H|H].
    - destruct (K i) as (-> & _); auto. rewrite Fr by lia. constructor.
    - rewrite S2. apply (p_within _ _ _ _ _ _ _ P). lia. }
  split.
  - split.
    + eapply ext_trans2; [exact X0|exact X02|]. cbn. intros. lia.
    + lia.
    + exists []. split; [|constructor]. rewrite app_nil_r.
      destruct (K cur) as (-> & _); [lia..|]. exact Sc.
    + intros i Hi. eapply within_weaken; [| |exact (Wi i Hi)]; lia.
    + intros i Hi R Hcl (Rc & _ & _) n q Hst Hbr (B1 & B2). apply startsl_one in Hst.
      destruct (block_range_bounds _ _ _ _ _ Rv2 (Wi i Hi) Hbr) as (B3 & B4).
      destruct (St n Hst) as [->|Hst']; [lia|].
      destruct (HR R) as (Rl & _); [eapply closed_ext; eauto|auto|].
      destruct (Nat.eq_dec i lbody) as [->|N1]; auto.
      destruct (Nat.lt_ge_cases i (length g0)) as [H|H].
      * destruct (K i) as (K1 & _); auto. rewrite Fr in K1 by lia.
        unfold block_range in Hbr. rewrite K1, (Rv2 _ K1) in Hbr. discriminate.
      * rewrite (block_range_eq (blk g1 i)) in Hbr by auto.
        apply (p_sound _ _ _ _ _ _ _ P i) with (R := R) (n := n) (r := q); auto; try lia.
        -- eapply closed_ext; eauto.
        -- repeat split; auto.
        -- now apply startsl_one.
        -- split; auto.
    + intros R Hcl (Rc & _ & _) _. destruct (HR R) as (_ & Ra); [eapply closed_ext; eauto|auto|].
      repeat split; auto.
      * exact (has_incoming_ext _ _ _ _ X02 Ia).
      * unfold nonterm. destruct (K after) as (_ & ->); auto. lia.
    + exact Rv2.
  - right. destruct (K after) as (-> & _); [lia..|]. apply Fr. lia.
Qed.

(** The graph right after the header of a loop has been laid out. *)
Lemma for_setup g cur :
  cur < length g -> rinv g ->
  let header := length g in let lbody := S header in let after := S lbody in
  let g0 := add_edge (add_edge (upd (add_edge (upd (new_blocks g 3) cur (set_term TGoto)) cur header)
              header (set_term TLoop)) header lbody) header after in
  ext (fun i => i = cur) g g0 /\ rinv g0 /\ length g0 = length g + 3 /\
  (forall i, length g <= i -> b_stmts (blk g0 i) = []) /\
  nonterm g0 lbody /\ nonterm g0 after /\ b_stmts (blk g0 cur) = b_stmts (blk g cur) /\
  has_incoming g0 lbody = true /\ has_incoming g0 after = true /\
  (forall R, closed R g0 -> R cur -> R lbody /\ R after).
Proof.
  intros Hc Rv header lbody after g0.
  set (ga := upd (new_blocks g 3) cur (set_term TGoto)) in *.
  set (gb := add_edge ga cur header) in *.
  set (gc := upd gb header (set_term TLoop)) in *.
  set (gd := add_edge gc header lbody) in *.
  assert (La : length ga = length g + 3) by (unfold ga; now rewrite upd_length, new_blocks_length).
  assert (Lb : length gb = length g + 3) by (unfold gb; now rewrite add_edge_length).
  assert (Lc : length gc = length g + 3) by (unfold gc; now rewrite upd_length).
  assert (Ld : length gd = length g + 3) by (unfold gd; now rewrite add_edge_length).
  assert (L0 : length g0 = length g + 3) by (unfold g0; now rewrite add_edge_length).
  assert (Xcd : ext none gc gd) by apply ext_add_edge.
  assert (Xd0 : ext none gd g0) by apply ext_add_edge.
  assert (Xb0 : ext (fun i => i = header) gb g0).
  { eapply ext_trans; [|apply ext_add_edge]. eapply ext_trans; [|apply ext_add_edge].
    now apply ext_set_term. }
  assert (Xga : ext (fun i => i = cur) g ga).
  { unfold ga. eapply ext_trans; [apply ext_new|now apply ext_set_term]. }
  assert (Xgb : ext (fun i => i = cur) g gb).
  { eapply ext_trans; [exact Xga|apply ext_add_edge]. }
  assert (X : ext (fun i => i = cur) g g0).
  { eapply ext_trans2; [exact Xgb|exact Xb0|]. unfold header. cbn. intros. lia. }
  assert (Stm : forall i, b_stmts (blk g0 i) = b_stmts (blk g i)).
  { intros i. unfold g0, gd, gc, gb, ga.
    now rewrite !add_edge_stmts, set_term_stmts, add_edge_stmts, set_term_stmts, blk_new_blocks. }
  assert (Tm : forall i, i <> cur -> i <> header -> b_term (blk g0 i) = b_term (blk g i)).
  { intros i N1 N2. unfold g0, gd, gc, gb, ga.
    rewrite !add_edge_term, blk_upd_other, add_edge_term, blk_upd_other, blk_new_blocks; auto. }
  split; [exact X|]. split.
  { unfold g0, gd, gc, gb, ga. repeat first [apply rinv_add_edge|apply rinv_set_term|apply rinv_new]; auto. }
  split; [exact L0|]. split.
  { intros i Hi. now rewrite Stm, blk_out. }
  split.
  { unfold nonterm. rewrite Tm by (unfold lbody, header; lia). now rewrite blk_out by (unfold lbody, header; lia). }
  split.
  { unfold nonterm. rewrite Tm by (unfold after, lbody, header; lia). now rewrite blk_out by (unfold after, lbody, header; lia). }
  split; [apply Stm|]. split.
  { apply (has_incoming_ext _ _ _ _ Xd0). apply has_incoming_edge; unfold header, lbody; lia. }
  split.
  { apply has_incoming_edge; unfold header, after, lbody; lia. }
  intros R Hcl Rc. assert (Rh : R header).
  { apply (Hcl cur); auto. apply (ext_succ _ _ _ Xb0). apply add_edge_succ. lia. }
  split; apply (Hcl header); auto.
  - apply (ext_succ _ _ _ Xd0). apply add_edge_succ. unfold header; lia.
  - apply add_edge_succ. unfold header; lia.
Qed.

Lemma repeat_setup g cur :
  cur < length g -> rinv g ->
  let lbody := length g in let after := S lbody in
  let g0 := add_edge (add_edge (upd (new_blocks g 2) cur (set_term TGoto)) cur lbody) lbody after in
  ext (fun i => i = cur) g g0 /\ rinv g0 /\ length g0 = length g + 2 /\
  (forall i, length g <= i -> b_stmts (blk g0 i) = []) /\
  nonterm g0 lbody /\ nonterm g0 after /\ b_stmts (blk g0 cur) = b_stmts (blk g cur) /\
  has_incoming g0 lbody = true /\ has_incoming g0 after = true /\
  (forall R, closed R g0 -> R cur -> R lbody /\ R after).
Proof.
  intros Hc Rv lbody after g0.
  set (ga := upd (new_blocks g 2) cur (set_term TGoto)) in *.
  set (gb := add_edge ga cur lbody) in *.
  assert (La : length ga = length g + 2) by (unfold ga; now rewrite upd_length, new_blocks_length).
  assert (Lb : length gb = length g + 2) by (unfold gb; now rewrite add_edge_length).
  assert (L0 : length g0 = length g + 2) by (unfold g0; now rewrite add_edge_length).
  assert (Xb0 : ext none gb g0) by apply ext_add_edge.
  assert (Xga : ext (fun i => i = cur) g ga).
  { unfold ga. eapply ext_trans; [apply ext_new|now apply ext_set_term]. }
  assert (X : ext (fun i => i = cur) g g0).
  { eapply ext_trans; [exact Xga|]. eapply ext_trans; apply ext_add_edge. }
  assert (Stm : forall i, b_stmts (blk g0 i) = b_stmts (blk g i)).
  { intros i. unfold g0, gb, ga. now rewrite !add_edge_stmts, set_term_stmts, blk_new_blocks. }
  assert (Tm : forall i, i <> cur -> b_term (blk g0 i) = b_term (blk g i)).
  { intros i N1. unfold g0, gb, ga. rewrite !add_edge_term, blk_upd_other, blk_new_blocks; auto. }
  split; [exact X|]. split.
  { unfold g0, gb, ga. repeat first [apply rinv_add_edge|apply rinv_set_term|apply rinv_new]; auto. }
  split; [exact L0|]. split.
  { intros i Hi. now rewrite Stm, blk_out. }
  split.
  { unfold nonterm. rewrite Tm by (unfold lbody; lia). now rewrite blk_out by (unfold lbody; lia). }
  split.
  { unfold nonterm. rewrite Tm by (unfold after, lbody; lia). now rewrite blk_out by (unfold after, lbody; lia). }
  split; [apply Stm|]. split.
  { apply (has_incoming_ext _ _ _ _ Xb0). apply has_incoming_edge; unfold lbody; lia. }
  split.
  { apply has_incoming_edge; unfold after, lbody; lia. }
  intros R Hcl Rc. assert (Rh : R lbody).
  { apply (Hcl cur); auto. apply (ext_succ _ _ _ Xb0). apply add_edge_succ. lia. }
  split; auto. apply (Hcl lbody); auto. apply add_edge_succ. unfold lbody; lia.
Qed.

(** ** The whole builder *)
Lemma fresh_self g cur g' : fresh_out g cur g' cur.
Proof. now left. Qed.

Lemma classify_mayend r f : classify stopping f <> KOther -> mayend (Call r f) = false.
Proof. intros H. cbn. destruct (classify stopping f); auto. congruence. Qed.

Lemma bodied_of_single s :
  (forall r l, s <> Block r l) -> single s -> bodied s.
Proof.
  intros Hn H g cur ls Hc Rv W NB g' out E.
  assert (E' : build stopping false s g cur ls = (g', out)).
  { rewrite <- E. destruct s; auto. now destruct (Hn r l). }
  now apply (H g cur ls Hc Rv W NB g' out E').
Qed.

Ltac dead_case :=
  match goal with
  | E : (if negb (has_incoming ?g ?cur) then _ else _) = _ |- _ =>
      destruct (has_incoming g cur) eqn:Inc; cbn [negb] in E;
      [|injection E as <- <-; split; [now apply leaf_add|apply fresh_self]]
  end.

Lemma build_ok s : single s /\ bodied s.
Proof.
  induction s as [r|r f|r|r|r|r l IHl|r c t e IHt IHe|r b IHb|r c b IHb|r b IHb] using stmt_ind'.
  - assert (H : single (Simple r)).
    { intros g cur ls Hc Rv W NB g' out E. cbn [build] in E. dead_case.
      injection E as <- <-. split; [now apply (leaf_add g cur (Simple r))|apply fresh_self]. }
    split; auto. apply bodied_of_single; auto. discriminate.
  - assert (H : single (Call r f)).
    { intros g cur ls Hc Rv W NB g' out E. cbn [build] in E. dead_case.
      destruct (classify stopping f) eqn:K; injection E as <- <-; (split; [|apply fresh_self]);
        try (assert (M : mayend (Call r f) = false) by (apply classify_mayend; congruence)).
      - now apply (leaf_term g cur (Call r f)).
      - destruct ls as [|[h a] ls]; cbn [build_break].
        + now apply (leaf_same g cur (Call r f)).
        + now apply (leaf_jump g cur (Call r f)).
      - destruct ls as [|[h a] ls]; cbn [build_next].
        + now apply (leaf_same g cur (Call r f)).
        + now apply (leaf_jump g cur (Call r f)).
      - now apply (leaf_term g cur (Call r f)).
      - now apply (leaf_add g cur (Call r f)). }
    split; auto. apply bodied_of_single; auto. discriminate.
  - assert (H : single (Break r)).
    { intros g cur ls Hc Rv W NB g' out E. cbn [build] in E. dead_case.
      injection E as <- <-. split; [|apply fresh_self].
      destruct ls as [|[h a] ls]; cbn [build_break].
      + now apply (leaf_same g cur (Break r)).
      + now apply (leaf_jump g cur (Break r)). }
    split; auto. apply bodied_of_single; auto. discriminate.
  - assert (H : single (Next r)).
    { intros g cur ls Hc Rv W NB g' out E. cbn [build] in E. dead_case.
      injection E as <- <-. split; [|apply fresh_self].
      destruct ls as [|[h a] ls]; cbn [build_next].
      + now apply (leaf_same g cur (Next r)).
      + now apply (leaf_jump g cur (Next r)). }
    split; auto. apply bodied_of_single; auto. discriminate.
  - assert (H : single (Return r)).
    { intros g cur ls Hc Rv W NB g' out E. exfalso. apply (NB r). constructor. }
    split; auto. apply bodied_of_single; auto. discriminate.
  - split.
    + intros g cur ls Hc Rv W NB g' out E. cbn [build] in E. dead_case.
      injection E as <- <-. split; [now apply (leaf_add g cur (Block r l))|apply fresh_self].
    + intros g cur ls Hc Rv W NB g' out E. cbn [build] in E.
      destruct (W _ (desc_self _)) as (Wn & O). cbn [rng children] in *.
      pose proof (fun Hs Hw Hn => build_list_post ls l g cur _ _ Hs Hw Hn O Hc Rv g' out E) as P.
      assert (P' : post g cur l (S (r_start r)) (r_end r) g' out).
      { apply P.
        - eapply Forall_impl; [|exact IHl]. now intros ? [].
        - apply Forall_forall. intros x Hx. now apply (wr_child _ x W).
        - apply Forall_forall. intros x Hx. now apply (nbr_child _ x NB). }
      clear P. destruct P' as [A B (ad & C1 & C2) D1 D2 F G]. split; auto.
      * exists ad. split; auto. eapply within_weaken; [| |exact C2]; lia.
      * intros i Hi. eapply within_weaken; [| |exact (D1 i Hi)]; lia.
      * intros i Hi R Hcl Hl n q Hst Hbr Hbeg. apply startsl_one in Hst.
        apply starts_block_iff in Hst. destruct Hst as [->|Hst].
        -- destruct (block_range_bounds _ _ _ _ _ G (D1 i Hi) Hbr). destruct Hbeg. cbn in *. lia.
        -- now apply (D2 i Hi R Hcl Hl n q).
      * intros R Hcl Hl M. cbn in M. rewrite Bool.andb_true_r in M. auto.
  - assert (H : single (If r c t e)).
    { intros g cur ls Hc Rv W NB g' out E.
      assert (Wt : well_ranged t) by (apply (wr_child _ t W); destruct e; now left).
      assert (NBt : no_bare_return t) by (apply (nbr_child _ t NB); destruct e; now left).
      cbn [build] in E. dead_case. cbn [rng].
      destruct (branch_edges_facts g (const_cond c) cur Hc Rv) as (L0 & X0 & Rv0 & Fr0 & S0 & ET & EF).
      set (th := length g) in *. set (el := S th) in *. set (after := S el) in *.
      set (g0 := branch_edges (new_blocks g 3) (const_cond c) cur th el) in *.
      set (g1 := if is_false (const_cond c) then upd g0 th (push_stmt t)
                 else let '(g, e1) := build stopping true t g0 th ls in join_branch g e1 after) in *.
      match type of E with (mark_after ?x _ _, _) = _ => set (g2 := x) in E end.
      apply pair_equal_spec in E. destruct E as [<- <-].
      assert (B1 : branch_ok (is_false (const_cond c)) t g0 th after g1).
      { unfold g1. destruct (is_false (const_cond c)) eqn:Hf.
        - apply branch_dead; auto; [unfold th; lia|apply Fr0; unfold th; lia].
        - destruct (build stopping true t g0 th ls) as [ga ea] eqn:Eb.
          apply branch_live with (ls := ls); auto; try apply IHt; try apply ET; auto;
            try (apply Fr0); unfold after, el, th; lia. }
      pose proof (bo_ext _ _ _ _ _ _ B1) as X1. pose proof (ext_len _ _ _ X1) as XL1.
      assert (Hel : b_stmts (blk g1 el) = [] /\ nonterm g1 el).
      { unfold nonterm. destruct (ext_keep _ _ _ X1 el) as (-> & _ & ->); [unfold el, th; lia..|].
        apply Fr0. unfold el, th. lia. }
      destruct Hel as (Hel1 & Hel2).
      apply if_post with (g0 := g0) (g1 := g1); auto.
      unfold g2, else_ok. destruct e as [x|].
      - assert (Wx : well_ranged x) by (apply (wr_child _ x W); right; now left).
        assert (NBx : no_bare_return x) by (apply (nbr_child _ x NB); right; now left).
        destruct (is_true (const_cond c)) eqn:Ht.
        + apply branch_dead; auto; [unfold el, th; lia|apply (bo_rinv _ _ _ _ _ _ B1)].
        + destruct (build stopping true x g1 el ls) as [ga ea] eqn:Eb.
          apply branch_live with (ls := ls); auto;
            try (now apply (IHe x)); try apply (bo_rinv _ _ _ _ _ _ B1);
            try (unfold after, el, th; lia).
          apply (has_incoming_ext _ _ _ _ X1). now apply EF.
      - split; [eapply ext_trans; [|apply ext_add_edge]; now apply ext_set_term|].
        split; [apply rinv_add_edge, rinv_set_term; apply (bo_rinv _ _ _ _ _ _ B1)|].
        split; [now rewrite add_edge_length, upd_length|].
        split; [now rewrite add_edge_stmts, set_term_stmts|].
        intros R Hcl Rb. split.
        + apply (Hcl el); auto. apply add_edge_succ. rewrite upd_length. unfold el, th; lia.
        + apply has_incoming_edge; rewrite upd_length; unfold after, el, th; lia. }
    split; auto. apply bodied_of_single; auto. discriminate.
  - assert (H : single (For r b)).
    { intros g cur ls Hc Rv W NB g' out E. cbn [build] in E. dead_case.
      destruct (for_setup g cur Hc Rv) as (A1 & A2 & A3 & A4 & A5 & A6 & A7 & A8 & A9 & A10).
      destruct (build stopping true b _ _ _) as [g1 e1] eqn:Eb in E.
      apply pair_equal_spec in E. destruct E as [<- <-].
      eapply loop_post with (b := b); eauto; try apply IHb; try lia.
      intros n Hn. inversion Hn; auto. }
    split; auto. apply bodied_of_single; auto. discriminate.
  - assert (H : single (While r c b)).
    { intros g cur ls Hc Rv W NB g' out E. cbn [build] in E. dead_case.
      destruct (for_setup g cur Hc Rv) as (A1 & A2 & A3 & A4 & A5 & A6 & A7 & A8 & A9 & A10).
      destruct (build stopping true b _ _ _) as [g1 e1] eqn:Eb in E.
      apply pair_equal_spec in E. destruct E as [<- <-].
      eapply loop_post with (b := b); eauto; try apply IHb; try lia.
      intros n Hn. inversion Hn; auto. }
    split; auto. apply bodied_of_single; auto. discriminate.
  - assert (H : single (Repeat r b)).
    { intros g cur ls Hc Rv W NB g' out E. cbn [build] in E. dead_case.
      destruct (repeat_setup g cur Hc Rv) as (A1 & A2 & A3 & A4 & A5 & A6 & A7 & A8 & A9 & A10).
      destruct (build stopping true b _ _ _) as [g1 e1] eqn:Eb in E.
      apply pair_equal_spec in E. destruct E as [<- <-].
      eapply loop_post with (b := b); eauto; try apply IHb; try lia.
      intros n Hn. inversion Hn; auto. }
    split; auto. apply bodied_of_single; auto. discriminate.
Qed.

(** ** Whole functions and whole files *)
Lemma rinv_new_graph : rinv new_graph.
Proof. intros [|[|[|i]]]; reflexivity. Qed.

Theorem cfg_sound body R n r i :
  well_ranged body -> no_bare_return body -> starts body n ->
  closed R (build_cfg stopping body) -> R entry ->
  2 <= i < length (build_cfg stopping body) ->
  block_range (blk (build_cfg stopping body) i) = Some r -> begins_in n r -> R i.
Proof.
  intros W NB Hst Hcl Re Hi Hbr Hbeg. unfold build_cfg in *.
  destruct (build stopping true body new_graph entry []) as [g' out] eqn:E. cbn [fst] in *.
  destruct (build_ok body) as (_ & B).
  assert (P : post new_graph entry [body] (r_start (rng body)) (r_end (rng body)) g' out).
  { apply (B new_graph entry []); auto; [cbn; unfold entry; lia|apply rinv_new_graph]. }
  apply (p_sound _ _ _ _ _ _ _ P i Hi R Hcl) with (n := n) (r := r); auto.
  - repeat split; auto.
  - now apply startsl_one.
Qed.

Theorem cfg_top_sound l R n r i :
  well_ranged_top l -> Forall no_bare_return l -> startsl l n ->
  closed R (build_cfg_top_level stopping l) -> R entry ->
  2 <= i < length (build_cfg_top_level stopping l) ->
  block_range (blk (build_cfg_top_level stopping l) i) = Some r -> begins_in n r -> R i.
Proof.
  intros ((lo & hi & O) & W) NB Hst Hcl Re Hi Hbr Hbeg. unfold build_cfg_top_level in *.
  destruct (build_list _ l new_graph entry) as [g' out] eqn:E. cbn [fst] in *.
  assert (P : post new_graph entry l lo hi g' out).
  { apply (build_list_post [] l new_graph entry lo hi); auto.
    - apply Forall_forall. intros x _. apply build_ok.
    - cbn; unfold entry; lia.
    - apply rinv_new_graph. }
  apply (p_sound _ _ _ _ _ _ _ P i Hi R Hcl) with (n := n) (r := r); auto.
  repeat split; auto.
Qed.
End Build.
