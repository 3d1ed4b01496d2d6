(** The graph search visits exactly the blocks that have a path from the entry,
    and every reported range consists of unvisited blocks. *)
From Verif Require Import Model.Text Model.Base Model.Cfg Spec.CfgSpec.
From Verif Require Import Proofs.CfgGraph Proofs.CfgSem Proofs.CfgBuild.
Import ListNotations.

Inductive path (g : graph) : nat -> nat -> Prop :=
| path_refl i : path g i i
| path_edge i j k : path g i j -> In k (b_succ (blk g j)) -> path g i k.

Definition cost (g : graph) (visited : list nat) (i : nat) : nat :=
  if memn i visited then 0 else length (b_succ (blk g i)).
Fixpoint weight (g : graph) (visited : list nat) (l : list nat) : nat :=
  match l with
  | [] => 0
  | i :: l => cost g visited i + weight g visited l
  end.

Lemma cost_mono g v b i : cost g (b :: v) i <= cost g v i.
Proof.
  unfold cost. change (memn i (b :: v)) with ((i =? b) || memn i v).
  destruct (i =? b), (memn i v); cbn; lia.
Qed.

Lemma cost_visit g v b : memn b v = false -> cost g (b :: v) b + length (b_succ (blk g b)) <= cost g v b.
Proof.
  intros H. unfold cost. change (memn b (b :: v)) with ((b =? b) || memn b v).
  rewrite Nat.eqb_refl, H. cbn. lia.
Qed.

Lemma weight_mono g v b l : weight g (b :: v) l <= weight g v l.
Proof.
  induction l as [|i l IH]; cbn [weight]; auto. pose proof (cost_mono g v b i). lia.
Qed.

Lemma weight_visit g v b l :
  In b l -> memn b v = false -> weight g (b :: v) l + length (b_succ (blk g b)) <= weight g v l.
Proof.
  intros Hb Hv. induction l as [|i l IH]; [destruct Hb|]. cbn [weight].
  destruct Hb as [->|Hb].
  - pose proof (cost_visit g v b Hv). pose proof (weight_mono g v b l). lia.
  - specialize (IH Hb). pose proof (cost_mono g v b i). lia.
Qed.

Lemma weight_visit' g v b :
  memn b v = false ->
  weight g (b :: v) (seq 0 (length g)) + length (b_succ (blk g b)) <= weight g v (seq 0 (length g)).
Proof.
  intros Hv. destruct (Nat.lt_ge_cases b (length g)) as [H|H].
  - apply weight_visit; auto. apply in_seq. lia.
  - rewrite (blk_out g b H). cbn. rewrite Nat.add_0_r. apply weight_mono.
Qed.

Lemma weight_total g : weight g [] (seq 0 (length g)) = fold_right (fun b n => length (b_succ b) + n) 0 g.
Proof.
  assert (H : forall g pre, weight (pre ++ g) [] (seq (length pre) (length g))
                            = fold_right (fun b n => length (b_succ b) + n) 0 g).
  { clear. induction g as [|b g IH]; intros pre; cbn [length seq weight fold_right]; auto.
    unfold cost at 1, blk at 1. rewrite nth_middle. cbn [memn existsb].
    specialize (IH (pre ++ [b])). rewrite <- app_assoc in IH. cbn [app] in IH.
    rewrite app_length in IH. cbn [length] in IH. rewrite Nat.add_1_r in IH. now rewrite IH. }
  apply (H g []).
Qed.

Lemma filter_len {A} (f : A -> bool) l : length (filter f l) <= length l.
Proof. induction l as [|x l IH]; cbn; auto. destruct (f x); cbn; lia. Qed.

Lemma reach_loop_spec fuel : forall g stack visited,
  length stack + weight g visited (seq 0 (length g)) < fuel ->
  (forall i j, In i visited -> In j (b_succ (blk g i)) -> In j visited \/ In j stack) ->
  let v := reach_loop fuel g stack visited in
  incl visited v /\ incl stack v /\
  (forall i j, In i v -> In j (b_succ (blk g i)) -> In j v) /\
  (forall i, In i v -> In i visited \/ exists s, In s stack /\ path g s i).
Proof.
  induction fuel as [|fuel IH]; intros g stack visited Hf Hinv; [lia|].
  cbn [reach_loop]. destruct stack as [|b stack].
  - cbn. split; [apply incl_refl|]. split; [intros x []|]. split.
    + intros i j Hi Hj. destruct (Hinv i j Hi Hj) as [H|[]]; auto.
    + auto.
  - destruct (memn b visited) eqn:Hb.
    + apply memn_In in Hb.
      destruct (IH g stack visited) as (A & B & C & D).
      * cbn [length] in Hf. lia.
      * intros i j Hi Hj. destruct (Hinv i j Hi Hj) as [H|[<-|H]]; auto.
      * split; auto. split; [|split; auto].
        -- intros x [<-|Hx]; auto.
        -- intros i Hi. destruct (D i Hi) as [H|(s & H1 & H2)]; auto. right. exists s. split; auto. now right.
    + set (new := rev (filter (fun s => negb (memn s (b :: visited))) (b_succ (blk g b)))).
      destruct (IH g (new ++ stack) (b :: visited)) as (A & B & C & D).
      * pose proof (weight_visit' g visited b Hb).
        assert (length new <= length (b_succ (blk g b))).
        { unfold new. rewrite rev_length. apply filter_len. }
        rewrite app_length. cbn [length] in Hf. lia.
      * intros i j Hi Hj.
        destruct (memn j (b :: visited)) eqn:Hm; [left; now apply memn_In|].
        right. apply in_or_app. destruct Hi as [<-|Hi].
        -- left. unfold new. rewrite <- in_rev. apply filter_In. split; auto. now rewrite Hm.
        -- destruct (Hinv i j Hi Hj) as [H|[<-|H]]; auto.
           ++ exfalso. assert (memn j (b :: visited) = true) by (apply memn_In; now right). congruence.
           ++ exfalso. assert (memn b (b :: visited) = true) by (apply memn_In; now left). congruence.
      * split; [|split; [|split; auto]].
        -- intros x Hx. apply A. now right.
        -- intros x [<-|Hx]; [apply A; now left|]. apply B. apply in_or_app. now right.
        -- intros i Hi. destruct (D i Hi) as [[<-|H]|(s & H1 & H2)]; auto.
           ++ right. exists b. split; [now left|constructor].
           ++ apply in_app_or in H1. destruct H1 as [H1|H1].
              ** right. exists b. split; [now left|].
                 unfold new in H1. rewrite <- in_rev in H1. apply filter_In in H1. destruct H1 as (H1 & _).
                 clear -H1 H2. induction H2 as [s|s j k Hp IH Hk].
                 --- eapply path_edge; [constructor|auto].
                 --- eapply path_edge; eauto.
              ** right. exists s. split; auto. now right.
Qed.

Theorem find_reachable_exact g i : In i (find_reachable g) <-> path g entry i.
Proof.
  unfold find_reachable.
  destruct (reach_loop_spec (reach_fuel g) g [entry] []) as (A & B & C & D).
  - unfold reach_fuel. rewrite weight_total. cbn [length]. lia.
  - intros x y [].
  - split.
    + intros Hi. destruct (D i Hi) as [[]|(s & [<-|[]] & H)]; auto.
    + intros H. remember entry as e. induction H as [j|j k l Hp IH Hl]; subst.
      * apply B. now left.
      * apply (C k l); auto.
Qed.

Lemma find_reachable_closed g : closed (fun i => In i (find_reachable g)) g.
Proof.
  intros i j Hi Hj. apply find_reachable_exact. apply find_reachable_exact in Hi.
  eapply path_edge; eauto.
Qed.

(** ** Reports *)
Definition at_pos (p : nat) (r : range) : Prop := r_start r <= p < r_end r.

Lemma insert_In x l y : In y (insert_by_start x l) <-> y = x \/ In y l.
Proof.
  induction l as [|z l IH]; cbn; [intuition congruence|].
  destruct (r_start (fst x) <=? r_start (fst z)); cbn; [intuition congruence|].
  rewrite IH. intuition congruence.
Qed.

Lemma sort_In l y : In y (sort_by_start l) <-> In y l.
Proof.
  induction l as [|x l IH]; cbn; [tauto|]. rewrite insert_In, IH. intuition congruence.
Qed.

Lemma merge_point l : forall cur x p,
  In x (merge cur l) -> at_pos p (fst x) ->
  exists y, In y (cur :: l) /\ at_pos p (fst y).
Proof.
  induction l as [|z l IH]; intros cur x p Hx Hp; cbn [merge] in Hx.
  - destruct Hx as [<-|[]]. exists cur. split; auto. now left.
  - destruct (reason_eqb (snd cur) (snd z) && (r_start (fst z) =? r_end (fst cur))) eqn:E.
    + destruct (IH _ _ p Hx Hp) as (y & [<-|Hy] & Hp').
      * apply andb_prop in E. destruct E as (_ & E). apply Nat.eqb_eq in E.
        unfold at_pos, cover in *. cbn [fst r_start r_end] in *.
        destruct (Nat.lt_ge_cases p (r_end (fst cur))).
        -- exists cur. split; [now left|]. lia.
        -- exists z. split; [right; now left|]. lia.
      * exists y. split; auto. right. now right.
    + destruct Hx as [<-|Hx].
      * exists cur. split; auto. now left.
      * destruct (IH _ _ p Hx Hp) as (y & Hy & Hp'). exists y. split; auto. now right.
Qed.

Lemma merge_covers l : forall cur y p,
  In y (cur :: l) -> at_pos p (fst y) ->
  exists x, In x (merge cur l) /\ at_pos p (fst x).
Proof.
  induction l as [|z l IH]; intros cur y p Hy Hp; cbn [merge].
  - destruct Hy as [<-|[]]. exists cur. split; auto. now left.
  - destruct (reason_eqb (snd cur) (snd z) && (r_start (fst z) =? r_end (fst cur))) eqn:E.
    + destruct Hy as [<-|[<-|Hy]].
      * apply (IH (cover (fst cur) (fst z), snd cur) (cover (fst cur) (fst z), snd cur)); [now left|].
        unfold at_pos, cover in *. cbn. lia.
      * apply (IH (cover (fst cur) (fst z), snd cur) (cover (fst cur) (fst z), snd cur)); [now left|].
        unfold at_pos, cover in *. cbn. lia.
      * apply (IH _ y); auto. now right.
    + destruct Hy as [<-|Hy].
      * exists cur. split; auto. now left.
      * destruct (IH z y p Hy Hp) as (x & Hx & Hp'). exists x. split; auto. now right.
Qed.

Lemma unreachable_blocks_In g x :
  In x (unreachable_blocks g) <->
  exists i, 2 <= i < length g /\ ~ In i (find_reachable g) /\
    block_range (blk g i) = Some (fst x) /\ snd x = unreachable_reason g i.
Proof.
  unfold unreachable_blocks. rewrite in_flat_map. split.
  - intros (i & Hi & Hx). apply in_seq in Hi.
    destruct ((i =? entry) || (i =? exit_) || memn i (find_reachable g)) eqn:E; [destruct Hx|].
    apply Bool.orb_false_iff in E. destruct E as (E & E3). apply Bool.orb_false_iff in E.
    destruct E as (E1 & E2). apply Nat.eqb_neq in E1. apply Nat.eqb_neq in E2.
    apply memn_false in E3. unfold entry, exit_ in *.
    exists i. split; [lia|]. split; auto.
    destruct (block_range (blk g i)) as [r|]; [|destruct Hx].
    destruct Hx as [<-|[]]. auto.
  - intros (i & Hi & Hn & Hb & Hr). exists i. split; [apply in_seq; lia|].
    apply memn_false in Hn. rewrite Hn, Hb.
    destruct i as [|[|i]]; try lia. cbn. left. destruct x; cbn in *; congruence.
Qed.

Lemma report_point g x p :
  In x (find_unreachable_code g) -> at_pos p (fst x) ->
  exists i r, 2 <= i < length g /\ ~ In i (find_reachable g) /\
    block_range (blk g i) = Some r /\ at_pos p r.
Proof.
  intros Hx Hp. unfold find_unreachable_code in Hx.
  destruct (sort_by_start (unreachable_blocks g)) as [|y l] eqn:E; [destruct Hx|].
  destruct (merge_point _ _ _ _ Hx Hp) as (z & Hz & Hp').
  rewrite <- E in Hz. apply (proj1 (sort_In _ _)) in Hz.
  apply unreachable_blocks_In in Hz. destruct Hz as (i & Hi & Hn & Hb & _).
  exists i, (fst z). auto.
Qed.

Lemma report_covers g i r p :
  2 <= i < length g -> ~ In i (find_reachable g) -> block_range (blk g i) = Some r -> at_pos p r ->
  exists x, In x (find_unreachable_code g) /\ at_pos p (fst x).
Proof.
  intros Hi Hn Hb Hp. unfold find_unreachable_code.
  assert (Hx : In (r, unreachable_reason g i) (sort_by_start (unreachable_blocks g))).
  { apply sort_In, unreachable_blocks_In. exists i. auto. }
  destruct (sort_by_start (unreachable_blocks g)) as [|y l] eqn:E; [destruct Hx|].
  exact (merge_covers l y _ p Hx Hp).
Qed.

(** ** Soundness of the reports *)
Theorem unreachable_code_sound stopping cs body n x :
  respects stopping cs -> well_ranged body -> no_bare_return body ->
  executed cs body n -> In x (unreachable_code stopping body) -> ~ begins_in n (fst x).
Proof.
  intros Hcs W NB He Hx Hb.
  destruct (report_point _ _ _ Hx Hb) as (i & r & Hi & Hn & Hbr & Hp).
  apply Hn.
  apply (cfg_sound stopping body (fun i => In i (find_reachable (build_cfg stopping body))) n r i); auto.
  - now apply (executed_starts stopping cs).
  - apply find_reachable_closed.
  - apply find_reachable_exact. constructor.
Qed.

Theorem unreachable_code_top_sound stopping cs l n x :
  respects stopping cs -> well_ranged_top l -> Forall no_bare_return l ->
  executed_top cs l n -> In x (unreachable_code_top_level stopping l) -> ~ begins_in n (fst x).
Proof.
  intros Hcs W NB He Hx Hb. apply filter_In in Hx. destruct Hx as (Hx & _).
  destruct (report_point _ _ _ Hx Hb) as (i & r & Hi & Hn & Hbr & Hp).
  apply Hn.
  apply (cfg_top_sound stopping l (fun i => In i (find_reachable (build_cfg_top_level stopping l))) n r i); auto.
  - now apply (executed_top_startsl stopping cs).
  - apply find_reachable_closed.
  - apply find_reachable_exact. constructor.
Qed.
