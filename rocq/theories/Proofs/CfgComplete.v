(** Code after a return, stop, break or next in the same braces is reported. *)
From Verif Require Import Model.Text Model.Base Model.Cfg Spec.CfgSpec.
From Verif Require Import Proofs.TextProofs Proofs.RulesProofs.
From Verif Require Import Proofs.CfgGraph Proofs.CfgSem Proofs.CfgBuild Proofs.CfgReach.
Import ListNotations.

(** ** Edges *)
(** No edge leads to [i]. *)
Definition cold (g : graph) (i : nat) : Prop := forall x, ~ In i (b_succ (blk g x)).

(** Edges stay in the graph and are known to their target. *)
Definition sym (g : graph) : Prop :=
  forall x j, In j (b_succ (blk g x)) -> j < length g /\ In x (b_pred (blk g j)).

(** The only edges of [g'] that [g] has not lead to blocks of [T]. *)
Definition only_new (T : nat -> Prop) (g g' : graph) : Prop :=
  forall x j, In j (b_succ (blk g' x)) -> In j (b_succ (blk g x)) \/ T j.

Lemma only_new_refl T g : only_new T g g.
Proof. intros x j H. now left. Qed.

Lemma only_new_trans T g1 g2 g3 : only_new T g1 g2 -> only_new T g2 g3 -> only_new T g1 g3.
Proof. intros A B x j H. destruct (B x j H) as [H'|H']; auto. Qed.

Lemma only_new_weaken (T T' : nat -> Prop) g g' :
  (forall j, T j -> T' j) -> only_new T g g' -> only_new T' g g'.
Proof. intros H A x j Hj. destruct (A x j Hj); auto. Qed.

Lemma cold_only_new T g g' i : only_new T g g' -> ~ T i -> cold g i -> cold g' i.
Proof. intros A N C x H. destruct (A x i H) as [H'|H']; [now apply (C x)|auto]. Qed.

Lemma succ_upd_same g i f x :
  (forall b, b_succ (f b) = b_succ b) -> b_succ (blk (upd g i f) x) = b_succ (blk g x).
Proof. intros H. destruct (upd_cases g i f x) as [(-> & _ & ->)| ->]; auto. Qed.

Lemma only_new_upd T g i f : (forall b, b_succ (f b) = b_succ b) -> only_new T g (upd g i f).
Proof. intros H x j Hj. rewrite succ_upd_same in Hj by auto. now left. Qed.

Lemma only_new_blocks T g n : only_new T g (new_blocks g n).
Proof. intros x j Hj. rewrite blk_new_blocks in Hj. now left. Qed.

Lemma edge_inv g i j x k :
  In k (b_succ (blk (add_edge g i j) x)) -> In k (b_succ (blk g x)) \/ (k = j /\ x = i).
Proof.
  intros Hk. unfold add_edge in Hk. rewrite succ_upd_same in Hk.
  2:{ intros b. destruct (memn i (b_pred b)); auto. }
  match type of Hk with context [upd g i ?f] =>
    destruct (upd_cases g i f x) as [(-> & _ & E)|E]; rewrite E in Hk end; auto.
  destruct (memn j (b_succ (blk g i))); auto.
  cbn in Hk. apply in_app_or in Hk. destruct Hk as [Hk|[<-|[]]]; auto.
Qed.

Lemma only_new_edge (T : nat -> Prop) g i j : T j -> only_new T g (add_edge g i j).
Proof. intros HT x k Hk. destruct (edge_inv _ _ _ _ _ Hk) as [H|(-> & ->)]; auto. Qed.

Lemma sym_upd g i f :
  sym g -> (forall b, b_succ (f b) = b_succ b) -> (forall b, incl (b_pred b) (b_pred (f b))) ->
  sym (upd g i f).
Proof.
  intros S Hs Hp x j Hj. rewrite succ_upd_same in Hj by auto. rewrite upd_length.
  destruct (S x j Hj) as (A & B). split; auto.
  destruct (upd_cases g i f j) as [(-> & _ & ->)| ->]; auto. now apply Hp.
Qed.

Lemma sym_new g n : sym g -> sym (new_blocks g n).
Proof.
  intros S x j Hj. rewrite blk_new_blocks in *. rewrite new_blocks_length.
  destruct (S x j Hj). split; auto. lia.
Qed.

Lemma sym_edge g i j : sym g -> j < length g -> sym (add_edge g i j).
Proof.
  intros S Hj x k Hk. rewrite add_edge_length.
  pose proof (ext_add_edge none g i j) as X.
  destruct (edge_inv _ _ _ _ _ Hk) as [H|(-> & ->)].
  - destruct (S x k H). split; auto. now apply (ext_pred _ _ _ X).
  - split; auto. now apply add_edge_pred.
Qed.

Lemma sym_set_term g i t : sym g -> sym (upd g i (set_term t)).
Proof. intros S. apply sym_upd; auto. intros b; apply incl_refl. Qed.
Lemma sym_push_stmt g i t : sym g -> sym (upd g i (push_stmt t)).
Proof. intros S. apply sym_upd; auto. intros b; apply incl_refl. Qed.
Lemma sym_add_statement g i s : sym g -> sym (add_statement g i s).
Proof. intros S. apply sym_upd; auto. intros b; apply incl_refl. Qed.
Lemma sym_push_pred g i p : sym g -> sym (upd g i (push_pred p)).
Proof. intros S. apply sym_upd; auto. intros b x Hx. cbn. apply in_or_app. now left. Qed.

Lemma sym_add_all l : forall g i, sym g -> sym (add_all g i l).
Proof.
  induction l as [|s l IH]; intros g i S; auto.
  change (add_all g i (s :: l)) with (add_all (add_statement g i s) i l).
  apply IH. now apply sym_add_statement.
Qed.
Lemma only_new_add_all T l : forall g i, only_new T g (add_all g i l).
Proof.
  induction l as [|s l IH]; intros g i; [apply only_new_refl|].
  change (add_all g i (s :: l)) with (add_all (add_statement g i s) i l).
  eapply only_new_trans; [|apply IH]. now apply only_new_upd.
Qed.

Lemma not_incoming_cold g i : sym g -> has_incoming g i = false -> i <> entry /\ cold g i.
Proof.
  intros S H. assert (N : ~ has_incoming g i = true) by congruence.
  rewrite has_incoming_spec in N. split; [tauto|].
  intros x Hx. apply N. right. exists x. split; auto. now apply S.
Qed.

Lemma cold_not_incoming g i : i <> entry -> cold g i -> has_incoming g i = false.
Proof.
  intros N C. destruct (has_incoming g i) eqn:E; auto. apply has_incoming_spec in E.
  destruct E as [E|(p & _ & E)]; [contradiction|]. now apply C in E.
Qed.

(** ** Sorted statement lists *)
Lemma ordered_app lo a m b hi : ordered lo a m -> ordered m b hi -> ordered lo (a ++ b) hi.
Proof.
  assert (Hw : forall l lo lo' hi, lo' <= lo -> ordered lo l hi -> ordered lo' l hi).
  { intros [|x l] l1 l2 h; cbn; intros; try lia. destruct H0 as (A & B & C). repeat split; auto. lia. }
  revert lo. induction a as [|x a IH]; intros lo Ha Hb; cbn in *.
  - eapply Hw; eauto.
  - destruct Ha as (A & B & C). auto.
Qed.

Lemma ordered_weaken l : forall lo hi lo' hi',
  lo' <= lo -> hi <= hi' -> ordered lo l hi -> ordered lo' l hi'.
Proof.
  induction l as [|x l IH]; intros lo hi lo' hi' H1 H2 H; cbn in *; [lia|].
  destruct H as (A & B & C). repeat split; auto; [lia|]. eapply IH; [| |exact C]; lia.
Qed.

Lemma ordered_le l : forall lo hi, ordered lo l hi -> lo <= hi.
Proof. induction l as [|x l IH]; intros lo hi H; cbn in *; auto. destruct H as (A & B & C). apply IH in C. lia. Qed.

Lemma last_cons {A} (l : list A) : forall x d, last (x :: l) d = last l x.
Proof.
  induction l as [|y l IH]; intros x d; auto.
  change (last (x :: y :: l) d) with (last (y :: l) d). rewrite IH. now rewrite IH.
Qed.

Lemma ordered_last l : forall s y hi,
  r_start (rng s) < r_end (rng s) -> ordered (r_end (rng s)) l hi -> In y (s :: l) ->
  r_start (rng s) <= r_start (rng y) /\ r_end (rng y) <= r_end (rng (last l s)) /\
  r_end (rng s) <= r_end (rng (last l s)).
Proof.
  induction l as [|x l IH]; intros s y hi N O Hy.
  - destruct Hy as [<-|[]]. cbn. lia.
  - destruct O as (O1 & O2 & O3). rewrite last_cons.
    destruct Hy as [<-|Hy].
    + destruct (IH x x hi O2 O3) as (A & B & C); [now left|]. lia.
    + destruct (IH x y hi O2 O3 Hy) as (A & B & C). lia.
Qed.

Lemma block_range_covers b lo hi y p :
  ordered lo (b_stmts b) hi -> In y (b_stmts b) -> at_pos p (rng y) ->
  exists r, block_range b = Some r /\ at_pos p r.
Proof.
  intros O Hy Hp. unfold block_range. destruct (b_stmts b) as [|s l]; [destruct Hy|].
  eexists. split; [reflexivity|]. destruct O as (O1 & O2 & O3).
  destruct (ordered_last l s y hi O2 O3 Hy) as (A & B & C).
  unfold at_pos, cover in *. cbn [r_start r_end]. lia.
Qed.

Scheme sequence_mut := Minimality for sequence Sort Prop
  with inner_mut := Minimality for inner Sort Prop.
Combined Scheme sequence_inner_mut from sequence_mut, inner_mut.

(** ** Names *)
Lemma alc_cons c rest : after_last_colons (c :: rest) =
  match after_last_colons rest with
  | Some x => Some x
  | None => match rest with
            | d :: rest' => if (c =? 58)%N && (d =? 58)%N then Some rest' else None
            | [] => None
            end
  end.
Proof. reflexivity. Qed.

Lemma after_last_app x : (forall pre post, x <> pre ++ colons ++ post) -> (forall f', x <> 58%N :: f') ->
  forall ns, after_last_colons (ns ++ colons ++ x) = Some x.
Proof.
  intros H1 H2. induction ns as [|c ns IH].
  - cbn [app]. assert (N : after_last_colons x = None).
    { destruct (after_last_colons x) as [y|] eqn:E; auto.
      destruct (after_last_some _ _ E) as ((ns & E') & _). now apply H1 in E'. }
    assert (N2 : after_last_colons (58%N :: x) = None).
    { cbn. rewrite N. destruct x as [|d x]; auto.
      destruct (d =? 58)%N eqn:E; auto. apply N.eqb_eq in E. subst. now destruct (H2 x). }
    change (colons ++ x) with (58%N :: 58%N :: x). rewrite alc_cons, N2. reflexivity.
  - cbn [app after_last_colons]. now rewrite IH.
Qed.

Lemma fun_name_of callee f :
  unqualified callee f -> (forall f', f <> 58%N :: f') -> fun_name callee = f.
Proof.
  intros (H1 & H2) H3. unfold fun_name. destruct H2 as [->|(ns & ->)].
  - destruct (after_last_colons f) as [y|] eqn:E; auto.
    destruct (after_last_some _ _ E) as ((ns & E') & _). now apply H1 in E'.
  - change (lit "::") with colons. now rewrite (after_last_app f H1 H3 ns).
Qed.

Section Complete.
Variable stopping : list text.

Definition flag (ls : loops) : bool := match ls with [] => false | _ => true end.

Definition targets (ls : loops) (j : nat) : Prop :=
  exists h a, In (h, a) ls /\ (j = h \/ j = a).

(** A statement after a diverging one in the same list. *)
Definition after_div (b : bool) (l : list stmt) (n : stmt) : Prop :=
  exists pre d post, l = pre ++ d :: post /\ diverges stopping b d /\ In n post.
Definition dinner (b : bool) (s n : stmt) : Prop :=
  exists b' l, inner b s b' l /\ after_div b' l n.
Definition dseq (b : bool) (s n : stmt) : Prop :=
  exists b' l, sequence b s b' l /\ after_div b' l n.
Definition dlist (b : bool) (l : list stmt) (n : stmt) : Prop :=
  after_div b l n \/ exists s, In s l /\ dinner b s n.

Definition good (g : graph) (cur : nat) (ls : loops) : Prop :=
  cur < length g /\ cur <> exit_ /\ sym g /\ 2 <= length g /\
  (forall j, targets ls j -> j < length g /\ ~ cold g j).

Definition covered (g' : graph) (ok : nat -> Prop) (n : stmt) : Prop :=
  exists i y, ok i /\ i <> entry /\ cold g' i /\ In y (b_stmts (blk g' i)) /\
    at_pos (r_start (rng n)) (rng y).

Record cpost (ls : loops) (g : graph) (cur : nat) (lo hi : nat) (g' : graph) (out : nat)
    (doomed : stmt -> Prop) : Prop := {
  c_ext : ext (fun i => i = cur) g g';
  c_out : out < length g' /\ (out = cur \/ length g <= out);
  c_sym : sym g';
  c_edges : only_new (fun j => length g <= j \/ targets ls j) g g';
  c_cur : exists added, b_stmts (blk g' cur) = b_stmts (blk g cur) ++ added /\ ordered lo added hi;
  c_new : forall i, length g <= i < length g' -> ordered lo (b_stmts (blk g' i)) hi;
  c_doom : forall n, doomed n -> covered g' (fun i => i = cur \/ length g <= i < length g') n
}.

Definition csingle (s : stmt) : Prop :=
  forall g cur ls, good g cur ls -> well_ranged s ->
    forall g' out, build stopping false s g cur ls = (g', out) ->
    cpost ls g cur (r_start (rng s)) (r_end (rng s)) g' out
      (fun n => dinner (flag ls) s n \/ (has_incoming g cur = false /\ n = s)) /\
    fresh_out g cur g' out /\
    (diverges stopping (flag ls) s -> has_incoming g cur = true -> terminated (b_term (blk g' out)) = true) /\
    (has_incoming g cur = false -> out = cur /\ has_incoming g' cur = false).

Definition cbodied (s : stmt) : Prop :=
  forall g cur ls, good g cur ls -> well_ranged s ->
    forall g' out, build stopping true s g cur ls = (g', out) ->
    cpost ls g cur (r_start (rng s)) (r_end (rng s)) g' out (dseq (flag ls) s).

Lemma inner_desc_mut :
  (forall b s b' l, sequence b s b' l -> forall x, In x l -> descendant s x) /\
  (forall b s b' l, inner b s b' l -> forall x, In x l -> descendant s x).
Proof.
  apply sequence_inner_mut; intros; eauto using desc_child, desc_self; eapply desc_child; eauto; cbn; auto.
  - destruct e; now left.
Qed.

Lemma after_div_In b l n : after_div b l n -> In n l.
Proof. intros (pre & d & post & -> & _ & H). apply in_or_app. right. now right. Qed.

Lemma dinner_pos b s n : well_ranged s -> dinner b s n -> at_pos (r_start (rng n)) (rng s).
Proof.
  intros W (b' & l & Hi & Ha). apply after_div_In in Ha.
  pose proof (proj2 inner_desc_mut _ _ _ _ Hi _ Ha) as D. pose proof (wr_desc _ _ D W). unfold at_pos. lia.
Qed.

Lemma dseq_pos b s n : well_ranged s -> dseq b s n -> at_pos (r_start (rng n)) (rng s).
Proof.
  intros W (b' & l & Hi & Ha). apply after_div_In in Ha.
  pose proof (proj1 inner_desc_mut _ _ _ _ Hi _ Ha) as D. pose proof (wr_desc _ _ D W). unfold at_pos. lia.
Qed.

Lemma self_pos s : well_ranged s -> at_pos (r_start (rng s)) (rng s).
Proof. intros W. pose proof (wr_nonempty _ W). unfold at_pos. lia. Qed.

Lemma covered_weaken g (ok ok' : nat -> Prop) n :
  (forall i, ok i -> ok' i) -> covered g ok n -> covered g ok' n.
Proof. intros H (i & y & A & B). exists i, y. split; auto. Qed.

Lemma has_incoming_same g g' i :
  (forall x, b_succ (blk g' x) = b_succ (blk g x)) -> b_pred (blk g' i) = b_pred (blk g i) ->
  has_incoming g' i = has_incoming g i.
Proof.
  intros H1 H2. unfold has_incoming. rewrite H2. f_equal.
  clear H2. generalize (b_pred (blk g i)) as l. induction l as [|p l IH]; cbn [existsb]; auto. now rewrite H1, IH.
Qed.

Lemma add_statement_incoming g i s j : has_incoming (add_statement g i s) j = has_incoming g j.
Proof.
  apply has_incoming_same.
  - intros x. now apply succ_upd_same.
  - unfold add_statement.
    match goal with |- context [upd g i ?f] => destruct (upd_cases g i f j) as [(-> & _ & ->)| ->] end; auto.
Qed.

Lemma one_ordered s : well_ranged s -> ordered (r_start (rng s)) [s] (r_end (rng s)).
Proof. intros W. pose proof (wr_nonempty _ W). cbn. lia. Qed.

Lemma none_ordered s : well_ranged s -> ordered (r_start (rng s)) [] (r_end (rng s)).
Proof. intros W. pose proof (wr_nonempty _ W). cbn. lia. Qed.

(** A statement put as it is into the current block. *)
Lemma c_added g cur ls s (D : stmt -> Prop) :
  good g cur ls -> well_ranged s ->
  (forall n, D n -> has_incoming g cur = false /\ at_pos (r_start (rng n)) (rng s)) ->
  cpost ls g cur (r_start (rng s)) (r_end (rng s)) (add_statement g cur s) cur D.
Proof.
  intros (Hc & Hne & S & L2 & HT) W HD. split.
  - now apply ext_add_statement.
  - rewrite add_statement_length. split; auto.
  - now apply sym_add_statement.
  - now apply only_new_upd.
  - exists [s]. split; [now apply add_statement_stmts|now apply one_ordered].
  - intros i. rewrite add_statement_length. lia.
  - intros n Hn. destruct (HD n Hn) as (Hi & Hp). exists cur, s.
    destruct (not_incoming_cold _ _ (sym_add_statement g cur s S)
                (eq_trans (add_statement_incoming g cur s cur) Hi)) as (A & B).
    repeat split; auto; try apply Hp.
    rewrite add_statement_stmts by auto. apply in_or_app. right. now left.
Qed.

(** Nothing put into the current block, which stays current. *)
Lemma c_jump g cur ls s g' (D : stmt -> Prop) :
  good g cur ls -> well_ranged s -> (forall n, ~ D n) ->
  ext (fun i => i = cur) g g' -> length g' = length g -> sym g' ->
  only_new (targets ls) g g' -> b_stmts (blk g' cur) = b_stmts (blk g cur) ->
  cpost ls g cur (r_start (rng s)) (r_end (rng s)) g' cur D.
Proof.
  intros (Hc & Hne & S & L2 & HT) W HD X L Sy ON St. split; auto.
  - split; [lia|now left].
  - eapply only_new_weaken; [|exact ON]. auto.
  - exists []. split; [now rewrite app_nil_r|now apply none_ordered].
  - intros i. lia.
  - intros n Hn. now apply HD in Hn.
Qed.

(** ** Sequences *)
Lemma cbuild_list ls l : forall g cur lo hi,
  Forall csingle l -> Forall well_ranged l ->
  ordered lo l hi -> good g cur ls ->
  forall g' out, build_list (fun s g c => build stopping false s g c ls) l g cur = (g', out) ->
  cpost ls g cur lo hi g' out
    (fun n => dlist (flag ls) l n \/ (has_incoming g cur = false /\ In n l)).
Proof.
  induction l as [|s l IH]; intros g cur lo hi Hs Hw Ho G g' out E.
  - cbn in E. injection E as <- <-. destruct G as (Hc & Hne & S & L2 & HT). split; auto.
    + apply ext_refl.
    + apply only_new_refl.
    + exists []. split; [now rewrite app_nil_r|]. exact Ho.
    + intros i Hi. lia.
    + intros n [[Hn|(x & [] & _)]|(_ & [])]. now apply after_div_In in Hn.
  - inversion Hs as [|? ? Hs1 Hs2]; subst. inversion Hw as [|? ? Hw1 Hw2]; subst.
    pose proof Ho as Ho'. destruct Ho' as (O1 & O2 & O3).
    cbn [build_list] in E.
    destruct (build stopping false s g cur ls) as [g1 c1] eqn:E1.
    destruct (Hs1 g cur ls G Hw1 g1 c1 E1) as (P1 & F1 & T1 & N1).
    destruct G as (Hc & Hne & S & L2 & HT).
    destruct (c_out _ _ _ _ _ _ _ _ P1) as (Q1 & Q2).
    pose proof (c_ext _ _ _ _ _ _ _ _ P1) as X1. pose proof (ext_len _ _ _ X1) as XL1.
    pose proof (c_sym _ _ _ _ _ _ _ _ P1) as S1.
    assert (Hse : r_end (rng s) <= hi) by now apply ordered_le in O3.
    assert (HT1 : forall j, targets ls j -> j < length g1 /\ ~ cold g1 j).
    { intros j Hj. destruct (HT j Hj) as (A & B). split; [lia|]. intros C. apply B.
      intros x Hx. apply (C x). now apply (ext_succ _ _ _ X1). }
    assert (Hc1 : c1 <> exit_) by (unfold exit_ in *; lia).
    (* what doomed statements of [s] become later *)
    assert (Keep : forall g2, ext (fun i => i = c1) g1 g2 ->
              only_new (fun j => length g1 <= j \/ targets ls j) g1 g2 ->
              (exists added, b_stmts (blk g2 c1) = b_stmts (blk g1 c1) ++ added) ->
              forall n, (dinner (flag ls) s n \/ (has_incoming g cur = false /\ n = s)) ->
              covered g2 (fun i => i = cur \/ length g <= i < length g2) n).
    { intros g2 X2 ON2 (ad & A2) n Hn.
      destruct (c_doom _ _ _ _ _ _ _ _ P1 n Hn) as (i & y & Hi & Ne & Co & Hy & Hp).
      pose proof (ext_len _ _ _ X2) as XL2.
      exists i, y. split; [lia|]. split; auto. split.
      - eapply cold_only_new; [exact ON2| |exact Co].
        intros [H|H]; [lia|]. now apply (HT1 i H).
      - split; auto. destruct (Nat.eq_dec i c1) as [->|Hic].
        + rewrite A2. apply in_or_app. now left.
        + destruct (ext_keep _ _ _ X2 i) as (-> & _); auto. lia. }
    destruct l as [|s2 l].
    { injection E as <- <-. destruct P1 as [A B C D (ad & F & F') H I]. split; auto.
      - exists ad. split; auto. eapply ordered_weaken; [| |exact F']; lia.
      - intros i Hi. eapply ordered_weaken; [| |exact (H i Hi)]; lia.
      - intros n Hn. apply I. destruct Hn as [[(pre & d & post & En & Hd & Hn)|(x & [<-|[]] & Hx)]|(Hi & [<-|[]])]; auto.
        exfalso. destruct pre as [|? [|? ?]]; [injection En as <- <-; destruct Hn|discriminate..]. }
    (* where a doomed statement of the list comes from *)
    assert (Split : forall n, dlist (flag ls) (s :: s2 :: l) n \/ (has_incoming g cur = false /\ In n (s :: s2 :: l)) ->
              (dinner (flag ls) s n \/ (has_incoming g cur = false /\ n = s)) \/
              (dlist (flag ls) (s2 :: l) n \/
               ((has_incoming g cur = false \/ diverges stopping (flag ls) s) /\ In n (s2 :: l)))).
    { intros n [[(pre & d & post & En & Hd & Hn)|(x & [<-|Hx] & Hx')]|(Hi & [<-|Hn])]; auto.
      - destruct pre as [|p pre].
        + cbn in En. injection En as <- <-. auto.
        + cbn in En. injection En as <- En. right. left. left. exists pre, d, post. auto.
      - right. left. right. exists x. auto. }
    destruct (terminated (b_term (blk g1 c1))) eqn:Et.
    + (* everything else goes to a block without edges *)
      set (dead := length g1) in *.
      set (ga := upd (new_blocks g1 1) dead (push_pred c1)) in *.
      assert (La : length ga = Datatypes.S dead).
      { unfold ga. rewrite upd_length, new_blocks_length. unfold dead. lia. }
      destruct (add_all_facts (s2 :: l) ga dead) as (X3 & L3 & St3 & _ & _); [lia|].
      apply pair_equal_spec in E. destruct E as [<- <-].
      set (g2 := add_all ga dead (s2 :: l)) in *.
      assert (Xa : ext (fun i => i = dead) g1 ga).
      { unfold ga. eapply ext_trans; [apply ext_new|apply ext_push_pred]. }
      assert (X : ext (fun i => i = dead) g1 g2) by (eapply ext_trans; eauto).
      assert (Sta : b_stmts (blk ga dead) = []).
      { unfold ga. rewrite blk_upd_same by (rewrite new_blocks_length; unfold dead; lia).
        cbn. rewrite blk_new_blocks. now rewrite blk_out by (unfold dead; lia). }
      rewrite Sta in St3. cbn [app] in St3.
      assert (Hkeep : forall i, i < dead -> b_stmts (blk g2 i) = b_stmts (blk g1 i)).
      { intros i Hi. destruct (ext_keep _ _ _ X i) as (K1 & _ & _); auto. lia. }
      assert (ON : only_new (fun _ => False) g1 g2).
      { unfold g2. eapply only_new_trans; [|apply only_new_add_all].
        unfold ga. eapply only_new_trans; [apply only_new_blocks|]. now apply only_new_upd. }
      assert (Sy : sym g2).
      { unfold g2. apply sym_add_all. unfold ga. apply sym_push_pred. now apply sym_new. }
      assert (Cd : cold g2 dead).
      { intros x Hx. destruct (ON x dead Hx) as [H|[]]. apply S1 in H. unfold dead in H. lia. }
      split; auto.
      * eapply ext_trans2; [exact X1|exact X|]. unfold dead. cbn. intros. lia.
      * rewrite L3, La. split; [lia|right]. unfold dead. lia.
      * eapply only_new_trans; [exact (c_edges _ _ _ _ _ _ _ _ P1)|].
        eapply only_new_weaken; [|exact ON]. intros j [].
      * destruct (c_cur _ _ _ _ _ _ _ _ P1) as (ad & A1 & A2). exists ad. split.
        -- rewrite (Hkeep cur); auto. unfold dead. lia.
        -- eapply ordered_weaken; [| |exact A2]; lia.
      * intros i Hi. rewrite L3, La in Hi. destruct (Nat.eq_dec i dead) as [->|Ne].
        -- rewrite St3. eapply ordered_weaken; [| |exact O3]; lia.
        -- rewrite (Hkeep i) by lia.
           eapply ordered_weaken; [| |apply (c_new _ _ _ _ _ _ _ _ P1 i)]; unfold dead in *; lia.
      * intros n Hn. destruct (Split n Hn) as [Hn'|Hn'].
        -- destruct (c_doom _ _ _ _ _ _ _ _ P1 n Hn') as (i & y & Hi & Ne & Co & Hy & Hp).
           exists i, y. split; [rewrite L3, La; unfold dead; lia|]. split; auto. split.
           ++ eapply cold_only_new; [exact ON|tauto|exact Co].
           ++ split; auto. rewrite (Hkeep i); auto. unfold dead. lia.
        -- (* n lies in one of the remaining statements *)
           assert (exists y, In y (s2 :: l) /\ at_pos (r_start (rng n)) (rng y)) as (y & Hy & Hp).
           { rewrite Forall_forall in Hw2. destruct Hn' as [[Hn'|(x & Hx & Hx')]|(_ & Hn')].
             - apply after_div_In in Hn'. exists n. split; auto. apply self_pos. now apply Hw2.
             - exists x. split; auto. eapply dinner_pos; eauto.
             - exists n. split; auto. apply self_pos. now apply Hw2. }
           exists dead, y. split; [rewrite L3, La; unfold dead; lia|].
           split; [unfold dead, entry; lia|]. split; auto. split; auto. now rewrite St3.
    + assert (G1 : good g1 c1 ls) by (unfold good; intuition lia).
      pose proof (IH g1 c1 (r_end (rng s)) hi Hs2 Hw2 O3 G1 g' out E) as P2.
      pose proof (c_ext _ _ _ _ _ _ _ _ P2) as X2. pose proof (ext_len _ _ _ X2) as XL2.
      destruct (c_out _ _ _ _ _ _ _ _ P2) as (Q3 & Q4).
      destruct (c_cur _ _ _ _ _ _ _ _ P2) as (ad2 & B1 & B2).
      assert (Hkeep : forall i, i < length g1 -> i <> c1 -> b_stmts (blk g' i) = b_stmts (blk g1 i)).
      { intros i Hi Ne. destruct (ext_keep _ _ _ X2 i) as (K1 & _); auto. }
      split.
      * eapply ext_trans2; [exact X1|exact X2|]. cbn. intros. lia.
      * lia.
      * apply (c_sym _ _ _ _ _ _ _ _ P2).
      * eapply only_new_trans; [exact (c_edges _ _ _ _ _ _ _ _ P1)|].
        eapply only_new_weaken; [|exact (c_edges _ _ _ _ _ _ _ _ P2)]. cbn. intros j [H|H]; auto. left; lia.
      * destruct (c_cur _ _ _ _ _ _ _ _ P1) as (ad & A1 & A2).
        destruct (Nat.eq_dec c1 cur) as [->|Ne].
        -- exists (ad ++ ad2). split.
           ++ rewrite B1, A1. now rewrite app_assoc.
           ++ eapply ordered_app; [|exact B2]. eapply ordered_weaken; [| |exact A2]; lia.
        -- exists ad. split.
           ++ rewrite (Hkeep cur); auto. lia.
           ++ eapply ordered_weaken; [| |exact A2]; lia.
      * intros i Hi. destruct (Nat.lt_ge_cases i (length g1)) as [Hi1|Hi1].
        -- destruct (Nat.eq_dec i c1) as [->|Ne].
           ++ destruct F1 as [F1|F1]; [lia|]. rewrite B1, F1. cbn [app].
              eapply ordered_weaken; [| |exact B2]; lia.
           ++ rewrite (Hkeep i); auto. eapply ordered_weaken; [| |apply (c_new _ _ _ _ _ _ _ _ P1 i)]; lia.
        -- eapply ordered_weaken; [| |apply (c_new _ _ _ _ _ _ _ _ P2 i)]; lia.
      * intros n Hn. destruct (Split n Hn) as [Hn'|Hn'].
        -- apply (Keep g' X2 (c_edges _ _ _ _ _ _ _ _ P2)); [now exists ad2|exact Hn'].
        -- assert (D : dlist (flag ls) (s2 :: l) n \/ (has_incoming g1 c1 = false /\ In n (s2 :: l))).
           { destruct Hn' as [Hn'|([Hn'|Hn'] & Hin)]; auto.
             - right. split; auto. destruct (N1 Hn') as (-> & ?). auto.
             - destruct (has_incoming g cur) eqn:Hi.
               + discriminate (T1 Hn' eq_refl).
               + right. split; auto. destruct (N1 eq_refl) as (-> & ?). auto. }
           eapply covered_weaken; [|exact (c_doom _ _ _ _ _ _ _ _ P2 n D)].
           cbn. intros. lia.
Qed.

(** ** Branches *)
Record cbranch (ls : loops) (s : stmt) (g : graph) (b after : nat) (g' : graph) : Prop := {
  cb_ext : ext (fun i => i = b) g g';
  cb_sym : sym g';
  cb_edges : only_new (fun j => length g <= j \/ targets ls j \/ j = after) g g';
  cb_b : ordered (r_start (rng s)) (b_stmts (blk g' b)) (r_end (rng s));
  cb_new : forall i, length g <= i < length g' ->
    ordered (r_start (rng s)) (b_stmts (blk g' i)) (r_end (rng s));
  cb_doom : forall n, dseq (flag ls) s n -> covered g' (fun i => i = b \/ length g <= i < length g') n
}.

Lemma cbranch_live ls s g b after g1 e1 :
  cbodied s -> good g b ls -> after < length g -> b <> after -> b_stmts (blk g b) = [] ->
  well_ranged s -> build stopping true s g b ls = (g1, e1) ->
  cbranch ls s g b after (join_branch g1 e1 after).
Proof.
  intros Hb G La Ne S0 W E.
  pose proof (Hb g b ls G W g1 e1 E) as P. destruct G as (Hc & Hne & Sy & L2 & HT).
  destruct (c_out _ _ _ _ _ _ _ _ P) as (Q1 & Q2).
  pose proof (c_ext _ _ _ _ _ _ _ _ P) as X. pose proof (ext_len _ _ _ X) as XL.
  assert (Xj : ext (fun i => i = e1) g1 (join_branch g1 e1 after)) by now apply join_ext.
  assert (ONj : only_new (fun j => j = after) g1 (join_branch g1 e1 after)).
  { unfold join_branch. destruct (_ && _); [|apply only_new_refl].
    eapply only_new_trans; [|now apply only_new_edge]. now apply only_new_upd. }
  split.
  - eapply ext_trans2; [exact X|exact Xj|]. cbn. intros. lia.
  - unfold join_branch. destruct (_ && _); [|exact (c_sym _ _ _ _ _ _ _ _ P)].
    apply sym_edge; [apply sym_set_term; exact (c_sym _ _ _ _ _ _ _ _ P)|rewrite upd_length; lia].
  - eapply only_new_trans.
    + eapply only_new_weaken; [|exact (c_edges _ _ _ _ _ _ _ _ P)]. cbn. tauto.
    + eapply only_new_weaken; [|exact ONj]. cbn. tauto.
  - rewrite join_stmts. destruct (c_cur _ _ _ _ _ _ _ _ P) as (ad & -> & A). rewrite S0. exact A.
  - intros i Hi. rewrite join_length in Hi. rewrite join_stmts. now apply (c_new _ _ _ _ _ _ _ _ P).
  - intros n Hn. destruct (c_doom _ _ _ _ _ _ _ _ P n Hn) as (i & y & Hi & Nn & Co & Hy & Hp).
    exists i, y. rewrite join_length, join_stmts. split; auto. split; auto. split; auto.
    eapply cold_only_new; [exact ONj| |exact Co]. cbn. lia.
Qed.

Lemma cbranch_dead ls s g b after :
  b < length g -> sym g -> b <> entry -> cold g b -> b_stmts (blk g b) = [] -> well_ranged s ->
  cbranch ls s g b after (upd g b (push_stmt s)).
Proof.
  intros Lb Sy Ne Co S0 W.
  assert (St : b_stmts (blk (upd g b (push_stmt s)) b) = [s]).
  { rewrite blk_upd_same by auto. cbn. now rewrite S0. }
  split.
  - now apply ext_push_stmt.
  - now apply sym_push_stmt.
  - now apply only_new_upd.
  - rewrite St. now apply one_ordered.
  - intros i. rewrite upd_length. lia.
  - intros n Hn. exists b, s. rewrite St. split; auto. split; auto. split.
    + intros x Hx. rewrite succ_upd_same in Hx by auto. now apply (Co x).
    + split; [now left|]. eapply dseq_pos; eauto.
Qed.

Lemma branch_edges_complete g c cur ls :
  good g cur ls ->
  let th := length g in let el := Datatypes.S th in
  let g0 := branch_edges (new_blocks g 3) c cur th el in
  sym g0 /\ only_new (fun j => length g <= j) g g0 /\
  cold g0 (Datatypes.S el) /\
  (is_false c = true -> cold g0 th) /\ (is_true c = true -> cold g0 el).
Proof.
  intros (Hc & Hne & Sy & L2 & HT) th el g0.
  assert (New : forall x j, In j (b_succ (blk g x)) -> j < length g) by (intros x j H; now apply Sy in H).
  set (g1 := upd (new_blocks g 3) cur (set_term TBranch)).
  assert (L1 : length g1 = length g + 3).
  { unfold g1. now rewrite upd_length, new_blocks_length. }
  assert (S1 : sym g1) by now apply sym_set_term, sym_new.
  assert (E1 : forall x, b_succ (blk g1 x) = b_succ (blk g x)).
  { intros x. unfold g1. rewrite succ_upd_same by auto. now rewrite blk_new_blocks. }
  assert (Edges : forall x j, In j (b_succ (blk g0 x)) ->
            In j (b_succ (blk g x)) \/ (j = th /\ is_false c = false) \/ (j = el /\ is_true c = false)).
  { intros x j H. unfold g0, branch_edges in H. fold g1 in H. destruct c as [[|]|]; cbn [is_false is_true].
    - rewrite succ_upd_same in H by auto. apply edge_inv in H. rewrite E1 in H. intuition.
    - rewrite succ_upd_same in H by auto. apply edge_inv in H. rewrite E1 in H. intuition.
    - apply edge_inv in H. destruct H as [H|H]; [|intuition]. apply edge_inv in H. rewrite E1 in H. intuition. }
  split; [|split; [|split; [|split]]].
  - unfold g0, branch_edges. fold g1. destruct c as [[|]|].
    + apply sym_push_pred, sym_edge; auto. unfold th. lia.
    + apply sym_push_pred, sym_edge; auto. unfold el, th. lia.
    + apply sym_edge; [apply sym_edge; auto|rewrite add_edge_length]; unfold el, th; lia.
  - intros x j H. destruct (Edges x j H) as [H'|[(-> & _)|(-> & _)]]; auto; right; unfold el, th; lia.
  - intros x H. destruct (Edges x _ H) as [H'|[(H' & _)|(H' & _)]]; try (unfold el, th in H'; lia).
    apply New in H'. unfold el, th in H'. lia.
  - intros Hf x H. destruct (Edges x _ H) as [H'|[(H' & H2)|(H' & _)]]; try congruence; try (unfold el, th in H'; lia).
    apply New in H'. unfold th in H'. lia.
  - intros Hf x H. destruct (Edges x _ H) as [H'|[(H' & H2)|(H' & H2)]]; try congruence; try (unfold el, th in H'; lia).
    apply New in H'. unfold el, th in H'. lia.
Qed.

Definition celse (ls : loops) (e : option stmt) (g : graph) (b after : nat) (g' : graph) : Prop :=
  match e with
  | Some s => cbranch ls s g b after g'
  | None => ext (fun i => i = b) g g' /\ sym g' /\ length g' = length g /\
            only_new (fun j => j = after) g g' /\ b_stmts (blk g' b) = []
  end.

Lemma cif ls r c t e g cur g0 g1 g2 :
  well_ranged (If r c t e) -> good g cur ls -> rinv new_graph ->
  let th := length g in let el := Datatypes.S th in let after := Datatypes.S el in
  g0 = branch_edges (new_blocks g 3) (const_cond c) cur th el ->
  length g0 = length g + 3 -> ext (fun i => i = cur) g g0 ->
  (forall i, length g <= i -> b_stmts (blk g0 i) = []) ->
  b_stmts (blk g0 cur) = b_stmts (blk g cur) ->
  cbranch ls t g0 th after g1 ->
  celse ls e g1 el after g2 ->
  let g3 := mark_after g2 after cur in
  cpost ls g cur (r_start r) (r_end r) g3 after (dinner (flag ls) (If r c t e)) /\ fresh_out g cur g3 after.
Proof.
  intros W G _ th el after Eg0 L0 X0 Fr0 S0 B1 B2 g3.
  destruct (branch_edges_complete g (const_cond c) cur ls G) as (Sy0 & ON0 & _ & _ & _).
  fold th el in Sy0, ON0. rewrite <- Eg0 in Sy0, ON0. clear Eg0.
  destruct G as (Hc & Hne & Sy & L2 & HT).
  destruct (mark_after_facts g2 after cur) as (X3 & L3 & S3 & _ & _ & _). fold g3 in X3, L3, S3.
  assert (Su3 : forall x, b_succ (blk g3 x) = b_succ (blk g2 x)).
  { intros x. unfold g3, mark_after. destruct (has_incoming g2 after); auto. now apply succ_upd_same. }
  pose proof (cb_ext _ _ _ _ _ _ B1) as X1. pose proof (ext_len _ _ _ X1) as XL1.
  assert (X2 : ext (fun i => i = el) g1 g2).
  { destruct e; [apply (cb_ext _ _ _ _ _ _ B2)|apply B2]. }
  pose proof (ext_len _ _ _ X2) as XL2.
  assert (Sy2 : sym g2).
  { destruct e; [apply (cb_sym _ _ _ _ _ _ B2)|apply B2]. }
  assert (ON2 : only_new (fun j => length g1 <= j \/ targets ls j \/ j = after) g1 g2).
  { destruct e; [apply (cb_edges _ _ _ _ _ _ B2)|].
    destruct B2 as (_ & _ & _ & B2 & _). eapply only_new_weaken; [|exact B2]. cbn. tauto. }
  assert (ON3 : only_new (fun j => length g1 <= j \/ targets ls j \/ j = after) g1 g3).
  { intros x j H. rewrite Su3 in H. now apply ON2. }
  assert (Sy3 : sym g3).
  { unfold g3, mark_after. destruct (has_incoming g2 after); auto. now apply sym_push_pred. }
  assert (Wt : well_ranged t) by (apply (wr_child _ t W); destruct e; now left).
  assert (Ot : Datatypes.S (r_start r) <= r_start (rng t) /\ r_end (rng t) <= r_end r).
  { destruct (W _ (desc_self _)) as (_ & O). apply (ordered_bounds _ _ _ _ O). destruct e; now left. }
  pose proof (wr_nonempty _ Wt) as Nt.
  assert (Oe : forall x, e = Some x -> well_ranged x /\ r_end (rng t) <= r_start (rng x) /\ r_end (rng x) <= r_end r).
  { intros x ->. split; [apply (wr_child _ x W); right; now left|].
    destruct (W _ (desc_self _)) as (_ & O). cbn in O. lia. }
  assert (K01 : forall i, i < length g + 3 -> i <> th -> b_stmts (blk g1 i) = b_stmts (blk g0 i)).
  { intros i Hi Ne. apply (ext_keep _ _ _ X1); auto. lia. }
  assert (K13 : forall i, i < length g1 -> i <> el -> b_stmts (blk g3 i) = b_stmts (blk g1 i)).
  { intros i Hi Ne. rewrite S3. apply (ext_keep _ _ _ X2); auto. }
  assert (X13 : ext (fun i => i = el) g1 g3).
  { eapply ext_trans2; [exact X2|exact X3|]. unfold none; tauto. }
  assert (X03 : ext (fun i => i = th \/ i = el) g0 g3).
  { eapply ext_trans2; [eapply ext_weaken; [|exact X1]|exact X13|]; cbn; auto. }
  assert (HT1 : forall j, targets ls j -> ~ cold g1 j).
  { intros j Hj C. apply (proj2 (HT j Hj)). intros x Hx. apply (C x).
    apply (ext_succ _ _ _ X1), (ext_succ _ _ _ X0). exact Hx. }
  assert (Hafter : b_stmts (blk g3 after) = []).
  { rewrite K13 by (unfold after, el, th; lia). rewrite K01 by (unfold after, el, th; lia).
    apply Fr0. unfold after, el, th. lia. }
  split.
  - split; auto.
    + eapply ext_trans2; [exact X0|exact X03|]. unfold th, el. cbn. intros. lia.
    + rewrite L3. unfold after, el, th. split; [lia|right; lia].
    + eapply only_new_trans; [eapply only_new_weaken; [|exact ON0]; cbn; auto|].
      eapply only_new_trans.
      * eapply only_new_weaken; [|exact (cb_edges _ _ _ _ _ _ B1)]. unfold after, el, th. cbn. intros j [H|[H|H]]; auto; left; lia.
      * eapply only_new_weaken; [|exact ON3]. unfold after, el, th. cbn. intros j [H|[H|H]]; auto; left; lia.
    + exists []. split; [|cbn; lia]. rewrite app_nil_r.
      rewrite K13 by (unfold el, th; lia). rewrite K01 by (unfold th; lia). exact S0.
    + intros i Hi.
      destruct (Nat.eq_dec i th) as [->|N1].
      { rewrite K13 by (unfold th, el; lia). eapply ordered_weaken; [| |exact (cb_b _ _ _ _ _ _ B1)]; lia. }
      destruct (Nat.eq_dec i el) as [->|N2].
      { rewrite S3. destruct e as [x|].
        - destruct (Oe x eq_refl) as (? & ? & ?). eapply ordered_weaken; [| |exact (cb_b _ _ _ _ _ _ B2)]; lia.
        - destruct B2 as (_ & _ & _ & _ & ->). cbn. lia. }
      destruct (Nat.eq_dec i after) as [->|N3]; [rewrite Hafter; cbn; lia|].
      destruct (Nat.lt_ge_cases i (length g1)) as [H|H].
      * rewrite K13; auto.
        eapply ordered_weaken; [| |apply (cb_new _ _ _ _ _ _ B1 i)]; unfold after, el, th in *; lia.
      * rewrite S3. destruct e as [x|].
        -- destruct (Oe x eq_refl) as (? & ? & ?).
           eapply ordered_weaken; [| |apply (cb_new _ _ _ _ _ _ B2 i)]; lia.
        -- destruct B2 as (_ & _ & BL & _). lia.
    + intros n (b' & l & Hi & Ha). inversion Hi; subst.
      * destruct (cb_doom _ _ _ _ _ _ B1 n) as (i & y & Hi' & Nn & Co & Hy & Hp); [now exists b', l|].
        exists i, y. split; [unfold th in *; lia|]. split; auto. split.
        -- eapply cold_only_new; [exact ON3| |exact Co]. cbn. intros [H|[H|H]].
           ++ unfold th in *. lia.
           ++ now apply (HT1 i H).
           ++ unfold after, el, th in *. lia.
        -- split; auto. rewrite K13; auto; unfold el, th in *; lia.
      * destruct (cb_doom _ _ _ _ _ _ B2 n) as (i & y & Hi' & Nn & Co & Hy & Hp); [now exists b', l|].
        exists i, y. split; [unfold el, th in *; lia|]. split; auto. split.
        -- intros x Hx. rewrite Su3 in Hx. now apply (Co x).
        -- split; auto. now rewrite S3.
  - right. exact Hafter.
Qed.

(** ** Loops *)
Lemma cloop ls ls' s b g cur g0 lbody after header g1 e1 :
  good g cur ls -> well_ranged s -> children s = [b] ->
  (forall f n, dinner f s n -> dseq true b n) ->
  cbodied b ->
  ext (fun i => i = cur) g g0 -> sym g0 -> only_new (fun j => length g <= j) g g0 ->
  length g <= lbody < length g0 -> length g <= after < length g0 ->
  length g <= header < length g0 -> lbody <> after ->
  (forall i, length g <= i -> b_stmts (blk g0 i) = []) ->
  b_stmts (blk g0 cur) = b_stmts (blk g cur) ->
  ~ cold g0 header -> ~ cold g0 after -> ls' = (header, after) :: ls ->
  build stopping true b g0 lbody ls' = (g1, e1) ->
  let g2 := loop_back g1 e1 header in
  cpost ls g cur (r_start (rng s)) (r_end (rng s)) g2 after (dinner (flag ls) s) /\
  fresh_out g cur g2 after.
Proof.
  intros (Hc & Hne & Sy & L2 & HT) W Ch St Hb X0 Sy0 ON0 Lb La Lh Ne Fr Sc Hh Ha -> E g2.
  assert (Wb : well_ranged b) by (apply (wr_child s); auto; rewrite Ch; now left).
  assert (Ob : Datatypes.S (r_start (rng s)) <= r_start (rng b) /\ r_end (rng b) <= r_end (rng s)).
  { destruct (W s (desc_self s)) as (_ & O). apply (ordered_bounds _ _ _ _ O). rewrite Ch. now left. }
  pose proof (ext_len _ _ _ X0) as XL0. pose proof (wr_nonempty _ Wb) as Nb.
  assert (HT0 : forall j, targets ((header, after) :: ls) j -> j < length g0 /\ ~ cold g0 j).
  { intros j (h & a & [E'|Hin] & Hj).
    - injection E' as <- <-. destruct Hj as [ -> | -> ]; split; auto; lia.
    - destruct (HT j) as (A & B); [now exists h, a|]. split; [lia|]. intros C. apply B.
      intros x Hx. apply (C x). now apply (ext_succ _ _ _ X0). }
  assert (G0 : good g0 lbody ((header, after) :: ls)).
  { unfold good, exit_. split; [lia|]. split; [lia|]. split; auto. split; [lia|]. auto. }
  pose proof (Hb g0 lbody _ G0 Wb g1 e1 E) as P.
  destruct (c_out _ _ _ _ _ _ _ _ P) as (Q1 & Q2).
  pose proof (c_ext _ _ _ _ _ _ _ _ P) as X1. pose proof (ext_len _ _ _ X1) as XL1.
  destruct (loop_back_facts g1 e1 header) as (L3 & X2 & S2 & _ & _). fold g2 in L3, X2, S2.
  assert (ON2 : only_new (fun j => j = header) g1 g2).
  { unfold g2, loop_back. destruct (negb _); [|apply only_new_refl].
    eapply only_new_trans; [|now apply only_new_edge]. now apply only_new_upd. }
  assert (X02 : ext (fun i => i = lbody) g0 g2).
  { eapply ext_trans2; [exact X1|exact X2|]. cbn. intros. lia. }
  assert (K : forall i, i < length g0 -> i <> lbody -> b_stmts (blk g2 i) = b_stmts (blk g0 i)).
  { intros i Hi Hn. apply (ext_keep _ _ _ X02 i); auto. }
  assert (Wi : forall i, length g <= i < length g2 ->
            ordered (r_start (rng b)) (b_stmts (blk g2 i)) (r_end (rng b))).
  { intros i Hi. destruct (Nat.eq_dec i lbody) as [->|N1].
    - rewrite S2. destruct (c_cur _ _ _ _ _ _ _ _ P) as (ad & -> & A). rewrite Fr by lia. exact A.
    - destruct (Nat.lt_ge_cases i (length g0)) as [H|H].
      + rewrite K by auto. rewrite Fr by lia. cbn. lia.
      + rewrite S2. apply (c_new _ _ _ _ _ _ _ _ P). lia. }
  split.
  - split.
    + eapply ext_trans2; [exact X0|exact X02|]. cbn. intros. lia.
    + lia.
    + unfold g2, loop_back. destruct (negb _); [|exact (c_sym _ _ _ _ _ _ _ _ P)].
      apply sym_edge; [apply sym_set_term; exact (c_sym _ _ _ _ _ _ _ _ P)|rewrite upd_length; lia].
    + eapply only_new_trans; [eapply only_new_weaken; [|exact ON0]; cbn; auto|].
      eapply only_new_trans.
      * eapply only_new_weaken; [|exact (c_edges _ _ _ _ _ _ _ _ P)]. cbn. intros j [H|(h & a & [E'|Hin] & Hj)].
        -- left. lia.
        -- injection E' as <- <-. left. lia.
        -- right. now exists h, a.
      * eapply only_new_weaken; [|exact ON2]. cbn. intros j ->. left. lia.
    + exists []. split; [|cbn; lia]. rewrite app_nil_r. rewrite K by lia. exact Sc.
    + intros i Hi. eapply ordered_weaken; [| |exact (Wi i Hi)]; lia.
    + intros n Hn. apply St in Hn.
      destruct (c_doom _ _ _ _ _ _ _ _ P n Hn) as (i & y & Hi & Nn & Co & Hy & Hp).
      exists i, y. split; [lia|]. split; auto. split.
      * eapply cold_only_new; [exact ON2| |exact Co]. cbn. intros ->.
        apply Hh. intros x Hx. apply (Co x). now apply (ext_succ _ _ _ X1).
      * split; auto. now rewrite S2.
  - right. rewrite K by lia. apply Fr. lia.
Qed.

Lemma for_setup_complete g cur ls :
  good g cur ls ->
  let header := length g in let lbody := Datatypes.S header in let after := Datatypes.S lbody in
  let g0 := add_edge (add_edge (upd (add_edge (upd (new_blocks g 3) cur (set_term TGoto)) cur header)
              header (set_term TLoop)) header lbody) header after in
  sym g0 /\ only_new (fun j => length g <= j) g g0 /\ ~ cold g0 header /\ ~ cold g0 after.
Proof.
  intros (Hc & Hne & Sy & L2 & HT) header lbody after g0.
  set (ga := upd (new_blocks g 3) cur (set_term TGoto)) in *.
  set (gb := add_edge ga cur header) in *.
  set (gc := upd gb header (set_term TLoop)) in *.
  set (gd := add_edge gc header lbody) in *.
  assert (La : length ga = length g + 3) by (unfold ga; now rewrite upd_length, new_blocks_length).
  assert (Lb : length gb = length g + 3) by (unfold gb; now rewrite add_edge_length).
  assert (Lc : length gc = length g + 3) by (unfold gc; now rewrite upd_length).
  assert (Ld : length gd = length g + 3) by (unfold gd; now rewrite add_edge_length).
  split; [|split; [|split]].
  - apply sym_edge; [apply sym_edge; [apply sym_set_term, sym_edge; [apply sym_set_term, sym_new; auto|]|]|];
      unfold after, lbody, header; lia.
  - unfold g0. eapply only_new_trans; [|apply only_new_edge; unfold after, lbody, header; lia].
    unfold gd. eapply only_new_trans; [|apply only_new_edge; unfold after, lbody, header; lia].
    unfold gc. eapply only_new_trans; [|now apply only_new_upd].
    unfold gb. eapply only_new_trans; [|apply only_new_edge; unfold after, lbody, header; lia].
    unfold ga. eapply only_new_trans; [apply only_new_blocks|now apply only_new_upd].
  - intros C. apply (C cur).
    assert (Xb0 : ext (fun i => i = header) gb g0).
    { eapply ext_trans; [|apply ext_add_edge]. eapply ext_trans; [|apply ext_add_edge].
      now apply ext_set_term. }
    apply (ext_succ _ _ _ Xb0). apply add_edge_succ. lia.
  - intros C. apply (C header). apply add_edge_succ. unfold header. lia.
Qed.

Lemma repeat_setup_complete g cur ls :
  good g cur ls ->
  let lbody := length g in let after := Datatypes.S lbody in
  let g0 := add_edge (add_edge (upd (new_blocks g 2) cur (set_term TGoto)) cur lbody) lbody after in
  sym g0 /\ only_new (fun j => length g <= j) g g0 /\ ~ cold g0 lbody /\ ~ cold g0 after.
Proof.
  intros (Hc & Hne & Sy & L2 & HT) lbody after g0.
  set (ga := upd (new_blocks g 2) cur (set_term TGoto)) in *.
  set (gb := add_edge ga cur lbody) in *.
  assert (La : length ga = length g + 2) by (unfold ga; now rewrite upd_length, new_blocks_length).
  assert (Lb : length gb = length g + 2) by (unfold gb; now rewrite add_edge_length).
  split; [|split; [|split]].
  - apply sym_edge; [apply sym_edge; [apply sym_set_term, sym_new; auto|]|];
      unfold after, lbody; lia.
  - unfold g0. eapply only_new_trans; [|apply only_new_edge; unfold after, lbody; lia].
    unfold gb. eapply only_new_trans; [|apply only_new_edge; unfold after, lbody; lia].
    unfold ga. eapply only_new_trans; [apply only_new_blocks|now apply only_new_upd].
  - intros C. apply (C cur).
    assert (Xb0 : ext none gb g0) by apply ext_add_edge.
    apply (ext_succ _ _ _ Xb0). apply add_edge_succ. lia.
  - intros C. apply (C lbody). apply add_edge_succ. unfold lbody. lia.
Qed.

Lemma for_fields g cur :
  let header := length g in let lbody := Datatypes.S header in let after := Datatypes.S lbody in
  let g0 := add_edge (add_edge (upd (add_edge (upd (new_blocks g 3) cur (set_term TGoto)) cur header)
              header (set_term TLoop)) header lbody) header after in
  cur < length g ->
  ext (fun i => i = cur) g g0 /\ length g0 = length g + 3 /\ (forall i, length g <= i -> b_stmts (blk g0 i) = []) /\ b_stmts (blk g0 cur) = b_stmts (blk g cur).
Proof.
  intros header lbody after g0 Hc.
  set (ga := upd (new_blocks g 3) cur (set_term TGoto)) in *.
  set (gb := add_edge ga cur header) in *.
  set (gc := upd gb header (set_term TLoop)) in *.
  set (gd := add_edge gc header lbody) in *.
  assert (L0 : length g0 = length g + 3).
  { unfold g0, gd, gc, gb, ga. now rewrite !add_edge_length, upd_length, add_edge_length, upd_length, new_blocks_length. }
  assert (Xb0 : ext (fun i => i = header) gb g0).
  { eapply ext_trans; [|apply ext_add_edge]. eapply ext_trans; [|apply ext_add_edge].
    now apply ext_set_term. }
  assert (Xga : ext (fun i => i = cur) g ga).
  { unfold ga. eapply ext_trans; [apply ext_new|now apply ext_set_term]. }
  assert (Xgb : ext (fun i => i = cur) g gb).
  { eapply ext_trans; [exact Xga|apply ext_add_edge]. }
  assert (X : ext (fun i => i = cur) g g0).
  { eapply ext_trans2; [exact Xgb|exact Xb0|]. unfold header. cbn. intros. lia. }
  assert (Stm : forall i, b_stmts (blk g0 i) = b_stmts (blk g i)).
  { intros i. unfold g0, gd, gc, gb, ga.
    now rewrite !add_edge_stmts, set_term_stmts, add_edge_stmts, set_term_stmts, blk_new_blocks. }
  split; [exact X|]. split; [exact L0|]. split; [|apply Stm].
  intros i Hi. now rewrite Stm, blk_out.
Qed.

Lemma repeat_fields g cur :
  let lbody := length g in let after := Datatypes.S lbody in
  let g0 := add_edge (add_edge (upd (new_blocks g 2) cur (set_term TGoto)) cur lbody) lbody after in
  cur < length g ->
  ext (fun i => i = cur) g g0 /\ length g0 = length g + 2 /\ (forall i, length g <= i -> b_stmts (blk g0 i) = []) /\ b_stmts (blk g0 cur) = b_stmts (blk g cur).
Proof.
  intros lbody after g0 Hc.
  set (ga := upd (new_blocks g 2) cur (set_term TGoto)) in *.
  set (gb := add_edge ga cur lbody) in *.
  assert (L0 : length g0 = length g + 2).
  { unfold g0, gb, ga. now rewrite !add_edge_length, upd_length, new_blocks_length. }
  assert (Xga : ext (fun i => i = cur) g ga).
  { unfold ga. eapply ext_trans; [apply ext_new|now apply ext_set_term]. }
  assert (X : ext (fun i => i = cur) g g0).
  { eapply ext_trans; [exact Xga|]. eapply ext_trans; apply ext_add_edge. }
  assert (Stm : forall i, b_stmts (blk g0 i) = b_stmts (blk g i)).
  { intros i. unfold g0, gb, ga. now rewrite !add_edge_stmts, set_term_stmts, blk_new_blocks. }
  split; [exact X|]. split; [exact L0|]. split; [|apply Stm].
  intros i Hi. now rewrite Stm, blk_out.
Qed.

(** ** The whole builder *)
Lemma div_class b r f : diverges stopping b (Call r f) ->
  classify stopping f = KReturn \/ classify stopping f = KStop.
Proof.
  intros H. inversion H as [? ? f' Hu Hc Hin Hb Hn| |]; subst.
  unfold classify. rewrite (fun_name_of f f' Hu Hc).
  destruct (teqb f' (lit "return")) eqn:E1; auto.
  destruct (teqb f' (lit "break")) eqn:E2; [apply teqb_eq in E2; contradiction|].
  destruct (teqb f' (lit "next")) eqn:E3; [apply teqb_eq in E3; contradiction|].
  destruct Hin as [<-|Hin]; [rewrite teqb_refl in E1; discriminate|].
  right. apply mem_iff in Hin. now rewrite Hin.
Qed.

Lemma leaf_inner b s n : (forall b' l, ~ inner b s b' l) -> ~ dinner b s n.
Proof. intros H (b' & l & Hi & _). now apply (H b' l). Qed.

Lemma cbodied_of_csingle s :
  (forall r l, s <> Block r l) -> csingle s -> cbodied s.
Proof.
  intros Hn H g cur ls G W g' out E.
  assert (E' : build stopping false s g cur ls = (g', out)).
  { rewrite <- E. destruct s; auto. now destruct (Hn r l). }
  destruct (H g cur ls G W g' out E') as (P & _). destruct P as [A B C D F I J]. split; auto.
  intros n (b' & l & Hs & Ha). apply J. left. exists b', l. split; auto.
  inversion Hs; subst; auto; now destruct (Hn r l0) || now destruct (Hn r l).
Qed.

Definition is_div (s : stmt) : bool := match s with Call _ _ | Break _ | Next _ => true | _ => false end.

(** The dead case of [build_statement]. *)
Lemma csingle_dead s g cur ls :
  good g cur ls -> well_ranged s -> has_incoming g cur = false ->
  cpost ls g cur (r_start (rng s)) (r_end (rng s)) (add_statement g cur s) cur
    (fun n => dinner (flag ls) s n \/ (has_incoming g cur = false /\ n = s)) /\
  fresh_out g cur (add_statement g cur s) cur /\
  (diverges stopping (flag ls) s -> has_incoming g cur = true ->
     terminated (b_term (blk (add_statement g cur s) cur)) = true) /\
  (has_incoming g cur = false -> cur = cur /\ has_incoming (add_statement g cur s) cur = false).
Proof.
  intros G W Inc. split; [|split; [now left|split; [congruence|]]].
  - apply c_added; auto. intros n [Hn|(_ & ->)]; split; auto.
    + eapply dinner_pos; eauto.
    + now apply self_pos.
  - intros _. split; auto. now rewrite add_statement_incoming.
Qed.

Ltac cdead :=
  match goal with
  | E : (if negb (has_incoming ?g ?cur) then _ else _) = _ |- _ =>
      destruct (has_incoming g cur) eqn:Inc; cbn [negb] in E;
      [|apply pair_equal_spec in E; destruct E as [<- <-];
        match goal with W : well_ranged ?s |- _ =>
          let K := fresh in
          pose proof (csingle_dead s g cur _ ltac:(eassumption) W Inc) as K; rewrite Inc in K; exact K end]
  end.

Ltac no_doom := intros n [Hn|(Hn & _)]; [|congruence]; revert Hn; apply leaf_inner; intros ? ? H; inversion H.

Lemma break_facts g cur ls s t target (D : stmt -> Prop) :
  good g cur ls -> well_ranged s -> (forall n, ~ D n) -> targets ls target ->
  cpost ls g cur (r_start (rng s)) (r_end (rng s)) (add_edge (upd g cur (set_term t)) cur target) cur D /\
  b_term (blk (add_edge (upd g cur (set_term t)) cur target) cur) = t.
Proof.
  intros G W HD HT'. pose proof G as (Hc & Hne & Sy & L2 & HT). split.
  - apply c_jump; auto.
    + eapply ext_trans; [|apply ext_add_edge]. now apply ext_set_term.
    + now rewrite add_edge_length, upd_length.
    + apply sym_edge; [now apply sym_set_term|]. rewrite upd_length. now apply HT.
    + eapply only_new_trans; [|now apply only_new_edge]. now apply only_new_upd.
    + now rewrite add_edge_stmts, set_term_stmts.
  - rewrite add_edge_term, blk_upd_same; auto.
Qed.

Lemma term_facts g cur ls s t (D : stmt -> Prop) :
  good g cur ls -> well_ranged s -> (forall n, ~ D n) ->
  cpost ls g cur (r_start (rng s)) (r_end (rng s)) (upd g cur (set_term t)) cur D /\
  b_term (blk (upd g cur (set_term t)) cur) = t.
Proof.
  intros G W HD. pose proof G as (Hc & Hne & Sy & L2 & HT). split.
  - apply c_jump; auto.
    + now apply ext_set_term.
    + now rewrite upd_length.
    + now apply sym_set_term.
    + now apply only_new_upd.
    + now rewrite set_term_stmts.
  - rewrite blk_upd_same; auto.
Qed.

Lemma same_facts g cur ls s (D : stmt -> Prop) :
  good g cur ls -> well_ranged s -> (forall n, ~ D n) ->
  cpost ls g cur (r_start (rng s)) (r_end (rng s)) g cur D.
Proof.
  intros G W HD. pose proof G as (Hc & Hne & Sy & L2 & HT). apply c_jump; auto.
  - apply ext_refl.
  - apply only_new_refl.
Qed.

Lemma target_break h a ls : targets ((h, a) :: ls) a.
Proof. exists h, a. split; [now left|auto]. Qed.
Lemma target_next h a ls : targets ((h, a) :: ls) h.
Proof. exists h, a. split; [now left|auto]. Qed.

Lemma cbuild_ok s : csingle s /\ cbodied s.
Proof.
  induction s as [r|r f|r|r|r|r l IHl|r c t e IHt IHe|r b IHb|r c b IHb|r b IHb] using stmt_ind'.
  - assert (H : csingle (Simple r)).
    { intros g cur ls G W g' out E. cbn [build] in E. cdead.
      injection E as <- <-. split; [|split; [now left|split; [intros X; inversion X|congruence]]].
      apply (c_added g cur ls (Simple r)); auto. intros n Hn. exfalso. revert n Hn. no_doom. }
    split; auto. apply cbodied_of_csingle; auto. discriminate.
  - assert (H : csingle (Call r f)).
    { intros g cur ls G W g' out E. cbn [build] in E. cdead.
      assert (ND : forall n, ~ (dinner (flag ls) (Call r f) n \/ true = false /\ n = Call r f)) by no_doom.
      destruct (classify stopping f) eqn:K; injection E as <- <-.
      - destruct (term_facts g cur ls (Call r f) TReturn _ G W ND) as (P & T).
        split; [exact P|split; [now left|split; [|congruence]]]. intros _ _. unfold build_return. now rewrite T.
      - destruct ls as [|[h a] ls]; cbn [build_break].
        + split; [now apply (same_facts g cur [] (Call r f))|split; [now left|split; [|congruence]]].
          intros Hd. apply div_class in Hd. destruct Hd; congruence.
        + destruct (break_facts g cur _ (Call r f) TBreak a _ G W ND (target_break _ _ _)) as (P & T).
          split; [exact P|split; [now left|split; [|congruence]]]. intros _ _. now rewrite T.
      - destruct ls as [|[h a] ls]; cbn [build_next].
        + split; [now apply (same_facts g cur [] (Call r f))|split; [now left|split; [|congruence]]].
          intros Hd. apply div_class in Hd. destruct Hd; congruence.
        + destruct (break_facts g cur _ (Call r f) TNext h _ G W ND (target_next _ _ _)) as (P & T).
          split; [exact P|split; [now left|split; [|congruence]]]. intros _ _. now rewrite T.
      - destruct (term_facts g cur ls (Call r f) TStop _ G W ND) as (P & T).
        split; [exact P|split; [now left|split; [|congruence]]]. intros _ _. unfold build_stop. now rewrite T.
      - split; [|split; [now left|split; [|congruence]]].
        + apply (c_added g cur ls (Call r f)); auto. intros n Hn. now apply ND in Hn.
        + intros Hd. apply div_class in Hd. destruct Hd; congruence. }
    split; auto. apply cbodied_of_csingle; auto. discriminate.
  - assert (H : csingle (Break r)).
    { intros g cur ls G W g' out E. cbn [build] in E. cdead.
      assert (ND : forall n, ~ (dinner (flag ls) (Break r) n \/ true = false /\ n = Break r)) by no_doom.
      injection E as <- <-. destruct ls as [|[h a] ls]; cbn [build_break].
      + split; [now apply (same_facts g cur [] (Break r))|split; [now left|split; [|congruence]]].
        intros Hd. inversion Hd. discriminate.
      + destruct (break_facts g cur _ (Break r) TBreak a _ G W ND (target_break _ _ _)) as (P & T).
        split; [exact P|split; [now left|split; [|congruence]]]. intros _ _. now rewrite T. }
    split; auto. apply cbodied_of_csingle; auto. discriminate.
  - assert (H : csingle (Next r)).
    { intros g cur ls G W g' out E. cbn [build] in E. cdead.
      assert (ND : forall n, ~ (dinner (flag ls) (Next r) n \/ true = false /\ n = Next r)) by no_doom.
      injection E as <- <-. destruct ls as [|[h a] ls]; cbn [build_next].
      + split; [now apply (same_facts g cur [] (Next r))|split; [now left|split; [|congruence]]].
        intros Hd. inversion Hd. discriminate.
      + destruct (break_facts g cur _ (Next r) TNext h _ G W ND (target_next _ _ _)) as (P & T).
        split; [exact P|split; [now left|split; [|congruence]]]. intros _ _. now rewrite T. }
    split; auto. apply cbodied_of_csingle; auto. discriminate.
  - assert (H : csingle (Return r)).
    { intros g cur ls G W g' out E. cbn [build] in E. cdead.
      assert (ND : forall n, ~ (dinner (flag ls) (Return r) n \/ true = false /\ n = Return r)) by no_doom.
      injection E as <- <-.
      destruct (term_facts g cur ls (Return r) TReturn _ G W ND) as (P & T).
      split; [exact P|split; [now left|split; [|congruence]]]. intros _ _. unfold build_return. now rewrite T. }
    split; auto. apply cbodied_of_csingle; auto. discriminate.
  - split.
    + intros g cur ls G W g' out E. cbn [build] in E. cdead.
      injection E as <- <-. split; [|split; [now left|split; [intros X; inversion X|congruence]]].
      apply (c_added g cur ls (Block r l)); auto. intros n Hn. exfalso. revert n Hn. no_doom.
    + intros g cur ls G W g' out E. cbn [build] in E.
      destruct (W _ (desc_self _)) as (Wn & O). cbn [rng children] in *.
      pose proof (fun Hs Hw => cbuild_list ls l g cur _ _ Hs Hw O G g' out E) as P.
      destruct P as [A B C D (ad & F & F') I J].
      * eapply Forall_impl; [|exact IHl]. now intros ? [].
      * apply Forall_forall. intros x Hx. now apply (wr_child _ x W).
      * split; auto.
        -- exists ad. split; auto. eapply ordered_weaken; [| |exact F']; lia.
        -- intros i Hi. eapply ordered_weaken; [| |exact (I i Hi)]; lia.
        -- intros n (b' & l' & Hs & Ha). apply J. left. inversion Hs; subst.
           ++ now left.
           ++ right. exists s. split; auto. now exists b', l'.
           ++ inversion H.
  - assert (H : csingle (If r c t e)).
    { intros g cur ls G W g' out E.
      assert (Wt : well_ranged t) by (apply (wr_child _ t W); destruct e; now left).
      cbn [build] in E. cdead. cbn [rng].
      destruct (branch_edges_complete g (const_cond c) cur ls G) as (Sy0 & ON0 & _ & CT & CF).
      pose proof G as (Hc & Hne & Sy & L2 & HT).
      assert (BE : let th := length g in let el := Datatypes.S th in
                   let g0 := branch_edges (new_blocks g 3) (const_cond c) cur th el in
                   length g0 = length g + 3 /\ ext (fun i => i = cur) g g0 /\
                   (forall i, length g <= i -> b_stmts (blk g0 i) = []) /\
                   b_stmts (blk g0 cur) = b_stmts (blk g cur)).
      { cbn zeta. unfold branch_edges.
        set (gx := upd (new_blocks g 3) cur (set_term TBranch)).
        assert (Lx : length gx = length g + 3) by (unfold gx; now rewrite upd_length, new_blocks_length).
        assert (Xx : ext (fun i => i = cur) g gx).
        { unfold gx. eapply ext_trans; [apply ext_new|now apply ext_set_term]. }
        assert (Sx : forall i, b_stmts (blk gx i) = b_stmts (blk g i)).
        { intros i. unfold gx. now rewrite set_term_stmts, blk_new_blocks. }
        assert (PS : forall gg i p k, b_stmts (blk (upd gg i (push_pred p)) k) = b_stmts (blk gg k)).
        { intros gg i p k. destruct (upd_cases gg i (push_pred p) k) as [(-> & _ & ->)| ->]; reflexivity. }
        destruct (const_cond c) as [[|]|]; rewrite ?upd_length, ?add_edge_length;
          (split; [exact Lx|]); (split; [|split; [intros i Hi|]]);
          rewrite ?PS, ?add_edge_stmts, ?Sx; auto; try (now rewrite blk_out);
          (eapply ext_trans; [exact Xx|]); try (eapply ext_trans; [apply ext_add_edge|]);
          first [apply ext_push_pred|apply ext_add_edge]. }
      destruct BE as (L0 & X0 & Fr0 & S0).
      set (th := length g) in *. set (el := Datatypes.S th) in *. set (after := Datatypes.S el) in *.
      set (g0 := branch_edges (new_blocks g 3) (const_cond c) cur th el) in *.
      set (g1 := if is_false (const_cond c) then upd g0 th (push_stmt t)
                 else let '(g, e1) := build stopping true t g0 th ls in join_branch g e1 after) in *.
      match type of E with (mark_after ?x _ _, _) = _ => set (g2 := x) in E end.
      apply pair_equal_spec in E. destruct E as [<- <-].
      assert (HT0 : forall j, targets ls j -> j < length g0 /\ ~ cold g0 j).
      { intros j Hj. destruct (HT j Hj) as (A & B). split; [unfold th in *; lia|]. intros C. apply B.
        intros x Hx. apply (C x). now apply (ext_succ _ _ _ X0). }
      assert (B1 : cbranch ls t g0 th after g1).
      { unfold g1. destruct (is_false (const_cond c)) eqn:Hf.
        - apply cbranch_dead; auto; try (unfold th, entry; lia).
        - destruct (build stopping true t g0 th ls) as [ga ea] eqn:Eb.
          apply cbranch_live; auto; try apply IHt; try (unfold after, el, th; lia).
          unfold good, exit_. split; [unfold th; lia|]. split; [unfold th; lia|]. split; auto. split; [lia|auto]. }
      pose proof (cb_ext _ _ _ _ _ _ B1) as X1. pose proof (ext_len _ _ _ X1) as XL1.
      assert (Hel : b_stmts (blk g1 el) = []).
      { destruct (ext_keep _ _ _ X1 el) as (-> & _ & _); [unfold el, th; lia..|].
        apply Fr0. unfold el, th. lia. }
      assert (Pf : cpost ls g cur (r_start r) (r_end r) (mark_after g2 after cur) after (dinner (flag ls) (If r c t e))
                   /\ fresh_out g cur (mark_after g2 after cur) after).
      { apply (cif ls r c t e g cur g0 g1 g2); auto; [apply rinv_new_graph|].
        unfold g2, celse. destruct e as [x|].
        - assert (Wx : well_ranged x) by (apply (wr_child _ x W); right; now left).
          destruct (is_true (const_cond c)) eqn:Ht.
          + apply cbranch_dead; auto; try (unfold el, th, entry; lia).
            * apply (cb_sym _ _ _ _ _ _ B1).
            * eapply cold_only_new; [exact (cb_edges _ _ _ _ _ _ B1)| |exact (CF eq_refl)].
              cbn. intros [H|[H|H]]; try (unfold after, el, th in *; lia).
              apply (proj2 (HT0 _ H)). now apply CF.
          + destruct (build stopping true x g1 el ls) as [ga ea] eqn:Eb.
            apply cbranch_live; auto; try (now apply (IHe x)); try (unfold after, el, th; lia).
            unfold good, exit_. split; [unfold el, th; lia|]. split; [unfold el, th; lia|].
            split; [apply (cb_sym _ _ _ _ _ _ B1)|]. split; [lia|].
            intros j Hj. destruct (HT0 j Hj) as (A & B). split; [lia|]. intros C. apply B.
            intros y Hy. apply (C y). now apply (ext_succ _ _ _ X1).
        - split; [eapply ext_trans; [|apply ext_add_edge]; now apply ext_set_term|].
          split; [apply sym_edge; [apply sym_set_term, (cb_sym _ _ _ _ _ _ B1)|rewrite upd_length; unfold after, el, th; lia]|].
          split; [now rewrite add_edge_length, upd_length|].
          split; [eapply only_new_trans; [|now apply only_new_edge]; now apply only_new_upd|].
          now rewrite add_edge_stmts, set_term_stmts. }
      destruct Pf as ([A B C D F I J] & Fo). split; [split; auto|].
      - intros n [Hn|(Hn & _)]; [auto|discriminate].
      - split; [exact Fo|]. split; [intros X; inversion X|congruence]. }
    split; auto. apply cbodied_of_csingle; auto. discriminate.
  - assert (H : csingle (For r b)).
    { intros g cur ls G W g' out E. cbn [build] in E. cdead.
      pose proof G as (Hc & Hne & Sy & L2 & HT).
      destruct (for_setup_complete g cur ls G) as (C1 & C2 & C3 & C4).
      destruct (for_fields g cur Hc) as (A1 & A3 & A4 & A7).
      match type of E with context [build stopping true b ?x ?y ?z] =>
        destruct (build stopping true b x y z) as [g1 e1] eqn:Eb in E end.
      apply pair_equal_spec in E. destruct E as [<- <-].
      eapply (cloop ls _ (For r b) b g cur) in Eb; [|exact G|exact W|reflexivity| |apply IHb|exact A1|exact C1|exact C2| | | | |exact A4|exact A7|exact C3|exact C4|reflexivity]; try (rewrite ?A3; lia).
      - destruct Eb as ([A B C D F I J] & Fo). split; [split; auto|].
        + intros n [Hn|(Hn & _)]; [auto|discriminate].
        + split; [exact Fo|]. split; [intros X; inversion X|congruence].
      - intros f n (b' & l & Hi & Ha). inversion Hi; subst. now exists b', l. }
    split; auto. apply cbodied_of_csingle; auto. discriminate.
  - assert (H : csingle (While r c b)).
    { intros g cur ls G W g' out E. cbn [build] in E. cdead.
      pose proof G as (Hc & Hne & Sy & L2 & HT).
      destruct (for_setup_complete g cur ls G) as (C1 & C2 & C3 & C4).
      destruct (for_fields g cur Hc) as (A1 & A3 & A4 & A7).
      match type of E with context [build stopping true b ?x ?y ?z] =>
        destruct (build stopping true b x y z) as [g1 e1] eqn:Eb in E end.
      apply pair_equal_spec in E. destruct E as [<- <-].
      eapply (cloop ls _ (While r c b) b g cur) in Eb; [|exact G|exact W|reflexivity| |apply IHb|exact A1|exact C1|exact C2| | | | |exact A4|exact A7|exact C3|exact C4|reflexivity]; try (rewrite ?A3; lia).
      - destruct Eb as ([A B C D F I J] & Fo). split; [split; auto|].
        + intros n [Hn|(Hn & _)]; [auto|discriminate].
        + split; [exact Fo|]. split; [intros X; inversion X|congruence].
      - intros f n (b' & l & Hi & Ha). inversion Hi; subst. now exists b', l. }
    split; auto. apply cbodied_of_csingle; auto. discriminate.
  - assert (H : csingle (Repeat r b)).
    { intros g cur ls G W g' out E. cbn [build] in E. cdead.
      pose proof G as (Hc & Hne & Sy & L2 & HT).
      destruct (repeat_setup_complete g cur ls G) as (C1 & C2 & C3 & C4).
      destruct (repeat_fields g cur Hc) as (A1 & A3 & A4 & A7).
      match type of E with context [build stopping true b ?x ?y ?z] =>
        destruct (build stopping true b x y z) as [g1 e1] eqn:Eb in E end.
      apply pair_equal_spec in E. destruct E as [<- <-].
      eapply (cloop ls _ (Repeat r b) b g cur) in Eb; [|exact G|exact W|reflexivity| |apply IHb|exact A1|exact C1|exact C2| | | | |exact A4|exact A7|exact C3|exact C4|reflexivity]; try (rewrite ?A3; lia).
      - destruct Eb as ([A B C D F I J] & Fo). split; [split; auto|].
        + intros n [Hn|(Hn & _)]; [auto|discriminate].
        + split; [exact Fo|]. split; [intros X; inversion X|congruence].
      - intros f n (b' & l & Hi & Ha). inversion Hi; subst. now exists b', l. }
    split; auto. apply cbodied_of_csingle; auto. discriminate.
Qed.

Lemma good_new : good new_graph entry [].
Proof.
  unfold good, entry, exit_, new_graph. cbn [length]. split; [lia|]. split; [lia|]. split.
  - intros x j H. destruct x as [|[|x]]; cbn in H; try destruct H. now destruct x.
  - split; [lia|]. intros j (h & a & [] & _).
Qed.

Lemma path_cold g i : i <> entry -> cold g i -> ~ path g entry i.
Proof.
  intros N C P. inversion P as [|? j ? P' Hj]; subst; [now apply N|]. now apply (C j).
Qed.

Theorem unreachable_code_complete body b l pre d post n :
  well_ranged body -> sequence false body b l ->
  l = pre ++ d :: post -> diverges stopping b d -> In n post ->
  exists x, In x (unreachable_code stopping body) /\ begins_in n (fst x).
Proof.
  intros W Hs El Hd Hn. unfold unreachable_code, build_cfg.
  destruct (build stopping true body new_graph entry []) as [g out] eqn:E. cbn [fst].
  destruct (cbuild_ok body) as (_ & Hb).
  pose proof (Hb _ _ _ good_new W _ _ E) as P.
  destruct (c_doom _ _ _ _ _ _ _ _ P n) as (i & y & Hi & Ne & Co & Hy & Hp).
  { exists b, l. split; [exact Hs|]. now exists pre, d, post. }
  assert (Hi' : 2 <= i < length g).
  { destruct Hi as [Hi|Hi]; [now rewrite Hi in Ne|]. cbn in Hi. lia. }
  destruct (block_range_covers (blk g i) _ _ y (r_start (rng n)) (c_new _ _ _ _ _ _ _ _ P i Hi') Hy Hp)
    as (r & Hr & Hpr).
  apply (report_covers g i r); auto. rewrite find_reachable_exact. now apply path_cold.
Qed.
End Complete.
