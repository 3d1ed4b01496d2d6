(** From executions (Spec/CfgSpec.v) to a static over-approximation. *)
From Verif Require Import Model.Text Model.Base Model.Cfg Spec.CfgSpec.
From Verif Require Import Proofs.TextProofs Proofs.RulesProofs.
Import ListNotations.

(** Induction over statements, through the lists of blocks. *)
Section StmtInd.
  Variable P : stmt -> Prop.
  Hypothesis HSimple : forall r, P (Simple r).
  Hypothesis HCall : forall r f, P (Call r f).
  Hypothesis HBreak : forall r, P (Break r).
  Hypothesis HNext : forall r, P (Next r).
  Hypothesis HReturn : forall r, P (Return r).
  Hypothesis HBlock : forall r l, Forall P l -> P (Block r l).
  Hypothesis HIf : forall r c t e, P t -> (forall x, e = Some x -> P x) -> P (If r c t e).
  Hypothesis HFor : forall r b, P b -> P (For r b).
  Hypothesis HWhile : forall r c b, P b -> P (While r c b).
  Hypothesis HRepeat : forall r b, P b -> P (Repeat r b).
  Fixpoint stmt_ind' (s : stmt) : P s :=
    match s with
    | Simple r => HSimple r
    | Call r f => HCall r f
    | Break r => HBreak r
    | Next r => HNext r
    | Return r => HReturn r
    | Block r l =>
        HBlock r l ((fix go l : Forall P l :=
                       match l with
                       | [] => Forall_nil P
                       | s :: l => Forall_cons s (stmt_ind' s) (go l)
                       end) l)
    | If r c t e =>
        HIf r c t e (stmt_ind' t)
          (match e as e return forall x, e = Some x -> P x with
           | Some y => fun x E => match E in _ = o return match o with Some z => P z | None => True end
                                  with eq_refl => stmt_ind' y end
           | None => fun x E => match E in _ = o return match o with Some z => P z | None => True end
                                with eq_refl => I end
           end)
    | For r b => HFor r b (stmt_ind' b)
    | While r c b => HWhile r c b (stmt_ind' b)
    | Repeat r b => HRepeat r b (stmt_ind' b)
    end.
End StmtInd.

(** ** Constant conditions are what they seem *)
Lemma const_cond_sound c v b :
  ceval c v -> const_cond c = Some b -> v = if b then T else F.
Proof.
  intros H. revert b.
  induction H; intros b0 E; cbn in E; try (injection E as <-; reflexivity); auto.
  - destruct (const_cond a) as [[|]|]; destruct (const_cond b) as [[|]|];
      try discriminate; injection E as <-;
      try (rewrite (IHceval1 _ eq_refl)); try (rewrite (IHceval2 _ eq_refl)); auto;
      destruct v; destruct w; reflexivity.
  - destruct (const_cond a) as [[|]|]; destruct (const_cond b) as [[|]|];
      try discriminate; injection E as <-;
      try (rewrite (IHceval1 _ eq_refl)); try (rewrite (IHceval2 _ eq_refl)); auto;
      destruct v; destruct w; reflexivity.
  - discriminate.
Qed.

Lemma ceval_T_not_false c : ceval c T -> is_false (const_cond c) = false.
Proof.
  intros H. destruct (const_cond c) as [[|]|] eqn:E; auto.
  now apply (const_cond_sound _ _ _ H) in E.
Qed.

Lemma ceval_F_not_true c : ceval c F -> is_true (const_cond c) = false.
Proof.
  intros H. destruct (const_cond c) as [[|]|] eqn:E; auto.
  now apply (const_cond_sound _ _ _ H) in E.
Qed.

(** ** Names of called functions *)
Definition colons : text := lit "::".

Lemma after_last_none t : after_last_colons t = None -> forall pre post, t <> pre ++ colons ++ post.
Proof.
  induction t as [|c t IH]; intros H pre post E.
  - destruct pre; discriminate.
  - cbn in H. destruct (after_last_colons t) as [x|] eqn:E1; [discriminate|].
    destruct pre as [|p pre].
    + cbn in E. injection E as -> ->. cbn in H. discriminate.
    + cbn in E. injection E as -> E. now apply (IH eq_refl pre post).
Qed.

Lemma after_last_some t x :
  after_last_colons t = Some x ->
  (exists ns, t = ns ++ colons ++ x) /\ forall pre post, x <> pre ++ colons ++ post.
Proof.
  revert x. induction t as [|c t IH]; intros x H; cbn in H; [discriminate|].
  destruct (after_last_colons t) as [y|] eqn:E1.
  - injection H as <-. destruct (IH y eq_refl) as ((ns & ->) & B). split; auto.
    now exists (c :: ns).
  - destruct t as [|d t]; [discriminate|].
    destruct ((c =? 58)%N && (d =? 58)%N) eqn:E2; [|discriminate].
    injection H as ->. apply andb_prop in E2. destruct E2 as (A & B).
    apply N.eqb_eq in A. apply N.eqb_eq in B. subst. split.
    + now exists [].
    + intros pre post E. apply (after_last_none _ E1 (58%N :: pre) post). now rewrite E.
Qed.

Lemma fun_name_unqualified callee : unqualified callee (fun_name callee).
Proof.
  unfold fun_name, unqualified. destruct (after_last_colons callee) as [x|] eqn:E.
  - destruct (after_last_some _ _ E) as (A & B). split; auto.
  - split; auto. exact (after_last_none _ E).
Qed.

Lemma classify_never stopping cs callee :
  respects stopping cs -> classify stopping callee <> KOther -> ~ cs callee Normal.
Proof.
  intros Hr Hc. apply (Hr callee (fun_name callee) (fun_name_unqualified callee)).
  unfold classify in Hc.
  destruct (teqb (fun_name callee) (lit "return")) eqn:E1.
  { apply teqb_eq in E1. rewrite E1. now left. }
  destruct (teqb (fun_name callee) (lit "break")) eqn:E2.
  { apply teqb_eq in E2. rewrite E2. right. now left. }
  destruct (teqb (fun_name callee) (lit "next")) eqn:E3.
  { apply teqb_eq in E3. rewrite E3. right. right. now left. }
  destruct (mem (fun_name callee) stopping) eqn:E4; [|congruence].
  apply mem_iff in E4. apply in_or_app. now right.
Qed.

(** ** The static over-approximation *)
Definition is_other (k : call_class) : bool := match k with KOther => true | _ => false end.

Section Static.
Variable stopping : list text.

Fixpoint mayend (s : stmt) : bool :=
  match s with
  | Simple _ => true
  | Call _ f => is_other (classify stopping f)
  | Break _ | Next _ => false
  | Return _ => true
  | Block _ l => forallb mayend l
  | If _ c t e =>
      (negb (is_false (const_cond c)) && mayend t) ||
      (negb (is_true (const_cond c)) && match e with Some e => mayend e | None => true end)
  | For _ _ | While _ _ _ | Repeat _ _ => true
  end.

Inductive starts : stmt -> stmt -> Prop :=
| starts_self s : starts s s
| starts_block r pre s post n :
    forallb mayend pre = true -> starts s n -> starts (Block r (pre ++ s :: post)) n
| starts_then r c t e n :
    is_false (const_cond c) = false -> starts t n -> starts (If r c t e) n
| starts_else r c t e n :
    is_true (const_cond c) = false -> starts e n -> starts (If r c t (Some e)) n
| starts_for r b n : starts b n -> starts (For r b) n
| starts_while r c b n : starts b n -> starts (While r c b) n
| starts_repeat r b n : starts b n -> starts (Repeat r b) n.

Definition startsl (l : list stmt) (n : stmt) : Prop :=
  exists pre s post, l = pre ++ s :: post /\ forallb mayend pre = true /\ starts s n.

Lemma startsl_nil n : ~ startsl [] n.
Proof. intros (pre & s & post & E & _). destruct pre; discriminate. Qed.

Lemma startsl_cons s l n : startsl (s :: l) n <-> starts s n \/ (mayend s = true /\ startsl l n).
Proof.
  split.
  - intros (pre & x & post & E & Hp & Hs). destruct pre as [|p pre].
    + injection E as <- _. now left.
    + cbn in E. injection E as <- ->. cbn in Hp. apply andb_prop in Hp. destruct Hp.
      right. split; auto. now exists pre, x, post.
  - intros [H|(H & pre & x & post & -> & Hp & Hs)].
    + now exists [], s, l.
    + exists (s :: pre), x, post. repeat split; auto. cbn. now rewrite H.
Qed.

Lemma starts_block_iff r l n : starts (Block r l) n <-> n = Block r l \/ startsl l n.
Proof.
  split.
  - intros H. inversion H; subst; auto. right. now exists pre, s, post.
  - intros [->|(pre & s & post & -> & Hp & Hs)]; [constructor|]. now constructor.
Qed.

(** What may still start when the current statement has ended with [o]. *)
Definition is_loop (s : stmt) : bool :=
  match s with For _ _ | While _ _ _ | Repeat _ _ => true | _ => false end.

Fixpoint kst (o : outcome) (k : list frame) (n : stmt) : Prop :=
  match k with
  | [] => False
  | FSeq l :: k =>
      match o with
      | Normal => startsl l n \/ (forallb mayend l = true /\ kst Normal k n) \/
                  kst Brk k n \/ kst Nxt k n
      | _ => kst o k n
      end
  | FLoop s :: k =>
      match o with
      | Leave => kst Leave k n
      | _ => starts s n \/ kst Normal k n \/ kst Brk k n \/ kst Nxt k n
      end
  end.

Definition runst (s : stmt) (k : list frame) (n : stmt) : Prop :=
  starts s n \/ (mayend s = true /\ kst Normal k n) \/ kst Brk k n \/ kst Nxt k n.

Definition sst (st : state) (n : stmt) : Prop :=
  match st with Run s k => runst s k n | Ended o k => kst o k n end.

Definition kok (k : list frame) : Prop :=
  forall s, In (FLoop s) k -> is_loop s = true.
Definition sok (st : state) : Prop := match st with Run _ k | Ended _ k => kok k end.

Lemma kst_leave k n : ~ kst Leave k n.
Proof. induction k as [|[l|s] k IH]; cbn; auto. Qed.

Lemma loop_mayend s : is_loop s = true -> mayend s = true.
Proof. destruct s; cbn; congruence. Qed.

Lemma step_ok cs a b : step cs a b -> sok a -> sok b.
Proof.
  intros H Hk; destruct H; cbn in *; auto; unfold kok in *;
    intros x Hx; cbn in Hx; try (destruct Hx as [Hx|Hx]); try discriminate;
    try (injection Hx as <-; reflexivity); auto using in_cons; apply Hk; cbn; auto.
Qed.

Lemma kst_ended_runst s k n o :
  (o = Normal -> mayend s = true) -> kst o k n -> runst s k n.
Proof.
  intros H Hk. unfold runst. destruct o; auto. now apply kst_leave in Hk.
Qed.

Variable cs : call_sem.
Hypothesis Hcs : respects stopping cs.

Lemma step_back a b n : step cs a b -> sok a -> sst b n -> sst a n.
Proof.
  intros H Hok; destruct H; cbn [sst] in *; intros Hn.
  - apply (kst_ended_runst _ _ _ o); auto.
  - apply (kst_ended_runst _ _ _ o); auto. intros ->. cbn.
    destruct (classify stopping f) eqn:E; auto;
      exfalso; apply (classify_never stopping cs f Hcs); auto; congruence.
  - apply (kst_ended_runst _ _ _ Brk); auto; discriminate.
  - apply (kst_ended_runst _ _ _ Nxt); auto; discriminate.
  - apply (kst_ended_runst _ _ _ Normal); auto.
  - cbn [kst] in Hn. unfold runst. cbn [mayend].
    destruct Hn as [Hn|Hn]; auto. left. apply starts_block_iff. now right.
  - unfold runst in *. destruct Hn as [Hn|[(Hm & Hn)|Hn]]; auto.
    + left. constructor; auto. now apply ceval_T_not_false.
    + right. left. split; auto. cbn. rewrite Hm, ceval_T_not_false by auto. reflexivity.
  - unfold runst in *. destruct Hn as [Hn|[(Hm & Hn)|Hn]]; auto.
    + left. apply starts_else; auto. now apply ceval_F_not_true.
    + right. left. split; auto. cbn. rewrite Hm, ceval_F_not_true by auto. cbn.
      apply Bool.orb_true_r.
  - apply (kst_ended_runst _ _ _ Normal); auto. intros _. cbn.
    rewrite ceval_F_not_true by auto. apply Bool.orb_true_r.
  - apply (kst_ended_runst _ _ _ o); auto; congruence.
  - unfold runst in *. cbn [kst] in Hn. cbn [mayend].
    destruct Hn as [Hn|[(_ & [Hn|Hn])|[[Hn|Hn]|[Hn|Hn]]]]; auto; try tauto.
    left. now constructor.
  - apply (kst_ended_runst _ _ _ o); auto.
  - unfold runst in *. cbn [kst] in Hn. cbn [mayend].
    destruct Hn as [Hn|[(_ & [Hn|Hn])|[[Hn|Hn]|[Hn|Hn]]]]; auto; try tauto.
    left. now constructor.
  - apply (kst_ended_runst _ _ _ Normal); auto.
  - apply (kst_ended_runst _ _ _ o); auto; congruence.
  - unfold runst in *. cbn [kst] in Hn. cbn [mayend].
    destruct Hn as [Hn|[(_ & [Hn|Hn])|[[Hn|Hn]|[Hn|Hn]]]]; auto; try tauto.
    left. now constructor.
  - unfold runst in Hn. cbn [kst] in *. rewrite startsl_cons. cbn [forallb].
    destruct Hn as [Hn|[(Hm & Hn)|Hn]]; auto.
    rewrite Hm. cbn [andb]. tauto.
  - cbn [kst forallb]. right. left. auto.
  - destruct o; cbn [kst]; auto. congruence.
  - assert (L : mayend s = true).
    { apply loop_mayend. apply Hok. now left. }
    unfold runst in Hn. destruct H as [-> | ->]; cbn [kst]; tauto.
  - cbn [kst]. auto.
  - now apply kst_leave in Hn.
Qed.

Lemma steps_back a b n : steps cs a b -> sok a -> sst b n -> sst a n.
Proof.
  intros H Hok. assert (sok b /\ (sst b n -> sst a n)); [|tauto].
  induction H as [st|a b c H IH Hs]; auto.
  destruct (IH Hok) as (Hb & IH'). split.
  - now apply (step_ok cs b c).
  - intros Hn. apply IH'. now apply (step_back b c n).
Qed.

Lemma executed_starts body n : executed cs body n -> starts body n.
Proof.
  intros (k & H). assert (S : sst (Run body []) n).
  { apply (steps_back _ _ _ H).
    - intros s [].
    - left. constructor. }
  cbn in S. destruct S as [S|[(_ & [])|[[]|[]]]]; auto.
Qed.

Lemma executed_top_startsl l n : executed_top cs l n -> startsl l n.
Proof.
  intros (k & H). assert (S : sst (Ended Normal [FSeq l]) n).
  { apply (steps_back _ _ _ H).
    - intros s [E|[]]. discriminate.
    - left. constructor. }
  cbn in S. tauto.
Qed.
End Static.
