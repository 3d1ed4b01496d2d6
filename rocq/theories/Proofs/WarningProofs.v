From Verif Require Import Model.Text Model.Base Model.Rules Model.Cli Model.Output Model.Warnings.
From Verif Require Import Spec.OutputSpec Spec.WarningSpec Proofs.TextProofs Proofs.RulesProofs Proofs.CliReport.

Lemma set_insert_in n s m : In m (set_insert n s) <-> m = n \/ In m s.
Proof.
  induction s as [|x r IH]; cbn [set_insert In]; [intuition|].
  destruct (tcmp n x) eqn:E; cbn [In].
  - apply tcmp_eq in E. subst x. intuition.
  - intuition.
  - rewrite IH. intuition.
Qed.
Lemma fold_insert_in l : forall s m, In m (fold_left (fun s n => set_insert n s) l s) <-> In m l \/ In m s.
Proof.
  induction l as [|x l IH]; intros s m; cbn [fold_left In]; [intuition|].
  rewrite IH, set_insert_in. intuition.
Qed.
(** Strictly increasing. *)
Fixpoint above_all (m : text) (s : list text) : Prop :=
  match s with [] => True | x :: r => tcmp m x = Lt /\ above_all x r end.
Definition increasing (s : list text) : Prop := match s with [] => True | x :: r => above_all x r end.
Lemma above_all_weaken m x s : tcmp m x = Lt -> above_all x s -> above_all m s.
Proof. destruct s as [|y s]; cbn; auto. intros H (A & B). split; auto. eapply tcmp_trans; eauto. Qed.
Lemma insert_above m n s : tcmp m n = Lt -> above_all m s -> above_all m (set_insert n s).
Proof.
  revert m. induction s as [|x r IH]; intros m L A; cbn in *; auto.
  destruct A as (A & B). destruct (tcmp n x) eqn:E; cbn.
  - auto.
  - auto.
  - split; auto. apply IH; auto. rewrite tcmp_anti, E. reflexivity.
Qed.
Lemma insert_increasing n s : increasing s -> increasing (set_insert n s).
Proof.
  destruct s as [|x r]; cbn; auto. intros A. destruct (tcmp n x) eqn:E; cbn; auto.
  apply insert_above; auto. rewrite tcmp_anti, E. reflexivity.
Qed.
Lemma above_notin m s : above_all m s -> ~ In m s.
Proof.
  revert m. induction s as [|x r IH]; intros m A I; auto. cbn in A. destruct A as (A & B). destruct I as [->|I].
  - rewrite tcmp_refl in A. discriminate.
  - apply (IH m); auto. eapply above_all_weaken; eauto.
Qed.
Lemma increasing_nodup s : increasing s -> NoDup s.
Proof.
  destruct s as [|x r]; [constructor|]. cbn. revert x. induction r as [|y r IH]; intros x A.
  - constructor; auto. constructor.
  - constructor; [now apply above_notin|]. apply IH. now destruct A.
Qed.
Lemma explicit_nodup a items : NoDup (explicit_names a items).
Proof.
  apply increasing_nodup. unfold explicit_names. generalize (given_names a items). intros l.
  assert (G : forall s, increasing s -> increasing (fold_left (fun s n => set_insert n s) l s)).
  { induction l as [|x l IH]; intros s I; cbn [fold_left]; auto. apply IH. now apply insert_increasing. }
  apply G. exact Logic.I.
Qed.
Lemma split_names t n : n <> [] -> In n (filter (fun n => match n with [] => false | _ => true end) (map trim (split_on 44%N t))) <-> among t n.
Proof.
  intros N. rewrite filter_In, in_map_iff. unfold among. split.
  - intros ((e & E & I) & _). eauto.
  - intros (e & I & E). split; [eauto|]. destruct n; auto; now elim N.
Qed.
Lemma or_nil_in o n : In n (or_nil o) <-> within o n.
Proof.
  unfold within. destruct o as [l|]; cbn; split; try tauto.
  - eauto. - now intros (l' & [= ->] & I). - now intros (l' & E & _).
Qed.
Lemma explicit_in a items n : n <> [] -> In n (explicit_names a items) <-> mentioned a items n.
Proof.
  intros N. unfold explicit_names. rewrite fold_insert_in. unfold given_names. rewrite in_app_iff.
  cbn [flat_map]. rewrite !in_app_iff, !(split_names _ n N), in_flat_map. unfold mentioned.
  assert (G : forall i, In n (flat_map or_nil [ws_select i; ws_extend i; ws_ignore i]) <->
                        within (ws_select i) n \/ within (ws_extend i) n \/ within (ws_ignore i) n).
  { intros i. cbn [flat_map]. rewrite !in_app_iff, !or_nil_in. cbn [In]. tauto. }
  setoid_rewrite G. cbn [In]. tauto.
Qed.
Lemma deprecated_is n w : In w (deprecated_warning n) <-> n = lit "browser" /\ w = browser_text.
Proof.
  unfold deprecated_warning. destruct (from_name n) as [r|] eqn:F.
  - apply from_name_iff in F. subst n. destruct r; cbn [rule_deprecation];
      try (split; [intros []|intros (E & _); exfalso; revert E; vm_compute; discriminate]).
    cbn [In]. change (deprecated_line (rule_name R_Browser) (lit "0.5.0") (lit "undesirable_function")) with browser_text.
    split; [intros [<-|[]]; split; reflexivity|intros (_ & ->); now left].
  - split; [intros []|]. intros (-> & _). vm_compute in F. discriminate.
Qed.
Lemma deprecated_in a items w : In w (flat_map deprecated_warning (explicit_names a items)) <-> w = browser_text /\ mentioned a items (lit "browser").
Proof.
  rewrite in_flat_map. split.
  - intros (n & I & W). apply deprecated_is in W. destruct W as (-> & ->). split; auto. apply explicit_in in I; auto. vm_compute. discriminate.
  - intros (-> & M). exists (lit "browser"). split; [apply explicit_in; auto; vm_compute; discriminate|]. now apply deprecated_is.
Qed.
Lemma warnings_in a hidden items w : In w (warnings a hidden items) <->
  (w = option_text /\ wa_assignment a = true) \/
  (exists n, hidden = Some n /\ w = hidden_warning n) \/
  (w = field_text /\ exists i, In i items /\ ws_legacy i = true) \/
  (w = browser_text /\ mentioned a items (lit "browser")).
Proof.
  unfold warnings. rewrite !in_app_iff, deprecated_in, in_flat_map.
  assert (A : In w (if wa_assignment a then [assignment_option] else []) <-> w = option_text /\ wa_assignment a = true).
  { destruct (wa_assignment a); cbn [In]; split; try tauto; [intros [<-|[]]|intros (-> & _); left|intros (_ & E); discriminate]; auto. }
  assert (B : In w (match hidden with Some n => [hidden_warning n] | None => [] end) <-> exists n, hidden = Some n /\ w = hidden_warning n).
  { destruct hidden as [n|]; cbn [In]; split; try tauto; [intros [<-|[]]; eauto|intros (m & [= <-] & ->); auto|intros (m & E & _); discriminate]. }
  assert (C : (exists i, In i items /\ In w (if ws_legacy i then [assignment_field] else [])) <-> w = field_text /\ exists i, In i items /\ ws_legacy i = true).
  { split.
    - intros (i & I & W). destruct (ws_legacy i) eqn:E; [|destruct W]. destruct W as [<-|[]]. split; [reflexivity|eauto].
    - intros (-> & i & I & E). exists i. rewrite E. split; auto. now left. }
  rewrite A, B, C. tauto.
Qed.
(** The text of a rule is printed at most once. *)
Lemma deprecated_once a items : length (flat_map deprecated_warning (explicit_names a items)) <= 1.
Proof.
  generalize (explicit_nodup a items). generalize (explicit_names a items). intros l N.
  assert (G : forall l, ~ In (lit "browser") l -> flat_map deprecated_warning l = []).
  { clear. intros l H. destruct (flat_map deprecated_warning l) as [|w r] eqn:E; auto. exfalso.
    assert (I : In w (flat_map deprecated_warning l)) by (rewrite E; now left).
    apply in_flat_map in I. destruct I as (n & I & W). apply deprecated_is in W. destruct W as (-> & _). auto. }
  induction N as [|x l X N IH]; cbn [flat_map]; auto.
  rewrite app_length. destruct (deprecated_warning x) as [|w r] eqn:E; [cbn; auto|].
  assert (W : In w (deprecated_warning x)) by (rewrite E; now left). apply deprecated_is in W. destruct W as (-> & _).
  rewrite (G l X). revert E. vm_compute (deprecated_warning (lit "browser")). intros E.
  assert (L : length (w :: r) = 1) by (rewrite <- E; reflexivity). rewrite L. cbn. auto.
Qed.
Lemma printed_none ws : print_warnings ws = [] <-> ws = [].
Proof. destruct ws; cbn; split; auto; discriminate. Qed.
