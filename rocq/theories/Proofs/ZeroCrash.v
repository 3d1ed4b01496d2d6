(** [jarl check --fix --select numeric_leading_zero] stopped at any moment, alone or among other files. *)
From Verif Require Import Spec.RDecimals Spec.RSearch Spec.FixSpec Spec.DriverSpec Proofs.TextProofs Proofs.FixProofs Proofs.DriverProofs Proofs.RParse Proofs.RSearchProofs Proofs.CommentProofs
  Proofs.WholeProofs Proofs.ExtensionProofs Proofs.FileProofs Proofs.FileRefute Proofs.PassProofs Proofs.ZeroSearch Proofs.ZeroFix Proofs.ZeroRun.

Definition became (t t' : text) : Prop := harmless_text decimals t t' /\ zeros_added t t'.
Lemma became_refl : forall t q, reads_text t q -> became t t.
Proof. intros t q R. split; [exists q, q; split; [exact R|]; split; [exact R|intros I H s; reflexivity]|apply added_refl]. Qed.
Lemma became_trans : forall a b c, became a b -> became b c -> became a c.
Proof. intros a b c [H1 A1] [H2 A2]. split; [exact (harmless_trans _ _ _ _ H1 H2)|exact (added_trans _ _ A2 _ A1)]. Qed.

(** A state the job can be in, when the file was [t] at the start. *)
Definition on_the_way (t : text) (p : path) (fs : fsys) (j : jstate) : Prop :=
  exists c q, fs p = Some c /\ reads_text c q /\ became t c /\
  match j with
  | JRead sk => sk = false -> in_program Z q = 0
  | JWrite sk out => exists q', reads_text out q' /\ became t out /\ (sk = false -> in_program Z q' = 0)
  | JDone o => o = Ok [] /\ in_program Z q = 0
  end.
Section Steps.
Variable u : rule_fn.
Notation lint := (fun (_ : path) t => get_checks c_zero o0 u t).
Notation writable := (fun _ : path => true).
Lemma step_on_the_way : forall t p fs j fs' j', on_the_way t p fs j -> jstep lint writable p fs j = (fs', j') -> on_the_way t p fs' j'.
Proof.
  intros t p fs j fs' j' (c & q & F & R & B & M) E. destruct j as [sk|sk out|o]; cbn [jstep] in E.
  - rewrite F in E. destruct sk.
    + destruct (zero_pass u c q R) as (ds & sk & t1 & q1 & G & A & R1 & Sb & Last & _ & eds & Fz & Sp). rewrite G, A in E. injection E as <- <-.
      exists c, q. split; [exact F|]. split; [exact R|]. split; [exact B|]. exists q1. split; [exact R1|]. split; [|exact Last].
      apply (became_trans _ c); [exact B|]. split; [exists q, q1; auto|exact (splice_added _ _ _ _ Sp [] c eds eq_refl eq_refl eq_refl Fz)].
    + rewrite (no_more u c q R (M eq_refl)) in E. injection E as <- <-. exists c, q. split; [exact F|]. split; [exact R|]. split; [exact B|]. split; [reflexivity|exact (M eq_refl)].
  - injection E as <- <-. destruct M as (q' & R' & B' & L). exists out, q'. split; [apply upd_same|]. auto.
  - injection E as <- <-. exists c, q. auto.
Qed.
Lemma run_on_the_way : forall n t p fs j fs' j', on_the_way t p fs j -> jrun lint writable n p fs j = (fs', j') -> on_the_way t p fs' j'.
Proof.
  induction n as [|n IH]; intros t p fs j fs' j' H E; cbn [jrun] in E; [injection E as <- <-; exact H|].
  destruct (jstep lint writable p fs j) as [fs1 j1] eqn:S. exact (IH _ _ _ _ _ _ (step_on_the_way _ _ _ _ _ _ H S) E).
Qed.
Lemma run_elsewhere : forall n p fs j fs' j', jrun lint writable n p fs j = (fs', j') -> same_except p fs fs'.
Proof.
  induction n as [|n IH]; intros p fs j fs' j' E; cbn [jrun] in E; [injection E as <- <-; intros z _; reflexivity|].
  destruct (jstep lint writable p fs j) as [fs1 j1] eqn:S. intros z Hz. rewrite (IH _ _ _ _ _ E z Hz). exact (jstep_frame _ _ _ _ _ _ _ S z Hz).
Qed.
Lemma at_the_start : forall t p fs, readable t -> fs p = Some t -> on_the_way t p fs (JRead true).
Proof. intros t p fs [q R] F. exists t, q. split; [exact F|]. split; [exact R|]. split; [exact (became_refl _ _ R)|discriminate]. Qed.
Lemma starts_reading : forall p fs, ~ document_path p -> check_path_start lint (fixing_mode c_zero) p fs = JRead true.
Proof.
  intros p fs Nd. assert (E : has_rmd_extension p = false) by (destruct (has_rmd_extension p) eqn:X; [exfalso; apply Nd, has_rmd_iff, X|reflexivity]).
  unfold check_path_start. assert (Fx : fixing_mode c_zero = true) by reflexivity. rewrite Fx, E. reflexivity.
Qed.
End Steps.

Theorem zero_interrupted : forall c o u n p fs t fs' r,
  run_with (lit "numeric_leading_zero") c o -> ~ document_path p -> fs p = Some t -> readable t ->
  jarl_check c o u n p fs = (fs', r) ->
  (r = None \/ r = Some (Ok [])) /\ same_except p fs fs' /\
  exists t', fs' p = Some t' /\ harmless_text decimals t t' /\ zeros_added t t'.
Proof.
  intros c o u n p fs t fs' r Rw Nd F Rd E. destruct (run_zero _ _ Rw) as [-> ->]. unfold jarl_check, check_path in E. rewrite (starts_reading u p fs Nd) in E.
  destruct (jrun _ _ n p fs (JRead true)) as [f1 j1] eqn:J. pose proof (run_elsewhere _ _ _ _ _ _ _ J) as Sm.
  destruct (run_on_the_way _ _ _ _ _ _ _ _ (at_the_start _ _ _ Rd F) J) as (d & q & F1 & _ & [H1 H2] & M).
  destruct j1 as [sk|sk out|x]; injection E as <- <-; (split; [|split; [exact Sm|exists d; auto]]); auto.
  destruct M as [-> _]. auto.
Qed.
Theorem zero_several : forall c o u sched fs ps fs' js',
  run_with (lit "numeric_leading_zero") c o -> NoDup ps ->
  (forall p, In p ps -> ~ document_path p /\ exists t, fs p = Some t /\ readable t) ->
  sys_run (fun _ t => get_checks c o u t) (fun _ => true) (fixing_mode c) sched fs (map (fun p => (p, None)) ps) = (fs', js') ->
  (forall q, ~ In q ps -> fs' q = fs q) /\
  (forall p t, In p ps -> fs p = Some t -> exists t', fs' p = Some t' /\ harmless_text decimals t t' /\ zeros_added t t') /\
  (forall p x, In (p, Some (JDone x)) js' -> x = Ok []).
Proof.
  intros c o u sched fs ps fs' js' Rw Nd H E. destruct (run_zero _ _ Rw) as [-> ->].
  assert (Hm : map fst (map (fun p : path => (p, @None jstate)) ps) = ps) by (rewrite map_map; cbn; apply map_id).
  destruct (sys_run_inv (fun _ t => get_checks c_zero o0 u t) (fun _ => true) (fixing_mode c_zero) fs sched fs (map (fun p => (p, None)) ps) fs' js') as (A & B & C); [rewrite Hm; exact Nd| |exact E|].
  { apply Forall_forall. intros x Hx. apply in_map_iff in Hx. destruct Hx as (p & <- & _). reflexivity. }
  rewrite Hm in *. rewrite Forall_forall in A.
  assert (W : forall p j, In (p, Some j) js' -> forall t, fs p = Some t -> on_the_way t p fs' j).
  { intros p j I t F. pose proof (A _ I) as (n & fsn & J & K). assert (Ip : In p ps) by (rewrite <- B; apply (in_map fst _ _ I)).
    destruct (H p Ip) as [Np (t0 & F0 & Rd)]. assert (t0 = t) by congruence. subst t0. rewrite (starts_reading u p fs Np) in J.
    pose proof (run_on_the_way _ _ _ _ _ _ _ _ (at_the_start _ _ _ Rd F) J) as Ow. destruct Ow as (d & q & F1 & Rest). exists d, q. rewrite K. auto. }
  split; [exact C|]. split.
  - intros p t Ip F. rewrite <- B in Ip. apply in_map_iff in Ip. destruct Ip as ([p' j] & Ep & I). cbn in Ep. subst p'. destruct j as [j|].
    + destruct (W p j I t F) as (d & q & F1 & _ & [H1 H2] & _). exists d. auto.
    + pose proof (A _ I) as K. cbn in K. exists t. rewrite K. split; [exact F|]. assert (Ip : In p ps) by (rewrite <- B; apply (in_map fst _ _ I)).
      destruct (H p Ip) as [_ (t0 & F0 & [q Rd])]. assert (t0 = t) by congruence. subst t0. exact (became_refl _ _ Rd).
  - intros p x I. assert (Ip : In p ps) by (rewrite <- B; apply (in_map fst _ _ I)). destruct (H p Ip) as [_ (t & F & _)]. destruct (W p _ I t F) as (d & q & _ & _ & _ & M & _). exact M.
Qed.
Theorem zero_again : forall c o u n m p fs fs' fs'' r, run_with (lit "numeric_leading_zero") c o ->
  jarl_check c o u n p fs = (fs', Some (Ok [])) -> jarl_check c o u m p fs' = (fs'', r) -> forall q, fs'' q = fs' q.
Proof.
  intros c o u n m p fs fs' fs'' r Rw H J. apply (again_same c o u n m p fs fs' fs'' [] r); [|exact H|constructor|exact J].
  destruct (run_zero _ _ Rw) as [-> _]. reflexivity.
Qed.
