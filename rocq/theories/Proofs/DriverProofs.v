From Verif Require Import Model.Text Model.Fix Model.Driver Spec.FixSpec Spec.DriverSpec
  Proofs.TextProofs Proofs.FixProofs.

Lemma upd_same fs p c : upd fs p c p = Some c.
Proof. unfold upd. now rewrite teqb_refl. Qed.
Lemma upd_other fs p c q : q <> p -> upd fs p c q = fs q.
Proof. unfold upd. intros H. apply teqb_neq in H. now rewrite H. Qed.

Section D.
Variable lint : path -> text -> option (list diag).
Variable writable : path -> bool.
Notation jstep := (jstep lint writable).
Notation jrun := (jrun lint writable).

Lemma jrun_done n p fs o : jrun n p fs (JDone o) = (fs, JDone o).
Proof. induction n; cbn; auto. Qed.

Lemma jstep_frame p fs j fs' j' : jstep p fs j = (fs', j') -> same_except p fs fs'.
Proof.
  unfold same_except, Driver.jstep. intros H q Hq. destruct j as [sk|sk out|o].
  - destruct (fs p); [|injection H as <- _; auto]. destruct (lint p t); [|injection H as <- _; auto].
    destruct sk; [|injection H as <- _; auto].
    destruct (apply_fixes _ _) as [[? ?]|]; injection H as <- _; auto.
  - destruct (writable p); injection H as <- _; auto. now apply upd_other.
  - injection H as <- _; auto.
Qed.
Lemma jrun_frame n p : forall fs j fs' j', jrun n p fs j = (fs', j') -> same_except p fs fs'.
Proof.
  induction n as [|n IH]; cbn; intros fs j fs' j' H.
  - injection H as <- _. intros q _; auto.
  - destruct (jstep p fs j) as [fs1 j1] eqn:E. apply jstep_frame in E. apply IH in H.
    intros q Hq. rewrite H, E; auto.
Qed.

(** After the first pass with skipped = [sk]. *)
Lemma jrun_write_ok n : forall p fs sk out fs' ds,
  jrun n p fs (JWrite sk out) = (fs', JDone (Ok ds)) ->
  exists c, fs' p = Some c /\ lint p c = Some ds /\
    (if sk then passes lint p out c else c = out).
Proof.
  induction n as [n IH] using lt_wf_ind. intros p fs sk out fs' ds H.
  destruct n as [|n]; [discriminate|]. cbn in H.
  destruct (writable p).
  2: { rewrite jrun_done in H. discriminate. }
  destruct n as [|n]; [discriminate|]. cbn in H. rewrite upd_same in H.
  destruct (lint p out) as [ds1|] eqn:El; [|rewrite jrun_done in H; discriminate].
  destruct sk.
  - destruct (apply_fixes _ _) as [[sk' out']|] eqn:Ea; [|rewrite jrun_done in H; discriminate].
    apply IH in H as (c & H1 & H2 & H3); [|lia].
    exists c. repeat split; auto. destruct sk'.
    + eapply passes_more; [|exact H3]. exists ds1; auto.
    + subst. apply passes_last. exists ds1; auto.
  - rewrite jrun_done in H. injection H as <- <-. exists out. rewrite upd_same. auto.
Qed.

Lemma fix_ok n fixing p fs fs' ds :
  check_path lint writable n fixing p fs = (fs', Some (Ok ds)) ->
  same_except p fs fs' /\
  exists c0 c, fs p = Some c0 /\ fs' p = Some c /\ lint p c = Some ds /\
    (if fixing && negb (has_rmd_extension p) then passes lint p c0 c else c = c0).
Proof.
  unfold check_path. destruct (jrun _ _ _ _) as [fs1 j] eqn:E.
  destruct j as [| |o]; try discriminate. intros [= -> ->].
  split; [eapply jrun_frame; eauto|].
  unfold check_path_start in E.
  assert (HD : forall fs1 o1, jrun n p fs (JDone (lint_only lint fs p)) = (fs1, JDone o1) ->
               o1 = Ok ds -> exists c0, fs p = Some c0 /\ fs1 p = Some c0 /\ lint p c0 = Some ds).
  { intros f1 o1 H Ho. rewrite jrun_done in H. injection H as <- H. rewrite Ho in H.
    unfold lint_only in H. destruct (fs p) as [c|]; [|discriminate].
    destruct (lint p c) as [d|] eqn:El; [|discriminate]. injection H as ->. eauto. }
  destruct fixing; cbn [andb].
  - destruct (has_rmd_extension p); cbn [negb].
    + destruct (HD _ _ E eq_refl) as (c0 & H1 & H2 & H3). exists c0, c0; auto.
    + destruct n as [|n]; [discriminate|]. cbn in E.
      destruct (fs p) as [c0|] eqn:Ep; [|rewrite jrun_done in E; discriminate].
      destruct (lint p c0) as [ds1|] eqn:El; [|rewrite jrun_done in E; discriminate].
      destruct (apply_fixes _ _) as [[sk out]|] eqn:Ea; [|rewrite jrun_done in E; discriminate].
      apply jrun_write_ok in E as (c & H1 & H2 & H3).
      exists c0, c. repeat split; auto. destruct sk.
      * eapply passes_more; [exists ds1; eauto|auto].
      * subst. apply passes_last. exists ds1; auto.
  - destruct (HD _ _ E eq_refl) as (c0 & H1 & H2 & H3). exists c0, c0; auto.
Qed.

(** Whatever the outcome, only [p] can change; Rmd files and lint-only runs change nothing. *)
Lemma check_path_frame n fixing p fs fs' o :
  check_path lint writable n fixing p fs = (fs', o) -> same_except p fs fs'.
Proof.
  unfold check_path. destruct (jrun _ _ _ _) as [fs1 j] eqn:E. apply jrun_frame in E.
  intros H. destruct j; injection H as <- _; auto.
Qed.
Lemma check_path_readonly n fixing p fs fs' o :
  fixing && negb (has_rmd_extension p) = false ->
  check_path lint writable n fixing p fs = (fs', o) -> same_fs fs fs' /\ o = Some (lint_only lint fs p).
Proof.
  intros Hf. unfold check_path, check_path_start.
  destruct fixing; cbn in Hf.
  - destruct (has_rmd_extension p); [|discriminate]. rewrite jrun_done.
    intros [= <- <-]. split; [intros q|]; auto.
  - rewrite jrun_done. intros [= <- <-]. split; [intros q|]; auto.
Qed.

(** Files without any fix. *)
Lemma check_path_nofix n p fs fs' o c ds :
  fs p = Some c -> lint p c = Some ds -> real_fixes (map d_fix ds) = [] ->
  check_path lint writable n true p fs = (fs', o) ->
  same_fs fs fs' /\ (3 <= n -> writable p = true -> o = Some (Ok ds)).
Proof.
  intros Hp Hl Hr. unfold check_path, check_path_start.
  destruct (has_rmd_extension p).
  { rewrite jrun_done. unfold lint_only. rewrite Hp, Hl.
    intros [= <- <-]. split; [intros q|]; auto. }
  destruct n as [|n].
  { cbn. intros [= <- <-]. split; [intros q; auto|lia]. }
  cbn. rewrite Hp, Hl, apply_fixes_empty by auto.
  destruct n as [|n].
  { cbn. intros [= <- <-]. split; [intros q; auto|lia]. }
  cbn. destruct (writable p) eqn:Hw.
  2: { rewrite jrun_done. intros [= <- <-]. split; [intros q; auto|discriminate]. }
  assert (HU : same_fs fs (upd fs p c)).
  { intros q. unfold upd. destruct (teqb q p) eqn:E; [|auto]. apply teqb_eq in E. congruence. }
  destruct n as [|n].
  { cbn. intros [= <- <-]. split; [auto|lia]. }
  cbn. rewrite upd_same, Hl, jrun_done. intros [= <- <-]. auto.
Qed.

(** Termination when passes that skip something decrease a measure. *)
Lemma jrun_S_write n p fs sk c :
  jrun (S n) p fs (JWrite sk c) =
  if writable p then jrun n p (upd fs p c) (JRead sk) else (fs, JDone (Err EWrite)).
Proof. cbn. destruct (writable p); [reflexivity|apply jrun_done]. Qed.
Lemma jrun_S_read n p fs sk c :
  fs p = Some c ->
  jrun (S n) p fs (JRead sk) =
  match lint p c with
  | None => (fs, JDone (Err ELint))
  | Some ds => if sk then match apply_fixes (map d_fix ds) c with
                          | None => (fs, JDone Panic)
                          | Some (sk', out) => jrun n p fs (JWrite sk' out)
                          end
               else (fs, JDone (Ok ds))
  end.
Proof.
  intros H. cbn. rewrite H. destruct (lint p c); [|apply jrun_done].
  destruct sk; [|apply jrun_done]. destruct (apply_fixes _ _) as [[? ?]|]; [reflexivity|apply jrun_done].
Qed.
Lemma jrun_terminates (m : text -> nat) p :
  (forall c c', pass lint p c true c' -> m c' < m c) ->
  forall k c fs sk, m c <= k ->
  exists o fs', jrun (2 * k + 4) p fs (JWrite sk c) = (fs', JDone o).
Proof.
  intros Hm k. induction k as [|k IH]; intros c fs sk Hk.
  - change (2 * 0 + 4) with 4. rewrite jrun_S_write. destruct (writable p) eqn:W; [|eauto].
    rewrite (jrun_S_read _ _ _ _ c) by apply upd_same.
    destruct (lint p c) as [ds|] eqn:El; [|eauto]. destruct sk; [|eauto].
    destruct (apply_fixes _ _) as [[sk' c']|] eqn:Ea; [|eauto].
    destruct sk'. { exfalso. assert (m c' < m c) by (apply Hm; exists ds; auto). lia. }
    rewrite jrun_S_write, W. rewrite (jrun_S_read _ _ _ _ c') by apply upd_same.
    destruct (lint p c'); eauto.
  - replace (2 * S k + 4) with (S (S (2 * k + 4))) by lia.
    rewrite jrun_S_write. destruct (writable p) eqn:W; [|eauto].
    rewrite (jrun_S_read _ _ _ _ c) by apply upd_same.
    destruct (lint p c) as [ds|] eqn:El; [|eauto]. destruct sk; [|eauto].
    destruct (apply_fixes _ _) as [[sk' c']|] eqn:Ea; [|eauto].
    destruct sk'.
    + apply IH. assert (m c' < m c) by (apply Hm; exists ds; auto). lia.
    + replace (2 * k + 4) with (S (S (2 * k + 2))) by lia.
      rewrite jrun_S_write, W. rewrite (jrun_S_read _ _ _ _ c') by apply upd_same.
      destruct (lint p c'); eauto.
Qed.
Lemma check_path_terminates (m : text -> nat) p fs :
  (forall c c', pass lint p c true c' -> m c' < m c) ->
  exists n o fs', check_path lint writable n true p fs = (fs', Some o).
Proof.
  intros Hm. unfold check_path, check_path_start. destruct (has_rmd_extension p).
  { exists 0. cbn. eauto. }
  destruct (fs p) as [c|] eqn:Hp.
  2: { exists 1. cbn. rewrite Hp. eauto. }
  destruct (lint p c) as [ds|] eqn:El.
  2: { exists 1. cbn. rewrite Hp, El. eauto. }
  destruct (apply_fixes (map d_fix ds) c) as [[sk out]|] eqn:Ea.
  2: { exists 1. cbn. rewrite Hp, El, Ea. eauto. }
  exists (S (2 * m out + 4)). rewrite (jrun_S_read _ _ _ _ c Hp), El, Ea.
  destruct (jrun_terminates m p Hm (m out) out fs sk (le_n _)) as (o & fs' & H). exists o, fs'.
  rewrite H. reflexivity.
Qed.

(** ** Schedules. *)
Lemma jrun_snoc n p : forall fs j,
  jrun (S n) p fs j = let '(fs1, j1) := jrun n p fs j in jstep p fs1 j1.
Proof.
  induction n as [|n IH]; intros fs j.
  - cbn. destruct (jstep p fs j); auto.
  - cbn [Driver.jrun] in *. destruct (jstep p fs j) as [fs1 j1]. apply IH.
Qed.
Lemma jstep_local p fs1 fs2 j :
  fs1 p = fs2 p ->
  snd (jstep p fs1 j) = snd (jstep p fs2 j) /\ fst (jstep p fs1 j) p = fst (jstep p fs2 j) p.
Proof.
  intros H. unfold Driver.jstep. destruct j as [sk|sk out|o].
  - rewrite <- H. destruct (fs1 p) eqn:E; [|cbn; rewrite E; auto].
    destruct (lint p t); [|cbn; rewrite E; auto].
    destruct sk; [|cbn; rewrite E; auto].
    destruct (apply_fixes _ _) as [[? ?]|]; cbn; rewrite E; auto.
  - destruct (writable p); cbn; [|auto]. rewrite !upd_same. auto.
  - auto.
Qed.
Lemma start_local fixing p fs1 fs2 :
  fs1 p = fs2 p -> check_path_start lint fixing p fs1 = check_path_start lint fixing p fs2.
Proof.
  intros H. unfold check_path_start, lint_only. rewrite H. auto.
Qed.

(** State of job (p, j) compared with running it alone from the initial file system. *)
Definition alone (fixing : bool) (fs0 fs : fsys) (pj : path * option jstate) : Prop :=
  match pj with
  | (p, None) => fs p = fs0 p
  | (p, Some j) => exists n fsn,
      jrun n p fs0 (check_path_start lint fixing p fs0) = (fsn, j) /\ fs p = fsn p
  end.

Lemma alone_other fixing fs0 fs fs' pj :
  fs' (fst pj) = fs (fst pj) -> alone fixing fs0 fs pj -> alone fixing fs0 fs' pj.
Proof.
  intros Hs. destruct pj as [q [j|]]; cbn in *.
  - intros (n & fsn & H1 & H2). exists n, fsn. rewrite Hs; auto.
  - intros H. rewrite Hs; auto.
Qed.

Lemma sys_step_inv fixing fs0 i : forall fs js fs' js',
  NoDup (map fst js) ->
  Forall (alone fixing fs0 fs) js ->
  sys_step lint writable fixing i fs js = (fs', js') ->
  Forall (alone fixing fs0 fs') js' /\ map fst js' = map fst js /\
  (forall q, ~ In q (map fst js) -> fs' q = fs q).
Proof.
  induction i as [|i IH]; intros fs js fs' js' Hnd HF H; destruct js as [|[p j] r]; cbn in H.
  - injection H as <- <-; auto.
  - inversion HF as [|? ? Ha Har]; subst. inversion Hnd as [|? ? Hni Hndr]; subst.
    destruct j as [j|].
    + destruct (jstep p fs j) as [fs1 j1] eqn:E. injection H as <- <-.
      pose proof (jstep_frame _ _ _ _ _ E) as Hfr.
      repeat split.
      * constructor.
        { cbn in Ha. destruct Ha as (n & fsn & H1 & H2). cbn. exists (S n), (fst (jstep p fsn j)).
          rewrite jrun_snoc, H1. pose proof (jstep_local p fs fsn j H2) as [L1 L2].
          rewrite E in L1, L2. cbn in L1, L2. split; [|exact L2].
          rewrite L1. destruct (jstep p fsn j); auto. }
        { apply Forall_forall. intros x Hx. rewrite Forall_forall in Har.
          eapply alone_other; [|eauto]. apply Hfr. intros He. apply Hni. rewrite <- He. now apply in_map. }
      * intros q Hq. apply Hfr. cbn in Hq. intros ->; apply Hq; auto.
    + injection H as <- <-. repeat split; auto. constructor; [|auto].
      cbn in *. exists 0, fs0. cbn. rewrite (start_local fixing p fs fs0 Ha). auto.
  - injection H as <- <-; auto.
  - inversion HF as [|? ? Ha Har]; subst. inversion Hnd as [|? ? Hni Hndr]; subst.
    destruct (sys_step lint writable fixing i fs r) as [fs1 r1] eqn:E. injection H as <- <-.
    apply IH in E as (E1 & E2 & E3); auto. repeat split.
    + constructor; [|auto]. eapply alone_other; [|eauto]. cbn. apply E3. auto.
    + cbn. now rewrite E2.
    + intros q Hq. apply E3. intros Hi. apply Hq. cbn; auto.
Qed.

Lemma sys_run_inv fixing fs0 sched : forall fs js fs' js',
  NoDup (map fst js) ->
  Forall (alone fixing fs0 fs) js ->
  sys_run lint writable fixing sched fs js = (fs', js') ->
  Forall (alone fixing fs0 fs') js' /\ map fst js' = map fst js /\
  (forall q, ~ In q (map fst js) -> fs' q = fs q).
Proof.
  induction sched as [|i sched IH]; cbn; intros fs js fs' js' Hnd HF H.
  - injection H as <- <-; auto.
  - destruct (sys_step lint writable fixing i fs js) as [fs1 js1] eqn:E.
    apply (sys_step_inv fixing fs0) in E as (E1 & E2 & E3); auto.
    apply IH in H as (H1 & H2 & H3); auto.
    + repeat split; auto; [congruence|]. intros q Hq. rewrite H3 by congruence. auto.
    + now rewrite E2.
Qed.

Lemma schedule_independent fixing sched fs ps fs' js' :
  NoDup ps ->
  sys_run lint writable fixing sched fs (map (fun p => (p, None)) ps) = (fs', js') ->
  map fst js' = ps /\
  (forall q, ~ In q ps -> fs' q = fs q) /\
  (forall p o, In (p, Some (JDone o)) js' ->
     exists n fsp, check_path lint writable n fixing p fs = (fsp, Some o) /\ fs' p = fsp p).
Proof.
  intros Hnd H. set (js := map (fun p => (p, None)) ps) in *.
  assert (Hmap : map fst js = ps).
  { subst js. rewrite map_map. cbn. apply map_id. }
  assert (HF : Forall (alone fixing fs fs) js).
  { subst js. apply Forall_forall. intros x Hx. apply in_map_iff in Hx as (p & <- & _). reflexivity. }
  apply (sys_run_inv fixing fs) in H as (H1 & H2 & H3); [|now rewrite Hmap|auto].
  rewrite Hmap in *. repeat split; auto.
  intros p o Hin. rewrite Forall_forall in H1. apply H1 in Hin. cbn in Hin.
  destruct Hin as (n & fsn & Hr & Hf). exists n, fsn. unfold check_path. rewrite Hr. auto.
Qed.

(** The outcome of a file does not depend on the fuel. *)
Lemma jrun_more n p : forall fs j fs' o m,
  jrun n p fs j = (fs', JDone o) -> n <= m -> jrun m p fs j = (fs', JDone o).
Proof.
  induction n as [|n IH]; intros fs j fs' o m H Hm.
  - cbn in H. injection H as -> ->. apply jrun_done.
  - destruct m as [|m]; [lia|]. cbn in *. destruct (jstep p fs j) as [fs1 j1]. apply IH; auto. lia.
Qed.
Lemma check_path_det n m fixing p fs f1 f2 o1 o2 :
  check_path lint writable n fixing p fs = (f1, Some o1) ->
  check_path lint writable m fixing p fs = (f2, Some o2) -> o1 = o2 /\ f1 = f2.
Proof.
  unfold check_path.
  destruct (jrun n _ _ _) as [g1 j1] eqn:E1. destruct j1 as [| |p1]; try discriminate.
  destruct (jrun m _ _ _) as [g2 j2] eqn:E2. destruct j2 as [| |p2]; try discriminate.
  intros [= <- <-] [= <- <-].
  pose proof (jrun_more _ _ _ _ _ _ (n + m) E1 ltac:(lia)) as K1.
  pose proof (jrun_more _ _ _ _ _ _ (n + m) E2 ltac:(lia)) as K2.
  rewrite K1 in K2. injection K2 as <- <-. auto.
Qed.
End D.

(** ** The gate. *)
Section G.
Variable repo_of : path -> option path.
Variable dirty_files : fsys -> path -> option (list path).

Lemma all_dirty_nil fs repos :
  all_dirty dirty_files fs repos = Some [] <-> (forall r, In r repos -> dirty_files fs r = Some []).
Proof.
  induction repos as [|r rs IH]; cbn; [split; [intros _ ? []|auto]|].
  destruct (dirty_files fs r) as [d|] eqn:E.
  - destruct (all_dirty dirty_files fs rs) as [d'|].
    + split.
      * intros [= H]. apply app_eq_nil in H as [-> ->]. intros x [<-|Hx]; auto. now apply IH.
      * intros H. assert (d = []) as ->.
        { specialize (H r (or_introl eq_refl)). congruence. }
        cbn. apply IH. intros x Hx. auto.
    + split; [discriminate|]. intros H. apply IH. intros x Hx; auto.
  - split; [discriminate|]. intros H. specialize (H r (or_introl eq_refl)). congruence.
Qed.

Lemma gate_iff fl fs ps :
  check_version_control repo_of dirty_files fl fs ps = None <-> gate_open repo_of dirty_files fl fs ps.
Proof.
  unfold check_version_control, gate_open.
  destruct (allow_no_vcs fl); [split; auto|].
  destruct (existsb _ ps) eqn:Ex.
  - split; [discriminate|]. intros [H|[H _]]; [discriminate|].
    apply existsb_exists in Ex as (p & Hp & Hr). apply H in Hp as [r Hp]. rewrite Hp in Hr. discriminate.
  - assert (Hall : forall p, In p ps -> exists r, repo_of p = Some r).
    { intros p Hp. destruct (repo_of p) as [r|] eqn:E; [eauto|].
      assert (existsb (fun p => match repo_of p with None => true | Some _ => false end) ps = true) as K.
      { apply existsb_exists. exists p. now rewrite E. }
      rewrite K in Ex. discriminate. }
    destruct (allow_dirty fl); [split; auto|].
    set (repos := flat_map _ ps).
    assert (Hrep : forall r, In r repos <-> exists p, In p ps /\ repo_of p = Some r).
    { intros r. subst repos. rewrite in_flat_map. split.
      - intros (p & Hp & Hr). exists p. split; [auto|]. destruct (repo_of p); [|contradiction].
        destruct Hr as [<-|[]]; auto.
      - intros (p & Hp & Hr). exists p. rewrite Hr. split; [auto|]. left; auto. }
    destruct (all_dirty dirty_files fs repos) as [[|d ds]|] eqn:E.
    + split; [|auto]. intros _. right. split; [auto|]. right.
      intros p r Hp Hr. apply (proj1 (all_dirty_nil fs repos) E). apply Hrep; eauto.
    + split; [discriminate|]. intros [H|[_ [H|H]]]; try discriminate. exfalso.
      assert (all_dirty dirty_files fs repos = Some []) as K.
      { apply all_dirty_nil. intros r Hr. apply Hrep in Hr as (p & Hp & Hr). eauto. }
      congruence.
    + split; [discriminate|]. intros [H|[_ [H|H]]]; try discriminate. exfalso.
      assert (all_dirty dirty_files fs repos = Some []) as K.
      { apply all_dirty_nil. intros r Hr. apply Hrep in Hr as (p & Hp & Hr). eauto. }
      congruence.
Qed.

Lemma check_start_gate fl fs ps :
  ps <> [] ->
  (gate_open repo_of dirty_files fl fs ps ->
     check_start repo_of dirty_files fl true fs ps = inr (map (fun p => (p, None)) ps)) /\
  (~ gate_open repo_of dirty_files fl fs ps ->
     exists e, check_start repo_of dirty_files fl true fs ps = inl e).
Proof.
  intros Hne. rewrite <- gate_iff. unfold check_start. destruct ps as [|p ps]; [congruence|].
  cbn [andb negb]. destruct (check_version_control _ _ _ _ _) as [e|] eqn:E.
  - split; [discriminate|eauto].
  - split; [auto|]. intros H; congruence.
Qed.
End G.

Lemma run_jobs_nofix lint writable n fs ps :
  run_jobs lint writable n false fs ps = (fs, map (fun p => (p, Some (lint_only lint fs p))) ps).
Proof.
  induction ps as [|p ps IH]; auto. cbn [run_jobs]. unfold check_path, check_path_start. rewrite jrun_done. rewrite IH. reflexivity.
Qed.
Theorem run_groups_nofix lint writable repo_of dirty_files fl n fs groups fs' os :
  run_groups lint writable repo_of dirty_files fl n false fs groups = (fs', os) ->
  fs' = fs /\ os = map (fun p => (p, Some (lint_only lint fs p))) (concat groups).
Proof.
  enough (E : run_groups lint writable repo_of dirty_files fl n false fs groups = (fs, map (fun p => (p, Some (lint_only lint fs p))) (concat groups))).
  { intros H. rewrite E in H. injection H as <- <-. auto. }
  clear fs' os. induction groups as [|g gs IH]; auto. cbn [run_groups concat]. unfold check_start. cbn [andb].
  rewrite run_jobs_nofix, IH, map_app. reflexivity.
Qed.
