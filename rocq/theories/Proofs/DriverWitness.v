From Verif Require Import Model.Text Model.Fix Model.Driver Spec.FixSpec Spec.DriverSpec
  Proofs.TextProofs Proofs.FixProofs Proofs.DriverProofs Proofs.FixWitness.

(** A toy linter that only knows the file consisting of [.5]
    ([numeric_leading_zero]) or of [NA == x] ([equals_na]). *)
Definition toy_lint (p : path) (c : text) : option (list diag) :=
  if teqb c (lit ".5") then Some [mk_diag (lit "numeric_leading_zero") 0 2 (mk_fix (lit "0.5") 0 2 false)]
  else if teqb c (lit "NA == x") then Some [mk_diag (lit "equals_na") 0 7 (mk_fix (lit "is.na(x)") 0 7 false)]
  else if teqb c (lit "(") then None
  else Some [].

Definition pa : path := lit "a/x.R".
Definition pb : path := lit "b/y.R".
Definition fs0 : fsys := fun q => if teqb q pa then Some (lit ".5") else if teqb q pb then Some (lit "NA == x") else None.
Definition all_writable : path -> bool := fun _ => true.
Definition root : path := lit ".".
Definition repo1 : path -> option path := fun _ => Some root.
(** git status: the tracked files whose content differs from the committed one ([fs0]). *)
Definition opt_eqb (a b : option text) : bool :=
  match a, b with Some x, Some y => teqb x y | None, None => true | _, _ => false end.
Definition dirty1 : fsys -> path -> option (list path) :=
  fun fs _ => Some (filter (fun p => negb (opt_eqb (fs p) (fs0 p))) [pa; pb]).
Definition strict : vflags := mk_vflags false false.

(** The repository is clean, both files are in it, and yet fixing the two groups (one per
    configuration file) fixes the first file and refuses the second one: the fixes of the first group
    make the repository dirty. *)
Lemma group_gate_refuted :
  exists lint writable repo_of dirty_files fl fs groups n fs' os p q,
    gate_open repo_of dirty_files fl fs (concat groups) /\
    run_groups lint writable repo_of dirty_files fl n true fs groups = (fs', os) /\
    In (q, Some (Err EDirty)) os /\ fs' q = fs q /\ fs' p <> fs p /\ In p (concat groups) /\ In q (concat groups).
Proof.
  exists toy_lint, all_writable, repo1, dirty1, strict, fs0, [[pa]; [pb]], 6.
  destruct (run_groups toy_lint all_writable repo1 dirty1 strict 6 true fs0 [[pa]; [pb]]) as [fs' os] eqn:E.
  exists fs', os, pa, pb.
  assert (Ho : os = snd (run_groups toy_lint all_writable repo1 dirty1 strict 6 true fs0 [[pa]; [pb]]))
    by now rewrite E.
  assert (Hf : fs' = fst (run_groups toy_lint all_writable repo1 dirty1 strict 6 true fs0 [[pa]; [pb]]))
    by now rewrite E.
  split.
  { right. split; [intros; exists root; reflexivity|]. right. intros p r _ _. vm_compute. reflexivity. }
  split; [reflexivity|].
  split; [rewrite Ho; vm_compute; tauto|].
  split; [rewrite Hf; vm_compute; reflexivity|].
  split; [rewrite Hf; vm_compute; discriminate|].
  split; cbn; auto.
Qed.

Example toy_fix_runs :
  exists fs', check_path toy_lint all_writable 4 true pa fs0 = (fs', Some (Ok [])) /\ fs' pa = Some (lit "0.5").
Proof. eexists. split; vm_compute; reflexivity. Qed.
Example toy_schedule_runs :
  exists fs' js', sys_run toy_lint all_writable true [0; 1; 0; 1; 1; 1; 0; 0; 0] fs0 [(pa, None); (pb, None)] = (fs', js')
   /\ js' = [(pa, Some (JDone (Ok []))); (pb, Some (JDone (Ok [])))] /\ NoDup [pa; pb]
   /\ fs' pb = Some (lit "is.na(x)").
Proof.
  eexists _, _. split; [reflexivity|]. split; [vm_compute; reflexivity|]. split; [|vm_compute; reflexivity].
  constructor; [|constructor; [auto|constructor]]. intros [H|[]]. discriminate.
Qed.
Example gate_closed_case :
  ~ gate_open repo1 dirty1 strict (upd fs0 pa (lit "0.5")) [pb].
Proof.
  intros [H|[_ [H|H]]]; try discriminate.
  specialize (H pb root (or_introl eq_refl) eq_refl). vm_compute in H. discriminate.
Qed.
Example measure_case :
  forall c c', pass toy_lint pa c true c' -> blen c' < blen c.
Proof.
  intros c c' (ds & H1 & H2). unfold toy_lint in H1.
  destruct (teqb c (lit ".5")) eqn:E1.
  { injection H1 as <-. apply teqb_eq in E1 as ->. vm_compute in H2. discriminate. }
  destruct (teqb c (lit "NA == x")) eqn:E2.
  { injection H1 as <-. apply teqb_eq in E2 as ->. vm_compute in H2. discriminate. }
  destruct (teqb c (lit "(")); [discriminate|]. injection H1 as <-.
  rewrite apply_fixes_empty in H2 by reflexivity. discriminate.
Qed.
