(** What the package analysis says about a file does not depend on the other checked files (C87). *)
From Coq Require Import Permutation.
From Verif Require Import Model.Text Model.Base Model.Cli Model.Package Model.Project Spec.CliSpec Spec.PackageSpec Spec.ProjectSpec.
From Verif Require Import Proofs.TextProofs Proofs.CliDiscover Proofs.CliReport Proofs.PackageScan Proofs.PackageDup Proofs.PackageFiles
  Proofs.PackageSearch Proofs.PackageUnused Proofs.PackageUnused2.

(** ** The exact list of unused functions of a file *)
Section Exact.
Variable ia : char -> bool.
Variable regex : text -> option (text -> bool).
Variable skipped : text -> bool.
Variable namespace : dpath -> option text.

Definition unused_at (grp : list pfile) (f : pfile) : list adef :=
  match of_scope SR grp with
  | [] => []
  | first :: _ =>
      match namespace (pf_root first) with
      | None => []
      | Some ns =>
          match pf_scope f with
          | SR => filter (unused_in_r ia skipped (parse_namespace_exports regex ns (names_of ia (of_scope SR grp))) (of_scope SR grp) (not_r grp)) (assignments ia f)
          | STests => filter (unused_in_scope ia skipped (of_scope STests grp)) (assignments ia f)
          | SInst => filter (unused_in_scope ia skipped (of_scope SInst grp)) (assignments ia f)
          | SSrc => []
          end
      end
  end.

Lemma filter_none {A} (t : A -> bool) l : (forall x, In x l -> t x = false) -> filter t l = [].
Proof. induction l as [|x l IH]; intros H; auto. cbn [filter]. rewrite (H x) by now left. apply IH. intros y Iy. apply H. now right. Qed.
Section Fold.
Variable h : pfile -> list adef.
Let ins (m : rmap) (f : pfile) : rmap := match h f with [] => m | u => rinsert (pf_path f) u m end.
Let ext (m : rmap) (f : pfile) : rmap := match h f with [] => m | u => rextend (pf_path f) u m end.
Lemma ins_other p l : ~ In p (map pf_path l) -> forall m, lookup p (fold_left ins l m) = lookup p m.
Proof.
  induction l as [|x l IH]; intros N m; simpl; auto. simpl in N. rewrite IH by tauto. unfold ins. destruct (h x); auto.
  unfold rinsert. simpl. destruct (peqb p (pf_path x)) eqn:E; auto. apply peqb_eq in E. exfalso. apply N. auto.
Qed.
Lemma ext_other p l : ~ In p (map pf_path l) -> forall m, lookup p (fold_left ext l m) = lookup p m.
Proof.
  induction l as [|x l IH]; intros N m; simpl; auto. simpl in N. rewrite IH by tauto. unfold ext. destruct (h x); auto.
  unfold rextend. simpl. destruct (peqb p (pf_path x)) eqn:E; auto. apply peqb_eq in E. exfalso. apply N. auto.
Qed.
Lemma ins_here f l : In f l -> NoDup (map pf_path l) -> forall m, lookup (pf_path f) m = [] ->
  lookup (pf_path f) (fold_left ins l m) = h f.
Proof.
  induction l as [|x l IH]; intros I N m Z; [destruct I|]. cbn [map] in N. inversion N as [|? ? N1 N2]; subst. cbn [fold_left].
  destruct I as [->|I].
  - rewrite ins_other by auto. unfold ins. destruct (h f) eqn:E; auto. unfold rinsert. cbn [lookup]. now rewrite peqb_refl.
  - apply IH; auto. unfold ins. destruct (h x); auto. unfold rinsert. cbn [lookup].
    destruct (peqb (pf_path f) (pf_path x)) eqn:E; auto. apply peqb_eq in E. exfalso. apply N1. rewrite <- E. now apply in_map.
Qed.
Lemma ext_here f l : In f l -> NoDup (map pf_path l) -> forall m, lookup (pf_path f) m = [] ->
  lookup (pf_path f) (fold_left ext l m) = h f.
Proof.
  induction l as [|x l IH]; intros I N m Z; [destruct I|]. cbn [map] in N. inversion N as [|? ? N1 N2]; subst. cbn [fold_left].
  destruct I as [->|I].
  - rewrite ext_other by auto. unfold ext. destruct (h f) eqn:E; auto. unfold rextend. cbn [lookup]. now rewrite peqb_refl, Z.
  - apply IH; auto. unfold ext. destruct (h x); auto. unfold rextend. cbn [lookup].
    destruct (peqb (pf_path f) (pf_path x)) eqn:E; auto. apply peqb_eq in E. exfalso. apply N1. rewrite <- E. now apply in_map.
Qed.
End Fold.

Lemma of_scope_paths s grp p : In p (map pf_path (of_scope s grp)) -> In p (map pf_path grp).
Proof. intros I. apply in_map_iff in I as (x & <- & I). apply of_scope_in in I as (I & _). now apply in_map. Qed.
Lemma package_other p grp m : ~ In p (map pf_path grp) ->
  lookup p (unused_package ia regex skipped namespace grp m) = lookup p m.
Proof.
  intros N. assert (Ns : forall s, ~ In p (map pf_path (of_scope s grp))) by (intros s K; apply N; eapply of_scope_paths; eauto).
  unfold unused_package. fold (of_scope SR grp). fold (not_r grp). destruct (of_scope SR grp) as [|first rest] eqn:R; auto.
  destruct (namespace (pf_root first)); auto. rewrite <- R. unfold report_scope. fold (of_scope SInst grp). fold (of_scope STests grp).
  rewrite ext_other by auto. rewrite ext_other by auto. now rewrite ins_other by auto.
Qed.
Lemma package_exact f grp m : In f grp -> NoDup (map pf_path grp) -> lookup (pf_path f) m = [] ->
  lookup (pf_path f) (unused_package ia regex skipped namespace grp m) = unused_at grp f.
Proof.
  intros I N Z.
  assert (Ns : forall s, NoDup (map pf_path (of_scope s grp))) by (intros; now apply nodup_filter).
  assert (Out : forall s, pf_scope f <> s -> ~ In (pf_path f) (map pf_path (of_scope s grp))).
  { intros s D K. apply in_map_iff in K as (x & E & K). apply of_scope_in in K as (K & Sx).
    assert (x = f) by (eapply nodup_inj; eauto). congruence. }
  assert (Inn : In f (of_scope (pf_scope f) grp)) by now apply of_scope_in.
  unfold unused_package, unused_at. fold (of_scope SR grp). fold (not_r grp). destruct (of_scope SR grp) as [|first rest] eqn:R; auto.
  destruct (namespace (pf_root first)) as [ns|]; auto. rewrite <- R. unfold report_scope. fold (of_scope SInst grp). fold (of_scope STests grp).
  destruct (pf_scope f) eqn:Sc.
  - rewrite ext_other by (apply Out; discriminate). rewrite ext_other by (apply Out; discriminate). now apply (ins_here).
  - rewrite ext_other by (apply Out; discriminate). apply ext_here; auto. rewrite ins_other by (apply Out; discriminate). auto.
  - apply ext_here; auto. rewrite ext_other by (apply Out; discriminate). rewrite ins_other by (apply Out; discriminate). auto.
  - rewrite ext_other by (apply Out; discriminate). rewrite ext_other by (apply Out; discriminate). rewrite ins_other by (apply Out; discriminate). auto.
Qed.
Lemma fold_other p (gs : list (dpath * list pfile)) : (forall g, In g gs -> ~ In p (map pf_path (snd g))) -> forall m,
  lookup p (fold_left (fun m g => unused_package ia regex skipped namespace (snd g) m) gs m) = lookup p m.
Proof.
  induction gs as [|g gs IH]; intros H m; simpl; auto. rewrite IH by (intros; apply H; now right).
  apply package_other. apply H. now left.
Qed.
Lemma unused_lookup order fs f : (forall gs, Permutation (order gs) gs) -> NoDup (map pf_path fs) -> In f fs ->
  lookup (pf_path f) (compute_unused ia regex skipped order namespace fs) = unused_at (of_root (pf_root f) fs) f.
Proof.
  intros O ND I. unfold compute_unused. destruct (by_package_ok fs) as (NK & G & C).
  assert (Ig : In (pf_root f, of_root (pf_root f) fs) (order (by_package fs))).
  { apply (Permutation_in _ (Permutation_sym (O _))). specialize (C f I). apply in_map_iff in C as ([k l] & E & C).
    simpl in E. subst k. rewrite <- (G _ _ C). exact C. }
  assert (NDo : NoDup (map fst (order (by_package fs)))).
  { eapply Permutation_NoDup; [apply Permutation_map, Permutation_sym, O|exact NK]. }
  assert (U : forall k grp, In (k, grp) (order (by_package fs)) -> In (pf_path f) (map pf_path grp) -> k = pf_root f).
  { intros k grp Ik K. pose proof (Permutation_in _ (O _) Ik) as Ib. rewrite (G _ _ Ib) in K. apply in_map_iff in K as (x & E & K).
    apply filter_In in K as (K & Ek). apply peqb_eq in Ek. assert (x = f) by (eapply nodup_inj; eauto). congruence. }
  apply in_split in Ig as (l1 & l2 & E). rewrite E in U, NDo. rewrite E, fold_left_app. cbn [fold_left snd].
  rewrite map_app in NDo. cbn [map fst] in NDo. apply NoDup_remove_2 in NDo.
  rewrite fold_other.
  - apply package_exact.
    + apply filter_In. split; auto. apply peqb_refl.
    + now apply nodup_filter.
    + rewrite fold_other; auto. intros [k grp] Ik K. cbn [snd] in K. apply NDo. apply in_or_app. left.
      assert (k = pf_root f) as <- by (apply (U k grp); auto; apply in_or_app; auto). change k with (fst (k, grp)). now apply in_map.
  - intros [k grp] Ik K. cbn [snd] in K. apply NDo. apply in_or_app. right.
    assert (k = pf_root f) as <- by (apply (U k grp); auto; apply in_or_app; right; now right). change k with (fst (k, grp)). now apply in_map.
Qed.
Lemma unused_absent order fs p : (forall gs, Permutation (order gs) gs) -> ~ In p (map pf_path fs) ->
  lookup p (compute_unused ia regex skipped order namespace fs) = [].
Proof.
  intros O N. unfold compute_unused. rewrite fold_other; auto. intros [k grp] Ik K. apply N.
  destruct (by_package_ok fs) as (NK & G & C). pose proof (Permutation_in _ (O _) Ik) as Ib. cbn [snd] in K. rewrite (G _ _ Ib) in K.
  apply in_map_iff in K as (x & <- & K). apply filter_In in K as (K & _). now apply in_map.
Qed.
Lemma unused_at_perm grp grp' f : Permutation grp grp' -> (forall x y, In x grp -> In y grp -> pf_root x = pf_root y) -> In f grp ->
  unused_at grp f = unused_at grp' f.
Proof.
  intros P Rt I.
  assert (B : forall g g' d, Permutation g g' -> (forall x y, In x g -> In y g -> pf_root x = pf_root y) -> In f g ->
             In d (assignments ia f) -> reported ia regex skipped namespace g f d -> reported ia regex skipped namespace g' f d).
  { intros. eapply reported_perm; eauto. }
  assert (X : forall g, In f g -> exists t, unused_at g f = filter t (assignments ia f) /\
              forall d, In d (assignments ia f) -> t d = true <-> reported ia regex skipped namespace g f d).
  { intros g Ig. unfold unused_at, reported. destruct (of_scope SR g) as [|first rest] eqn:R.
    - exists (fun _ => false). split; [symmetry; apply filter_none; auto|]. intros d _. split; [discriminate|]. intros (_ & _ & ? & ? & ? & K & _). discriminate.
    - destruct (namespace (pf_root first)) as [ns|] eqn:Nn.
      + destruct (pf_scope f) eqn:Sc.
        * eexists. split; [reflexivity|]. intros d Id. split.
          -- intros U. split; [auto|]. split; auto. exists first, rest, ns. auto.
          -- intros (_ & _ & f0 & r0 & ns0 & [= <- <-] & E & K). rewrite Nn in E. injection E as <-. exact K.
        * eexists. split; [reflexivity|]. intros d Id. split.
          -- intros U. split; [auto|]. split; auto. exists first, rest, ns. auto.
          -- intros (_ & _ & f0 & r0 & ns0 & [= <- <-] & E & K). exact K.
        * eexists. split; [reflexivity|]. intros d Id. split.
          -- intros U. split; [auto|]. split; auto. exists first, rest, ns. auto.
          -- intros (_ & _ & f0 & r0 & ns0 & [= <- <-] & E & K). exact K.
        * exists (fun _ => false). split; [symmetry; apply filter_none; auto|]. intros d _. split; [discriminate|]. intros (_ & _ & ? & ? & ? & _ & _ & []).
      + exists (fun _ => false). split; [symmetry; apply filter_none; auto|]. intros d _. split; [discriminate|].
        intros (_ & _ & ? & ? & ? & [= <- <-] & K & _). congruence. }
  destruct (X grp I) as (t & -> & T). destruct (X grp' (Permutation_in _ P I)) as (t' & -> & T').
  assert (Rt' : forall x y, In x grp' -> In y grp' -> pf_root x = pf_root y).
  { intros x y Ix Iy. apply Rt; eapply Permutation_in; try apply Permutation_sym; eauto. }
  apply filter_ext_in. intros d Id. destruct (t d) eqn:Ed, (t' d) eqn:Ed'; auto.
  - pose proof (B _ _ d P Rt I Id (proj1 (T d Id) Ed)) as K. apply (T' d Id) in K. congruence.
  - pose proof (B _ _ d (Permutation_sym P) Rt' (Permutation_in _ P I) Id (proj1 (T' d Id) Ed')) as K. apply (T d Id) in K. congruence.
Qed.
End Exact.

(** ** The files scanned *)
Section Scanned.
Variables (dk : list dpath) (hd_ : dpath -> bool) (content : dpath -> option text).
Definition given_of (paths : list dpath) : list dpath := filter (fun p => r_file p && in_package hd_ p) paths.
Definition roots_of (paths : list dpath) : list dpath := dedup (map (fun p => parent (parent p)) (given_of paths)).
(** The directories searched below a root, other than R. *)
Definition extras (root : dpath) : list dpath :=
  collect_files dk (root ++ [lit "inst"; lit "tinytest"]) r_file ++ collect_files dk (root ++ [lit "inst"; lit "tests"]) r_file
  ++ collect_files dk (root ++ [lit "tests"]) r_file ++ collect_files dk (root ++ [lit "src"]) cpp_file.
Lemma scan_list_eq paths cu : scan_list dk hd_ paths cu =
  map (fun p => (p, SR)) (given_of paths) ++
  map (fun p => (p, SR)) (flat_map (fun root => filter (fun p => negb (pmem p (given_of paths))) (collect_files dk (root ++ [lit "R"]) r_file)) (roots_of paths)) ++
  map (fun p => (p, file_scope_from_path p)) (if cu then flat_map extras (roots_of paths) else []).
Proof. reflexivity. Qed.

Lemma in_package_split p : in_package hd_ p = true -> exists root n, p = root ++ [lit "R"; n] /\ hd_ root = true /\ parent (parent p) = root.
Proof.
  unfold in_package, parent. intros H. apply andb_true_iff in H as (H1 & H2). apply teqb_eq in H1.
  destruct p as [|x p] using rev_ind; [discriminate|]. clear IHp. rewrite removelast_last in *.
  destruct p as [|y p] using rev_ind; [discriminate|]. clear IHp. rewrite removelast_last in *. rewrite last_last in H1. subst y.
  exists p, x. rewrite <- app_assoc. auto.
Qed.
Lemma roots_in paths root : In root (roots_of paths) <-> hd_ root = true /\ exists p, In p paths /\ r_source root p.
Proof.
  unfold roots_of. rewrite (dedup_in hd_ content), in_map_iff. split.
  - intros (p & <- & I). apply filter_In in I as (I & K). apply andb_true_iff in K as (K1 & K2).
    destruct (in_package_split p K2) as (root & n & E & H & Er). rewrite Er. split; auto. exists p. split; auto. exists n. auto.
  - intros (H & p & I & n & E & R). exists p. subst p. split.
    + rewrite parent_app by discriminate. cbn [removelast]. rewrite parent_app by discriminate. cbn [removelast]. apply app_nil_r.
    + apply filter_In. split; auto. rewrite R. now apply in_pkg.
Qed.
Lemma given_in paths p : In p (given_of paths) <-> In p paths /\ exists root, hd_ root = true /\ r_source root p.
Proof.
  unfold given_of. rewrite filter_In, andb_true_iff. split.
  - intros (I & R & K). split; auto. destruct (in_package_split p K) as (root & n & E & H & Er). exists root. split; auto. exists n. auto.
  - intros (I & root & H & n & E & R). split; auto. split; auto. subst p. now apply in_pkg.
Qed.
Lemma collect_in d pred p : In p (collect_files dk d pred) <-> In p dk /\ pred p = true /\ exists r, r <> [] /\ p = d ++ r.
Proof.
  unfold collect_files. rewrite filter_In, !andb_true_iff, under_iff, Nat.ltb_lt. split.
  - intros (I & ((r & ->) & L) & P). split; auto. split; auto. exists r. split; auto. intros ->. rewrite app_nil_r in L. lia.
  - intros (I & P & r & N & ->). split; auto. split; auto. split; [now exists r|]. rewrite app_length. destruct r; [congruence|simpl; lia].
Qed.
(** A scanned path starts with a root, and then with the name of an area. *)
Definition area_names : list text := [lit "inst"; lit "tests"; lit "src"].
Lemma extras_in root p : In p (extras root) -> In p dk /\ exists a r, In a area_names /\ p = root ++ a :: r.
Proof.
  unfold extras. rewrite !in_app_iff, !collect_in.
  intros [(I & _ & r & _ & ->)|[(I & _ & r & _ & ->)|[(I & _ & r & _ & ->)|(I & _ & r & _ & ->)]]]; (split; [exact I|]); rewrite <- app_assoc; cbn [app];
    do 2 eexists; (split; [|reflexivity]); unfold area_names; simpl; auto.
Qed.
Lemma extras_nodup root : NoDup dk -> NoDup (extras root).
Proof.
  intros N. unfold extras. assert (Nc : forall d pred, NoDup (collect_files dk d pred)) by (intros; now apply NoDup_filter).
  assert (D : forall d d' pred pred' x, hd [] d <> hd [] d' \/ (hd [] d = hd [] d' /\ hd [] (tl d) <> hd [] (tl d') /\ tl d <> [] /\ tl d' <> []) ->
     d <> [] -> d' <> [] ->
     In x (collect_files dk (root ++ d) pred) -> ~ In x (collect_files dk (root ++ d') pred')).
  { intros d d' pred pred' x H Nd Nd' I I'. apply collect_in in I as (_ & _ & r & _ & ->). apply collect_in in I' as (_ & _ & r' & _ & E).
    rewrite <- !app_assoc in E. apply app_inv_head in E. destruct d as [|a d]; [congruence|]. destruct d' as [|a' d']; [congruence|].
    cbn [hd tl app] in *. injection E as Ea E. destruct H as [H|(_ & H & H1 & H2)]; [congruence|].
    destruct d as [|b d]; [congruence|]. destruct d' as [|b' d']; [congruence|]. cbn [hd app] in *. injection E as Eb E. congruence. }
  apply nodup_app; [apply Nc| |].
  - apply nodup_app; [apply Nc| |].
    + apply nodup_app; [apply Nc|apply Nc|]. intros x. apply D; try discriminate. left. discriminate.
    + intros x I. rewrite in_app_iff. intros [K|K]; revert K; (eapply D; [..|exact I]); try discriminate; left; discriminate.
  - intros x I. rewrite !in_app_iff. intros [K|[K|K]]; revert K; (eapply D; [..|exact I]); try discriminate; try (left; discriminate).
    right. repeat split; discriminate.
Qed.
Definition roots_apart (paths : list dpath) : Prop := forall r r', In r (roots_of paths) -> In r' (roots_of paths) -> above r r' -> r = r'.
Lemma roots_meet paths r r' x : roots_apart paths -> In r (roots_of paths) -> In r' (roots_of paths) -> above r x -> above r' x -> r = r'.
Proof.
  intros H I I' A A'. destruct (Nat.le_gt_cases (length r) (length r')) as [L|L].
  - apply H; auto. now apply (above_comparable r r' x).
  - symmetry. apply H; auto. apply (above_comparable r' r x); auto. lia.
Qed.
Definition r_paths (paths : list dpath) : list dpath :=
  given_of paths ++ flat_map (fun root => filter (fun p => negb (pmem p (given_of paths))) (collect_files dk (root ++ [lit "R"]) r_file)) (roots_of paths).
Lemma r_paths_root paths p : In p (r_paths paths) -> exists root r, In root (roots_of paths) /\ p = root ++ lit "R" :: r.
Proof.
  unfold r_paths. rewrite in_app_iff, in_flat_map. intros [I|(root & I & K)].
  - apply given_in in I as (I & root & H & S). assert (In root (roots_of paths)) by (apply roots_in; split; auto; now exists p).
    destruct S as (n & -> & _). exists root, [n]. auto.
  - apply filter_In in K as (K & _). apply collect_in in K as (_ & _ & r & _ & ->). exists root, r. rewrite <- app_assoc. auto.
Qed.
Lemma r_paths_nodup paths : NoDup paths -> NoDup dk -> roots_apart paths -> NoDup (r_paths paths).
Proof.
  intros Np Nd H. apply nodup_app.
  - now apply NoDup_filter.
  - apply nodup_flat_map.
    + apply (dedup_nodup hd_ content).
    + intros x. apply NoDup_filter. now apply NoDup_filter.
    + intros x y z Ix Iy Zx Zy. apply filter_In in Zx as (Zx & _). apply filter_In in Zy as (Zy & _).
      apply collect_in in Zx as (_ & _ & r & _ & Ez). apply collect_in in Zy as (_ & _ & r' & _ & Ez').
      apply (roots_meet paths x y z); auto; [exists (lit "R" :: r); rewrite Ez|exists (lit "R" :: r'); rewrite Ez']; now rewrite <- app_assoc.
  - intros x Ix K. apply in_flat_map in K as (root & _ & K). apply filter_In in K as (_ & K).
    apply negb_true_iff, pmem_not in K. contradiction.
Qed.
Lemma scan_paths paths cu : map fst (scan_list dk hd_ paths cu) = r_paths paths ++ (if cu then flat_map extras (roots_of paths) else []).
Proof.
  rewrite scan_list_eq, !map_app, !map_map. cbn [fst]. unfold r_paths. now rewrite !map_id, <- app_assoc.
Qed.
Lemma scan_nodup paths cu : NoDup paths -> NoDup dk -> roots_apart paths -> NoDup (map fst (scan_list dk hd_ paths cu)).
Proof.
  intros Np Nd H. rewrite scan_paths. apply nodup_app.
  - now apply r_paths_nodup.
  - destruct cu; [|constructor]. apply nodup_flat_map.
    + apply (dedup_nodup hd_ content).
    + intros. now apply extras_nodup.
    + intros x y z Ix Iy Zx Zy. apply extras_in in Zx as (_ & a & r & _ & Ez). apply extras_in in Zy as (_ & a' & r' & _ & Ez').
      apply (roots_meet paths x y z); auto; eexists; eauto.
  - intros x Ix K. destruct cu; [|destruct K]. apply in_flat_map in K as (root & Ir & K). apply extras_in in K as (_ & a & r & Ia & E).
    apply r_paths_root in Ix as (root' & r' & Ir' & E').
    assert (root = root') as <- by (apply (roots_meet paths root root' x); auto; eexists; eauto).
    rewrite E in E'. apply app_inv_head in E'. injection E' as Ea _. subst a. destruct Ia as [K|[K|[K|[]]]]; discriminate.
Qed.
Let sh (e : dpath * scope) : list pfile := match shared hd_ content e with Some f => [f] | None => [] end.
Lemma sh_path e f : In f (sh e) -> pf_path f = fst e /\ pf_scope f = snd e.
Proof.
  unfold sh, shared. destruct (content (fst e)); [|intros []].
  destruct (snd e) eqn:Es; [intros [<-|[]]; auto| | |]; (destruct (find_package_root hd_ (fst e)); [|intros []]; intros [<-|[]]; auto).
Qed.
Lemma sh_one e : sh e = [] \/ exists f, sh e = [f].
Proof. unfold sh. destruct (shared hd_ content e); eauto. Qed.
Lemma shared_nodup paths cu : NoDup paths -> NoDup dk -> roots_apart paths -> NoDup (map pf_path (shared_data dk hd_ content paths cu)).
Proof.
  intros Np Nd H. pose proof (scan_nodup paths cu Np Nd H) as N. unfold shared_data. fold sh.
  induction (scan_list dk hd_ paths cu) as [|e l IH]; cbn [flat_map map]; [constructor|]. cbn [map] in N. inversion N as [|? ? N1 N2]; subst.
  specialize (IH N2). destruct (sh_one e) as [E|(f & E)]; rewrite E; [exact IH|]. cbn [app map]. constructor; auto. intros K. apply N1.
  assert (pf_path f = fst e) by (apply sh_path; rewrite E; now left). rewrite <- H0. apply in_map_iff in K as (g & Eg & K).
  apply in_flat_map in K as (e' & Ie & K). apply sh_path in K as (K & _). rewrite <- Eg, K. now apply in_map.
Qed.
Lemma shared_r_root p f : In f (sh (p, SR)) -> pf_root f = parent p.
Proof. unfold sh, shared. cbn [fst snd]. destruct (content p); intros []; [subst; auto|destruct H]. Qed.
Lemma shared_x_root p f : In f (sh (p, file_scope_from_path p)) -> exists root, find_package_root hd_ p = Some root /\ pf_root f = root ++ [lit "R"].
Proof.
  unfold sh, shared. cbn [fst snd]. destruct (content p); [|intros []]. pose proof (scope_not_r p) as N.
  destruct (file_scope_from_path p); [congruence| | |]; (destruct (find_package_root hd_ p) as [root|]; [|intros []]; intros [<-|[]]; eauto).
Qed.
Lemma find_anc_max r root : find hd_ (anc_rev r) = Some root ->
  hd_ root = true /\ above root (rev r) /\ forall d, above d (rev r) -> hd_ d = true -> length d <= length root.
Proof.
  revert root. induction r as [|x r IH]; intros root; cbn [anc_rev find].
  - cbn [rev]. destruct (hd_ []) eqn:E; [|discriminate]. intros [= <-]. repeat split; auto; [apply above_refl|].
    intros d A _. apply above_len in A. exact A.
  - cbn [rev]. destruct (hd_ (rev r ++ [x])) eqn:E.
    + intros [= <-]. repeat split; auto; [apply above_refl|]. intros d A _. now apply above_len.
    + intros F. destruct (IH root F) as (H & A & M). repeat split; auto.
      * destruct A as [q A]. exists (q ++ [x]). now rewrite A, app_assoc.
      * intros d D Hd. apply above_snoc in D as [->|D]; [congruence|auto].
Qed.
Lemma find_root_max p root : find_package_root hd_ p = Some root ->
  hd_ root = true /\ above root (parent p) /\ forall d, above d (parent p) -> hd_ d = true -> length d <= length root.
Proof. unfold find_package_root, ancestors. intros F. apply find_anc_max in F. now rewrite rev_involutive in F. Qed.

(** ** One package *)
Section OnePackage.
Variable root : dpath.
Let key := root ++ [lit "R"].
Let mine (fs : list pfile) := of_root key fs.
Lemma mine_flat (l : list (dpath * scope)) : mine (flat_map sh l) = flat_map (fun e => mine (sh e)) l.
Proof. unfold mine, of_root. now rewrite filter_flat_map. Qed.
Lemma flat_map_filter {A B} (g : A -> list B) (t : A -> bool) l : (forall x, t x = false -> g x = []) -> flat_map g l = flat_map g (filter t l).
Proof.
  intros H. induction l as [|x l IH]; auto. cbn [flat_map filter]. destruct (t x) eqn:E; cbn [flat_map]; rewrite IH; auto. now rewrite (H x E).
Qed.
Lemma flat_map_one {A B} (g : A -> list B) l x : NoDup l -> In x l -> (forall y, In y l -> y <> x -> g y = []) -> flat_map g l = g x.
Proof.
  intros N I H. apply in_split in I as (l1 & l2 & ->). rewrite flat_map_app. cbn [flat_map].
  assert (Z : forall l, (forall y, In y l -> g y = []) -> flat_map g l = []).
  { induction l as [|y l IH]; intros K; auto. cbn [flat_map]. rewrite (K y) by now left. apply IH. intros z Iz. apply K. now right. }
  apply NoDup_remove_2 in N. rewrite (Z l1), (Z l2), app_nil_r; auto;
    intros y Iy; apply H; try (apply in_or_app; auto; right; now right); intros ->; apply N; apply in_or_app; auto.
Qed.
(** The R files of the package on disk. *)
Definition own_r : list dpath := filter (fun p => peqb (parent p) key && r_file p) dk.
Definition own_extra : list pfile := flat_map (fun p => mine (sh (p, file_scope_from_path p))) (extras root).
Lemma parent_key p : parent p = key -> exists n, p = root ++ [lit "R"; n].
Proof.
  unfold parent, key. intros E. destruct p as [|x p] using rev_ind.
  - cbn in E. symmetry in E. apply app_eq_nil in E as (_ & E). discriminate.
  - rewrite removelast_last in E. subst p. exists x. now rewrite <- app_assoc.
Qed.
Lemma key_parent n : parent (root ++ [lit "R"; n]) = key.
Proof. rewrite parent_app by discriminate. reflexivity. Qed.
Lemma own_r_perm paths : NoDup paths -> NoDup dk -> incl paths dk -> roots_apart paths -> In root (roots_of paths) ->
  Permutation (filter (fun p => peqb (parent p) key) (r_paths paths)) own_r.
Proof.
  intros Np Nd Inc H Ir. apply NoDup_Permutation.
  - apply NoDup_filter. now apply r_paths_nodup.
  - now apply NoDup_filter.
  - intros p. unfold own_r. rewrite !filter_In, andb_true_iff, peqb_eq. unfold r_paths. rewrite in_app_iff, in_flat_map. split.
    + intros ([I|(q & Iq & I)] & E).
      * apply given_in in I as (I & r & _ & (n & _ & R)). auto.
      * apply filter_In in I as (I & _). apply collect_in in I as (I & R & _). auto.
    + intros (I & E & R). split; auto. destruct (pmem p (given_of paths)) eqn:M; [left; now apply pmem_iff|]. right.
      exists root. split; auto. apply filter_In. split; [|now rewrite M]. apply collect_in. split; auto. split; auto.
      destruct (parent_key p E) as (n & ->). exists [n]. split; [discriminate|]. now rewrite <- app_assoc.
Qed.
Lemma own_group paths cu : NoDup paths -> NoDup dk -> incl paths dk -> roots_apart paths -> In root (roots_of paths) ->
  Permutation (mine (shared_data dk hd_ content paths cu))
              (flat_map (fun p => mine (sh (p, SR))) own_r ++ (if cu then own_extra else [])).
Proof.
  intros Np Nd Inc H Ir. unfold shared_data. fold sh. rewrite scan_list_eq, app_assoc, <- map_app.
  change (given_of paths ++ _) with (r_paths paths). rewrite mine_flat, flat_map_app. apply Permutation_app.
  - rewrite (flat_map_concat_map _ (map _ _)), map_map, <- flat_map_concat_map.
    rewrite (flat_map_filter _ (fun p => peqb (parent p) key)).
    + apply Permutation_flat_map, own_r_perm; auto.
    + intros p Ep. apply filter_none. intros f If. rewrite (shared_r_root p f If). exact Ep.
  - destruct cu; [|apply Permutation_refl]. rewrite (flat_map_concat_map _ (map _ _)), map_map, <- flat_map_concat_map.
    unfold own_extra.
    assert (FM : forall (l : list dpath), flat_map (fun p => mine (sh (p, file_scope_from_path p))) (flat_map extras l) =
                 flat_map (fun q => flat_map (fun p => mine (sh (p, file_scope_from_path p))) (extras q)) l).
    { induction l as [|q l IH]; auto. cbn [flat_map]. now rewrite flat_map_app, IH. }
    rewrite FM. rewrite (flat_map_one _ (roots_of paths) root); [apply Permutation_refl|apply (dedup_nodup hd_ content)|auto|].
    intros q Iq Nq. assert (Z : forall l, incl l (extras q) -> flat_map (fun p => mine (sh (p, file_scope_from_path p))) l = []);
      [|apply Z; intros ? ?; auto].
    induction l as [|p l IH]; intros K; auto. cbn [flat_map]. rewrite IH by (intros y Iy; apply K; now right). rewrite app_nil_r.
    apply filter_none. intros f If. apply peqb_neq. intros E. apply shared_x_root in If as (r0 & F & E'). apply Nq.
    unfold key in E. rewrite E in E'. apply app_inv_tail in E'. subst r0. apply find_root_max in F as (Hr & A & M).
    specialize (K p (or_introl eq_refl)). apply extras_in in K as (_ & a & r & _ & ->).
    assert (Aq : above q (parent (q ++ a :: r))) by (rewrite parent_app by discriminate; eexists; eauto).
    apply H; auto. apply (above_comparable q root _ Aq A). apply M; auto. apply roots_in in Iq. tauto.
Qed.
End OnePackage.
Lemma shared_paths paths cu p : In p (map pf_path (shared_data dk hd_ content paths cu)) ->
  content p <> None /\ exists root r, In root (roots_of paths) /\ p = root ++ r /\ r <> [].
Proof.
  intros I. apply in_map_iff in I as (f & <- & I). unfold shared_data in I. fold sh in I. apply in_flat_map in I as (e & Ie & If).
  destruct (sh_path e f If) as (-> & _). split.
  - intros C. unfold sh, shared in If. rewrite C in If. destruct If.
  - assert (K : In (fst e) (map fst (scan_list dk hd_ paths cu))) by now apply in_map. rewrite scan_paths in K.
    apply in_app_or in K as [K|K].
    + apply r_paths_root in K as (root & r & Ir & ->). exists root, (lit "R" :: r). repeat split; auto. discriminate.
    + destruct cu; [|destruct K]. apply in_flat_map in K as (root & Ir & K). apply extras_in in K as (_ & a & r & _ & ->).
      exists root, (a :: r). repeat split; auto. discriminate.
Qed.
End Scanned.

(** ** The analysis *)
Section Analysis.
Variable ia : char -> bool.
Variable regex : text -> option (text -> bool).
Variable skipped : option csettings -> text -> bool.
Variables order order' : list (dpath * list pfile) -> list (dpath * list pfile).
Hypothesis O : forall gs, Permutation (order gs) gs.
Hypothesis O' : forall gs, Permutation (order' gs) gs.
Variable pr : project.
Let analysis := package_analysis ia regex skipped order order' pr.
Let hd_ := has_description pr.

Lemma has_description_iff d : hd_ d = true <-> is_package pr d.
Proof.
  unfold hd_, has_description, is_package, beside. destruct (text_at pr (d ++ [lit "DESCRIPTION"])) as [t|]; split; eauto; try discriminate.
  intros (t & K). discriminate.
Qed.
Lemma roots_checked paths root : In root (roots_of hd_ paths) <-> checked_package pr paths root.
Proof.
  rewrite (roots_in hd_ (text_at pr)), has_description_iff. unfold checked_package, r_file_of. split.
  - intros (H & p & I & S). exists p. auto.
  - intros (p & I & S & H). split; auto. exists p. auto.
Qed.
Lemma apart_roots paths : packages_apart pr paths -> roots_apart hd_ paths.
Proof. intros H r r' I I' A. apply H; auto; now apply roots_checked. Qed.
Lemma namespace_root paths root : checked_package pr paths root -> namespace_of pr paths (root ++ [lit "R"]) = beside pr root (lit "NAMESPACE").
Proof.
  intros H. unfold namespace_of. rewrite parent_app by discriminate. cbn [removelast]. rewrite app_nil_r.
  change (package_roots pr paths) with (roots_of hd_ paths). now rewrite (proj2 (pmem_iff _ _) (proj2 (roots_checked _ _) H)).
Qed.
Lemma unused_at_ns ns1 ns2 sk grp f : (forall x, In x grp -> ns1 (pf_root x) = ns2 (pf_root x)) ->
  unused_at ia regex sk ns1 grp f = unused_at ia regex sk ns2 grp f.
Proof.
  intros H. unfold unused_at. destruct (of_scope SR grp) as [|first rest] eqn:R; auto.
  assert (I : In first grp). { assert (I : In first (of_scope SR grp)) by (rewrite R; now left). now apply of_scope_in in I. }
  now rewrite (H first I).
Qed.

Section TwoRuns.
Variables paths paths' : list dpath.
Hypothesis P : proper_files pr paths.
Hypothesis P' : proper_files pr paths'.
Hypothesis A : packages_apart pr paths.
Hypothesis A' : packages_apart pr paths'.
Let data cu := shared_data (disk pr) hd_ (text_at pr) paths cu.
Let data' cu := shared_data (disk pr) hd_ (text_at pr) paths' cu.
Lemma data_nodup cu : NoDup (map pf_path (data cu)).
Proof. destruct P as (P1 & P2 & _). apply shared_nodup; auto. now apply apart_roots. Qed.
Lemma data_nodup' cu : NoDup (map pf_path (data' cu)).
Proof. destruct P' as (P1 & P2 & _). apply shared_nodup; auto. now apply apart_roots. Qed.
Lemma data_group root cu : checked_package pr paths root -> checked_package pr paths' root ->
  Permutation (of_root (root ++ [lit "R"]) (data cu)) (of_root (root ++ [lit "R"]) (data' cu)).
Proof.
  intros C C'. destruct P as (P1 & P2 & P3). destruct P' as (Q1 & Q2 & Q3).
  eapply Permutation_trans; [|apply Permutation_sym]; apply own_group; auto; try (now apply apart_roots); now apply roots_checked.
Qed.
Lemma nodup_r fs : NoDup (map pf_path fs) -> distinct_files fs.
Proof. intros N. now apply nodup_filter. Qed.
Lemma filter_comm {X} (f g : X -> bool) l : filter f (filter g l) = filter g (filter f l).
Proof. induction l as [|x l IH]; auto. cbn [filter]. destruct (f x) eqn:Ef, (g x) eqn:Eg; cbn [filter]; rewrite ?Ef, ?Eg, ?IH; auto. Qed.

Theorem analysis_same st cfg p root : r_file_of pr root p -> In p paths -> In p paths' ->
  lookup p (fst (analysis st cfg paths)) = lookup p (fst (analysis st cfg paths')) /\
  lookup p (snd (analysis st cfg paths)) = lookup p (snd (analysis st cfg paths')).
Proof.
  intros R I I'. assert (C : checked_package pr paths root) by (exists p; auto). assert (C' : checked_package pr paths' root) by (exists p; auto).
  unfold analysis, package_analysis. fold hd_. destruct (applies cfg (lit "duplicated_function_definition") || applies cfg (lit "unused_function")); [|split; reflexivity].
  cbn [fst snd]. set (cu := applies cfg (lit "unused_function")). fold (data cu) (data' cu).
  pose proof (data_nodup cu) as N. pose proof (data_nodup' cu) as N'. pose proof (data_group root cu C C') as G.
  destruct (text_at pr p) as [t|] eqn:T.
  - set (f := mk_pf (root ++ [lit "R"]) p SR t). destruct R as (S & Hr).
    assert (F : In f (data cu)).
    { apply r_searched; auto; [destruct C as (q & Iq & (n & Eq & Rq) & _); exists q, n; auto|now apply has_description_iff|now apply P]. }
    assert (F' : In f (data' cu)).
    { apply r_searched; auto; [destruct C' as (q & Iq & (n & Eq & Rq) & _); exists q, n; auto|now apply has_description_iff|now apply P]. }
    split.
    + destruct (applies cfg (lit "duplicated_function_definition")); auto.
      rewrite (proj1 (compute_lookup ia order _ p O (nodup_r _ N)) f); auto; [|now apply filter_In].
      rewrite (proj1 (compute_lookup ia order _ p O (nodup_r _ N')) f); auto; [|now apply filter_In].
      unfold dups_at. do 3 f_equal. unfold of_root, r_files. rewrite !(filter_comm (fun x => peqb (pf_root x) (pf_root f))).
      apply sort_perm_eq; [apply nodup_filter, nodup_filter; exact N|]. apply r_files_perm, G.
    + subst cu. destruct (applies cfg (lit "unused_function")) eqn:U; auto.
      change p with (pf_path f). rewrite !unused_lookup by auto. cbn [pf_root].
      rewrite (unused_at_perm ia regex (skipped st) _ _ _ f G).
      * apply unused_at_ns. intros x Ix. apply filter_In in Ix as (_ & Ex). apply peqb_eq in Ex. rewrite Ex. change (pf_root f) with (root ++ [lit "R"]). now rewrite !namespace_root by auto.
      * intros x y Ix Iy. apply filter_In in Ix as (_ & Ix). apply filter_In in Iy as (_ & Iy). apply peqb_eq in Ix, Iy. congruence.
      * apply filter_In. split; auto. apply peqb_refl.
  - assert (Z : forall qs, ~ In p (map pf_path (shared_data (disk pr) hd_ (text_at pr) qs cu))).
    { intros qs K. apply shared_paths in K as (K & _). congruence. }
    split.
    + destruct (applies cfg (lit "duplicated_function_definition")); auto.
      rewrite (proj2 (compute_lookup ia order _ p O (nodup_r _ N))), (proj2 (compute_lookup ia order _ p O (nodup_r _ N'))); auto;
        intros K; apply in_map_iff in K as (x & Ex & K); apply filter_In in K as (K & _); [apply (Z paths')|apply (Z paths)]; rewrite <- Ex; now apply in_map.
    + subst cu. destruct (applies cfg (lit "unused_function")) eqn:U; auto.
      rewrite !unused_absent; auto; apply Z.
Qed.
End TwoRuns.
Theorem analysis_outside paths st cfg p : proper_files pr paths -> packages_apart pr paths ->
  (forall root, checked_package pr paths root -> ~ above root p) ->
  lookup p (fst (analysis st cfg paths)) = [] /\ lookup p (snd (analysis st cfg paths)) = [].
Proof.
  intros P A Out. unfold analysis, package_analysis. fold hd_.
  destruct (applies cfg (lit "duplicated_function_definition") || applies cfg (lit "unused_function")); [|split; reflexivity].
  cbn [fst snd]. set (cu := applies cfg (lit "unused_function")).
  assert (Z : ~ In p (map pf_path (shared_data (disk pr) hd_ (text_at pr) paths cu))).
  { intros K. apply shared_paths in K as (_ & root & r & Ir & -> & _). apply (Out root); [now apply roots_checked|]. now exists r. }
  split.
  - destruct (applies cfg (lit "duplicated_function_definition")); auto.
    apply (proj2 (compute_lookup ia order _ p O (nodup_r _ (data_nodup paths P A cu)))).
    intros K. apply in_map_iff in K as (x & Ex & K). apply filter_In in K as (K & _). apply Z. rewrite <- Ex. now apply in_map.
  - subst cu. destruct (applies cfg (lit "unused_function")); auto. now apply unused_absent.
Qed.
Theorem analysis_placed paths paths' st cfg p : proper_files pr paths -> proper_files pr paths' -> packages_apart pr paths -> packages_apart pr paths' ->
  In p paths -> In p paths' -> well_placed pr paths p -> well_placed pr paths' p ->
  lookup p (fst (analysis st cfg paths)) = lookup p (fst (analysis st cfg paths')) /\
  lookup p (snd (analysis st cfg paths)) = lookup p (snd (analysis st cfg paths')).
Proof.
  intros P P' A A' I I' [(root & R)|W] [(root' & R')|W'].
  - eapply analysis_same; eauto.
  - exfalso. destruct (R) as ((n & -> & _) & _). apply (W' root); [now exists (root ++ [lit "R"; n])|now exists [lit "R"; n]].
  - exfalso. destruct (R') as ((n & -> & _) & _). apply (W root'); [now exists (root' ++ [lit "R"; n])|now exists [lit "R"; n]].
  - destruct (analysis_outside paths st cfg p P A W) as (-> & ->). now destruct (analysis_outside paths' st cfg p P' A' W') as (-> & ->).
Qed.
End Analysis.
