(** Every file of a package is searched (C22). *)
From Verif Require Model.Driver.
From Verif Require Import Model.Text Model.Base Model.Cli Model.Package Spec.CliSpec Spec.PackageSpec.
From Verif Require Import Proofs.TextProofs Proofs.ExtensionProofs Proofs.CliDiscover Proofs.PackageFiles.

Lemma cpp_iff q : Package.cpp_file q = true <-> c_path (last q []).
Proof.
  unfold Package.cpp_file, c_path. rewrite <- !extension_iff by ext_lit.
  destruct (Driver.extension (last q [])) as [e|]; [|intuition discriminate].
  rewrite !Bool.orb_true_iff, !teqb_eq. split; [intros [[[ -> | -> ]| -> ]| -> ]; auto|].
  intros [H|[H|[H|H]]]; injection H as ->; auto.
Qed.

Lemma find_anc h r : forall root, above root (rev r) -> h root = true ->
  (forall d, above d (rev r) -> h d = true -> length d <= length root) ->
  find h (anc_rev r) = Some root.
Proof.
  induction r as [|x r IH]; intros root A H M; cbn [anc_rev find].
  - destruct A as [q E]. cbn in E. symmetry in E. apply app_eq_nil in E as (-> & _). cbn. now rewrite H.
  - cbn [rev] in *. destruct (h (rev r ++ [x])) eqn:E.
    + pose proof (M _ (above_refl _) E) as L. f_equal. symmetry. apply (above_same _ _ _ A (above_refl _)).
      pose proof (above_len _ _ A). lia.
    + apply IH; auto.
      * apply above_snoc in A as [->|A]; auto. congruence.
      * intros d D. apply M. destruct D as [q ->]. exists (q ++ [x]). now rewrite app_assoc.
Qed.
Lemma parent_app q rest : rest <> [] -> parent (q ++ rest) = q ++ removelast rest.
Proof. intros H. unfold parent. now apply removelast_app. Qed.
Lemma find_root has_description q root : package_of has_description q root ->
  find_package_root has_description q = Some root.
Proof.
  intros (H & (rest & N & ->) & M). unfold find_package_root, ancestors. rewrite parent_app by auto. apply find_anc; auto.
  - rewrite rev_involutive. eexists. reflexivity.
  - intros d A. rewrite rev_involutive in A. destruct A as [r E]. intros Hd.
    destruct (exists_last N) as (rest' & x & ->). rewrite removelast_last in E.
    apply (M d (r ++ [x])); auto; [destruct r; discriminate|]. rewrite app_assoc, E, <- app_assoc. reflexivity.
Qed.
Lemma under_app d r : under d (d ++ r) = true.
Proof. apply under_iff. now exists r. Qed.

Section Search.
Variables (disk : list dpath) (has_description : dpath -> bool) (content : dpath -> option text) (paths : list dpath) (root : dpath).
Hypothesis some_r : exists p n, In p paths /\ p = root ++ [lit "R"; n] /\ r_file p = true.
Hypothesis is_root : has_description root = true.

Let given := filter (fun p => r_file p && in_package has_description p) paths.
Lemma in_pkg n : in_package has_description (root ++ [lit "R"; n]) = true.
Proof.
  unfold in_package. assert (E : parent (root ++ [lit "R"; n]) = root ++ [lit "R"]) by (rewrite parent_app by discriminate; reflexivity).
  rewrite E. rewrite last_last. rewrite parent_app by discriminate. cbn [removelast]. rewrite app_nil_r, is_root. now rewrite teqb_refl.
Qed.
Lemma root_in : In root (dedup (map (fun p => parent (parent p)) given)).
Proof.
  apply (dedup_in has_description content). destruct some_r as (p & n & Hp & -> & R). apply in_map_iff. exists (root ++ [lit "R"; n]). split.
  - rewrite parent_app by discriminate. cbn [removelast]. rewrite parent_app by discriminate. cbn [removelast]. apply app_nil_r.
  - apply filter_In. split; auto. now rewrite R, in_pkg.
Qed.
Lemma collected d rest pred : In (d ++ rest) disk -> rest <> [] -> pred (d ++ rest) = true -> In (d ++ rest) (collect_files disk d pred).
Proof.
  intros I N P. unfold collect_files. apply filter_In. split; auto. rewrite under_app, P.
  assert (L : length d <? length (d ++ rest) = true).
  { apply Nat.ltb_lt. rewrite app_length. destruct rest; [congruence|cbn; lia]. }
  now rewrite L.
Qed.

Lemma r_searched cu q c : In q disk -> content q = Some c -> r_source root q ->
  In (mk_pf (root ++ [lit "R"]) q SR c) (shared_data disk has_description content paths cu).
Proof.
  intros I C (n & E & R). unfold shared_data. apply in_flat_map. exists (q, SR). split.
  - unfold scan_list. fold given. apply in_or_app. destruct (pmem q given) eqn:M.
    + left. apply pmem_iff in M. now apply in_map_iff; exists q.
    + right. apply in_or_app. left. apply in_map_iff. exists q. split; auto. apply in_flat_map. exists root.
      split; [exact root_in|]. apply filter_In. split; [|now rewrite M].
      subst q. replace (root ++ [lit "R"; n]) with ((root ++ [lit "R"]) ++ [n]) in * by now rewrite <- app_assoc.
      apply collected; auto. discriminate.
  - unfold shared. cbn [fst snd]. rewrite C. left. f_equal. subst q. rewrite parent_app by discriminate. reflexivity.
Qed.
Lemma other_searched q c : In q disk -> content q = Some c -> other_source root q ->
  package_of has_description q root ->
  (forall x, In x root -> x <> lit "tests" /\ x <> lit "src" /\ x <> lit "inst") ->
  exists s, s <> SR /\ In (mk_pf (root ++ [lit "R"]) q s c) (shared_data disk has_description content paths true).
Proof.
  intros I C (rest & s & E & A & P1' & P2') K X.
  assert (P1 : s = SSrc -> cpp_file q = true) by (intros Q; apply cpp_iff; auto).
  assert (P2 : s <> SSrc -> r_file q = true) by (intros Q; apply has_r_iff; auto).
  assert (Sc : file_scope_from_path q = s) by (subst q; now apply scope_area).
  assert (Ns : s <> SR) by (destruct A; discriminate).
  exists s. split; auto. unfold shared_data. apply in_flat_map. exists (q, s). split.
  - unfold scan_list. fold given. apply in_or_app. right. apply in_or_app. right. apply in_map_iff. exists q. split; [now rewrite Sc|].
    apply in_flat_map. exists root. split; [exact root_in|]. clear Sc.
    assert (N : forall d r, q = root ++ d ++ r -> r <> []-> forall pred, pred q = true -> In q (collect_files disk (root ++ d) pred)).
    { intros d r Eq Nr pred Pq. rewrite app_assoc in Eq. rewrite Eq in *. now apply collected. }
    assert (Nn : forall d r, q = root ++ d ++ r -> (r <> [] \/ r = [])) by (intros d [|? ?]; auto; left; discriminate).
    (* a path that is the directory itself has no extension *)
    destruct A as [r|r|r|r]; rewrite !in_app_iff.
    + right. right. left. destruct r as [|y r]; [exfalso|apply (N [lit "tests"] (y :: r)); auto; try discriminate; apply P2; discriminate].
      assert (r_file q = true) by (apply P2; discriminate). subst q. unfold r_file in H. rewrite last_last in H. vm_compute in H. discriminate.
    + left. destruct r as [|y r]; [exfalso|apply (N [lit "inst"; lit "tinytest"] (y :: r)); auto; try discriminate; apply P2; discriminate].
      assert (r_file q = true) by (apply P2; discriminate). subst q.
      replace (root ++ [lit "inst"; lit "tinytest"]) with ((root ++ [lit "inst"]) ++ [lit "tinytest"]) in H by now rewrite <- app_assoc.
      unfold r_file in H. rewrite last_last in H. vm_compute in H. discriminate.
    + right. left. destruct r as [|y r]; [exfalso|apply (N [lit "inst"; lit "tests"] (y :: r)); auto; try discriminate; apply P2; discriminate].
      assert (r_file q = true) by (apply P2; discriminate). subst q.
      replace (root ++ [lit "inst"; lit "tests"]) with ((root ++ [lit "inst"]) ++ [lit "tests"]) in H by now rewrite <- app_assoc.
      unfold r_file in H. rewrite last_last in H. vm_compute in H. discriminate.
    + right. right. right. destruct r as [|y r]; [exfalso|apply (N [lit "src"] (y :: r)); auto; try discriminate; apply P1; reflexivity].
      assert (cpp_file q = true) by (apply P1; reflexivity). subst q. unfold cpp_file in H. rewrite last_last in H. vm_compute in H. discriminate.
  - unfold shared. cbn [fst snd]. rewrite C, (find_root _ _ _ K). destruct s; [congruence| | |]; now left.
Qed.

Lemma shared_scope cu f n : (forall p, In p paths -> r_file p = true -> in_package has_description p = true -> parent (parent p) = root) ->
  pf_path f = root ++ [lit "R"; n] ->
  In f (shared_data disk has_description content paths cu) -> pf_scope f = SR /\ pf_root f = root ++ [lit "R"].
Proof.
  intros One E I. unfold shared_data in I. apply in_flat_map in I as ((q & s) & I & H).
  assert (Q : pf_path f = q /\ pf_scope f = s /\ (s = SR -> pf_root f = parent q)).
  { unfold shared in H. cbn [fst snd] in H. destruct (content q); [|destruct H].
    destruct s; [destruct H as [<-|[]]; auto| | |];
      (destruct (find_package_root has_description q); [|destruct H]; destruct H as [<-|[]]; repeat split; discriminate). }
  destruct Q as (Q1 & Q2 & Q3). rewrite E in Q1. subst q.
  assert (s = SR) as ->.
  { unfold scan_list in I. fold given in I. rewrite !in_app_iff in I. destruct I as [I|[I|I]].
    - apply in_map_iff in I as (? & [= _ <-] & _). reflexivity.
    - apply in_map_iff in I as (? & [= _ <-] & _). reflexivity.
    - exfalso. apply in_map_iff in I as (q & [= Eq _] & I). subst q. destruct cu; [|destruct I].
      apply in_flat_map in I as (r0 & Ir & I).
      assert (r0 = root) as ->.
      { apply (proj1 (dedup_in has_description content _ _)) in Ir. apply in_map_iff in Ir as (p & <- & Hp). apply filter_In in Hp as (Hp & K).
        apply andb_true_iff in K as (K1 & K2). now apply One. }
      assert (X : forall d x pred, x <> lit "R" -> ~ In (root ++ [lit "R"; n]) (collect_files disk (root ++ x :: d) pred)).
      { intros d x pred Nx K. unfold collect_files in K. apply filter_In in K as (_ & K).
        apply andb_true_iff in K as (K & _). apply andb_true_iff in K as (K & _). apply under_iff in K as (z & K).
        rewrite <- app_assoc in K. apply app_inv_head in K. apply (f_equal (hd [])) in K. cbn [hd app] in K. congruence. }
      rewrite !in_app_iff in I. destruct I as [I|[I|[I|I]]]; revert I; apply X; discriminate. }
  split; auto. rewrite Q3 by auto. rewrite parent_app by discriminate. reflexivity.
Qed.
End Search.
