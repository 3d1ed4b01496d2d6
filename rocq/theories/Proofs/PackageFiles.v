(** Which files are analysed, and with what scope (C21, C55). *)
From Verif Require Import Model.Text Model.Base Model.Cli Model.Package Spec.PackageSpec.
From Verif Require Import Proofs.TextProofs Proofs.CliDiscover Proofs.PackageDup.

Lemma scope_not_r p : file_scope_from_path p <> SR.
Proof.
  induction p as [|c r IH]; [discriminate|]. cbn [file_scope_from_path]. destruct (teqb c (lit "tests")); [discriminate|].
  match goal with |- (if ?b then _ else _) <> _ => destruct b end; [discriminate|].
  destruct (teqb c (lit "src")); [discriminate|exact IH].
Qed.
Lemma scope_area root rest s :
  (forall c, In c root -> c <> lit "tests" /\ c <> lit "src" /\ c <> lit "inst") -> area rest s ->
  file_scope_from_path (root ++ rest) = s.
Proof.
  intros H A. induction root as [|c r IH].
  - destruct A; reflexivity.
  - change ((c :: r) ++ rest) with (c :: (r ++ rest)).
    destruct (H c (or_introl eq_refl)) as (H1 & H2 & H3).
    cbn [file_scope_from_path]. rewrite (proj2 (teqb_neq _ _) H1), (proj2 (teqb_neq _ _) H2), (proj2 (teqb_neq _ _) H3).
    rewrite andb_false_l. apply IH. intros x I. apply H. now right.
Qed.

Section Files.
Variable disk : list dpath.
Variable has_description : dpath -> bool.
Variable content : dpath -> option text.
Lemma dedup_in l x : In x (dedup l) <-> In x l.
Proof.
  induction l as [|y l IH]; simpl; [tauto|]. destruct (pmem y l) eqn:E.
  - rewrite IH. apply pmem_iff in E. split; auto. intros [->|H]; auto.
  - simpl. rewrite IH. tauto.
Qed.
Lemma dedup_nodup l : NoDup (dedup l).
Proof.
  induction l as [|y l IH]; simpl; [constructor|]. destruct (pmem y l) eqn:E; auto. constructor; auto.
  rewrite dedup_in. now apply pmem_not.
Qed.
Lemma nodup_app {A} (a b : list A) : NoDup a -> NoDup b -> (forall x, In x a -> ~ In x b) -> NoDup (a ++ b).
Proof.
  intros Na Nb H. induction a as [|x a IH]; simpl; auto. inversion Na; subst. constructor.
  - rewrite in_app_iff. intros [I|I]; [contradiction|]. apply (H x); [now left|auto].
  - apply IH; auto. intros y I. apply H. now right.
Qed.
Lemma nodup_filter' {A} f (l : list A) : NoDup l -> NoDup (filter f l).
Proof. intros H. now apply NoDup_filter. Qed.
Lemma nodup_flat_map {A B} (g : A -> list B) l : NoDup l -> (forall x, NoDup (g x)) ->
  (forall x y z, In x l -> In y l -> In z (g x) -> In z (g y) -> x = y) -> NoDup (flat_map g l).
Proof.
  intros N G D. induction l as [|x l IH]; simpl; [constructor|]. inversion N as [|? ? N1 N2]; subst.
  apply nodup_app; auto.
  - apply IH; auto. intros. eapply D; eauto; now right.
  - intros z Iz K. apply in_flat_map in K as (y & Iy & Ky). apply N1.
    rewrite (D x y z) by (auto; first [now left|now right]). auto.
Qed.
(** The R files: those given, then the others of the same packages. *)
Definition the_r_files (paths : list dpath) : list dpath :=
  let given := filter (fun p => r_file p && in_package has_description p) paths in
  given ++ flat_map (fun root => filter (fun p => negb (pmem p given)) (collect_files disk (root ++ [lit "R"]) r_file))
             (dedup (map (fun p => parent (parent p)) given)).
Lemma filter_flat_map {A B} (f : B -> bool) (g : A -> list B) l : filter f (flat_map g l) = flat_map (fun x => filter f (g x)) l.
Proof. induction l as [|x l IH]; simpl; auto. now rewrite filter_app, IH. Qed.
Lemma shared_r_paths paths cu : exists keep,
  map pf_path (filter (fun f => scope_eqb (pf_scope f) SR) (shared_data disk has_description content paths cu)) =
  filter keep (the_r_files paths).
Proof.
  exists (fun p => match content p with Some _ => true | None => false end).
  unfold shared_data, scan_list. rewrite !flat_map_app, !filter_app, !map_app.
  unfold the_r_files. rewrite filter_app.
  set (given := filter (fun p => r_file p && in_package has_description p) paths).
  assert (A : forall l, map pf_path (filter (fun f => scope_eqb (pf_scope f) SR)
     (flat_map (fun e => match shared has_description content e with Some f => [f] | None => [] end) (map (fun p => (p, SR)) l)))
     = filter (fun p => match content p with Some _ => true | None => false end) l).
  { induction l as [|p l IH]; auto. cbn [map flat_map]. rewrite filter_app, map_app, IH. unfold shared at 1. cbn [fst snd filter].
    destruct (content p); reflexivity. }
  assert (B : forall l, filter (fun f => scope_eqb (pf_scope f) SR)
     (flat_map (fun e => match shared has_description content e with Some f => [f] | None => [] end) (map (fun p => (p, file_scope_from_path p)) l)) = []).
  { induction l as [|p l IH]; auto. cbn [map flat_map]. rewrite filter_app, IH, app_nil_r. unfold shared. cbn [fst snd].
    pose proof (scope_not_r p) as N. destruct (content p); [|reflexivity].
    destruct (file_scope_from_path p); [congruence| | |]; destruct (find_package_root has_description p); reflexivity. }
  rewrite !A, B. cbn [map]. now rewrite app_nil_r.
Qed.
Theorem shared_distinct paths cu : NoDup paths -> NoDup disk ->
  (forall p q r, In p paths -> In q paths -> under (parent (parent p) ++ [lit "R"]) r = true ->
     under (parent (parent q) ++ [lit "R"]) r = true -> parent (parent p) = parent (parent q)) ->
  distinct_files (shared_data disk has_description content paths cu).
Proof.
  intros Np Nd H. unfold distinct_files. destruct (shared_r_paths paths cu) as (keep & ->). apply NoDup_filter.
  unfold the_r_files. set (given := filter (fun p => r_file p && in_package has_description p) paths).
  apply nodup_app.
  - now apply NoDup_filter.
  - apply nodup_flat_map.
    + apply dedup_nodup.
    + intros x. apply NoDup_filter. unfold collect_files. now apply NoDup_filter.
    + intros x y z Ix Iy Zx Zy. apply dedup_in, in_map_iff in Ix as (px & <- & Ix). apply dedup_in, in_map_iff in Iy as (py & <- & Iy).
      apply filter_In in Ix as (Ix & _). apply filter_In in Iy as (Iy & _).
      apply filter_In in Zx as (Zx & _). apply filter_In in Zy as (Zy & _).
      unfold collect_files in Zx, Zy. apply filter_In in Zx as (_ & Zx). apply filter_In in Zy as (_ & Zy).
      apply andb_true_iff in Zx as (Zx & _). apply andb_true_iff in Zx as (Zx & _).
      apply andb_true_iff in Zy as (Zy & _). apply andb_true_iff in Zy as (Zy & _).
      now apply (H px py z).
  - intros x Ix K. apply in_flat_map in K as (root & _ & K). apply filter_In in K as (_ & K).
    apply negb_true_iff, pmem_not in K. contradiction.
Qed.
End Files.
