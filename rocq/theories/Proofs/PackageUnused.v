(** Unused functions (C22, C55, C56). *)
From Coq Require Import Permutation.
From Verif Require Import Model.Text Model.Base Model.Cli Model.Package Spec.PackageSpec.
From Verif Require Import Proofs.TextProofs Proofs.CliDiscover Proofs.PackageScan Proofs.PackageDup Proofs.PackageWords Proofs.PackageExports.

Section Unused.
Variable ia : char -> bool.
Variable regex : text -> option (text -> bool).
Variable skipped : text -> bool.
Variable namespace : dpath -> option text.

Definition of_scope (s : scope) (fs : list pfile) := filter (fun f => scope_eqb (pf_scope f) s) fs.
Definition not_r (fs : list pfile) := filter (fun f => negb (scope_eqb (pf_scope f) SR)) fs.
(** [d] of [f] is reported when [grp] is the package of [f]. *)
Definition reported (grp : list pfile) (f : pfile) (d : adef) : Prop :=
  In f grp /\ In d (assignments ia f) /\
  exists first rest ns, of_scope SR grp = first :: rest /\ namespace (pf_root first) = Some ns /\
  match pf_scope f with
  | SR => unused_in_r ia skipped (parse_namespace_exports regex ns (names_of ia (of_scope SR grp))) (of_scope SR grp) (not_r grp) d = true
  | STests => unused_in_scope ia skipped (of_scope STests grp) d = true
  | SInst => unused_in_scope ia skipped (of_scope SInst grp) d = true
  | SSrc => False
  end.

Lemma scope_eqb_eq a b : scope_eqb a b = true <-> a = b.
Proof. destruct a, b; simpl; split; congruence. Qed.
Lemma of_scope_in s fs f : In f (of_scope s fs) <-> In f fs /\ pf_scope f = s.
Proof. unfold of_scope. now rewrite filter_In, scope_eqb_eq. Qed.

Lemma fold_inv {A B} (P : B -> Prop) (step : B -> A -> B) l : forall b, P b ->
  (forall b a, In a l -> P b -> P (step b a)) -> P (fold_left step l b).
Proof.
  induction l as [|a l IH]; intros b Hb H; simpl; auto. apply IH.
  - apply H; auto. now left.
  - intros. apply H; auto. now right.
Qed.
Lemma fold_reach {A B} (P : B -> Prop) (step : B -> A -> B) l a : In a l ->
  (forall b, P (step b a)) -> (forall b x, In x l -> P b -> P (step b x)) ->
  forall b, P (fold_left step l b).
Proof.
  intros I H1 H2 b. apply in_split in I as (l1 & l2 & ->). rewrite fold_left_app. simpl.
  apply fold_inv; auto. intros. apply H2; auto. apply in_or_app. right. now right.
Qed.

Definition all_ok (P : dpath -> adef -> Prop) (m : rmap) : Prop := forall p d, In d (lookup p m) -> P p d.
Lemma ok_insert P p v m : all_ok P m -> (forall d, In d v -> P p d) -> all_ok P (rinsert p v m).
Proof.
  intros H K q d. unfold rinsert. simpl. destruct (peqb q p) eqn:E; auto. apply peqb_eq in E. subst. auto.
Qed.
Lemma ok_extend P p v m : all_ok P m -> (forall d, In d v -> P p d) -> all_ok P (rextend p v m).
Proof.
  intros H K q d. unfold rextend. simpl. destruct (peqb q p) eqn:E; auto. apply peqb_eq in E. subst.
  rewrite in_app_iff. intros [I|I]; auto.
Qed.
Lemma report_scope_ok P s grp m : all_ok P m ->
  (forall f d, In f grp -> pf_scope f = s -> In d (assignments ia f) -> unused_in_scope ia skipped (of_scope s grp) d = true -> P (pf_path f) d) ->
  all_ok P (report_scope ia skipped (of_scope s grp) m).
Proof.
  intros H K. unfold report_scope. apply fold_inv; auto. intros m' f I H'.
  destruct (filter _ (assignments ia f)) eqn:E; auto. rewrite <- E. apply ok_extend; auto.
  intros d Id. apply filter_In in Id as (Id & U). apply of_scope_in in I as (I & Sc). eapply K; eauto.
Qed.
Lemma package_ok P grp m : all_ok P m -> (forall f d, reported grp f d -> P (pf_path f) d) ->
  all_ok P (unused_package ia regex skipped namespace grp m).
Proof.
  intros H K. unfold unused_package. fold (of_scope SR grp). fold (not_r grp).
  destruct (of_scope SR grp) as [|first rest] eqn:R; auto.
  destruct (namespace (pf_root first)) as [ns|] eqn:N; auto.
  rewrite <- R. apply report_scope_ok; [apply report_scope_ok|].
  - apply fold_inv; auto. intros m' f I H'. destruct (filter _ (assignments ia f)) eqn:E; auto. rewrite <- E.
    apply ok_insert; auto. intros d Id. apply filter_In in Id as (Id & U). apply of_scope_in in I as (I & Sc).
    apply K. split; [auto|split; auto]. exists first, rest, ns. repeat split; auto. now rewrite Sc.
  - intros f d I Sc Id U. apply K. split; [auto|split; auto]. exists first, rest, ns. repeat split; auto. now rewrite Sc.
  - intros f d I Sc Id U. apply K. split; [auto|split; auto]. exists first, rest, ns. repeat split; auto. now rewrite Sc.
Qed.
Theorem unused_sound order fs p d : (forall gs, Permutation (order gs) gs) ->
  In d (lookup p (compute_unused ia regex skipped order namespace fs)) ->
  exists f, In f fs /\ pf_path f = p /\ reported (of_root (pf_root f) fs) f d.
Proof.
  intros O. unfold compute_unused. revert p d.
  apply (fold_inv (all_ok (fun p d => exists f, In f fs /\ pf_path f = p /\ reported (of_root (pf_root f) fs) f d))).
  - intros p d []. 
  - intros m [k grp] I H. simpl. apply package_ok; auto. intros f d Rp. exists f.
    destruct (by_package_ok fs) as (_ & G & _). apply (Permutation_in _ (O _)) in I. apply G in I. subst grp.
    assert (If := proj1 Rp). apply filter_In in If as (If & E). apply peqb_eq in E. subst k. auto.
Qed.

Definition has (p : dpath) (d : adef) (m : rmap) : Prop := In d (lookup p m).
Lemma has_extend p d q v m : has p d m -> has p d (rextend q v m).
Proof.
  unfold has, rextend. simpl. destruct (peqb p q) eqn:E; auto. apply peqb_eq in E. subst. rewrite in_app_iff. auto.
Qed.
Lemma has_scope p d s grp m : has p d m -> has p d (report_scope ia skipped (of_scope s grp) m).
Proof.
  intros H. unfold report_scope. apply fold_inv; auto. intros m' f _ H'.
  destruct (filter _ _); auto. now apply has_extend.
Qed.
Lemma has_scope_new f d s grp m : In f grp -> pf_scope f = s -> In d (assignments ia f) ->
  unused_in_scope ia skipped (of_scope s grp) d = true -> has (pf_path f) d (report_scope ia skipped (of_scope s grp) m).
Proof.
  intros I Sc Id U. unfold report_scope. apply fold_reach with (a := f).
  - now apply of_scope_in.
  - intros b. assert (In d (filter (unused_in_scope ia skipped (of_scope s grp)) (assignments ia f))) as X by now apply filter_In.
    destruct (filter _ _) as [|x l]; [destruct X|]. unfold has, rextend. simpl. rewrite peqb_refl. apply in_or_app. auto.
  - intros b x _ H. destruct (filter _ _); auto. now apply has_extend.
Qed.
Lemma package_keep p d grp m : has p d m -> (forall f, In f grp -> pf_path f <> p) ->
  has p d (unused_package ia regex skipped namespace grp m).
Proof.
  intros H K. unfold unused_package. fold (of_scope SR grp). fold (not_r grp).
  destruct (of_scope SR grp) as [|first rest] eqn:R; auto.
  destruct (namespace (pf_root first)) as [ns|] eqn:N; auto. rewrite <- R.
  apply has_scope, has_scope. apply fold_inv; auto. intros m' f I H'. destruct (filter _ _) eqn:E; auto.
  unfold has, rinsert. simpl. destruct (peqb p (pf_path f)) eqn:Ep; auto. apply peqb_eq in Ep.
  apply of_scope_in in I as (I & _). exfalso. eapply K; eauto.
Qed.
Lemma package_new grp f d m : NoDup (map pf_path grp) -> reported grp f d ->
  has (pf_path f) d (unused_package ia regex skipped namespace grp m).
Proof.
  intros ND (I & Id & first & rest & ns & R & N & U). unfold unused_package. fold (of_scope SR grp). fold (not_r grp).
  rewrite R, N, <- R. destruct (pf_scope f) eqn:Sc.
  - apply has_scope, has_scope. apply fold_reach with (a := f).
    + now apply of_scope_in.
    + intros b. match goal with |- context [filter ?g (assignments ia f)] => assert (In d (filter g (assignments ia f))) as X by now apply filter_In end.
      destruct (filter _ _) as [|x l]; [destruct X|]. unfold has, rinsert. simpl. now rewrite peqb_refl.
    + intros b x Ix H. destruct (filter _ (assignments ia x)) eqn:Fx; auto.
      unfold has, rinsert. simpl. destruct (peqb (pf_path f) (pf_path x)) eqn:Ep; auto. apply peqb_eq in Ep.
      apply of_scope_in in Ix as (Ix & Sx). assert (f = x) by (eapply nodup_inj; eauto). subst x.
      rewrite <- Fx. apply filter_In. auto.
  - apply has_scope. now apply has_scope_new.
  - now apply has_scope_new.
  - destruct U.
Qed.
Theorem unused_complete order fs f d : (forall gs, Permutation (order gs) gs) -> NoDup (map pf_path fs) ->
  In f fs -> reported (of_root (pf_root f) fs) f d ->
  In d (lookup (pf_path f) (compute_unused ia regex skipped order namespace fs)).
Proof.
  intros O ND I R. unfold compute_unused. destruct (by_package_ok fs) as (NK & G & C).
  assert (Ig : In (pf_root f, of_root (pf_root f) fs) (order (by_package fs))).
  { apply (Permutation_in _ (Permutation_sym (O _))). specialize (C f I). apply in_map_iff in C as ([k l] & E & C).
    simpl in E. subst k. rewrite <- (G _ _ C). exact C. }
  apply in_split in Ig as (l1 & l2 & E). rewrite E, fold_left_app. simpl.
  apply (fold_inv (has (pf_path f) d)).
  - apply package_new; auto. now apply nodup_filter.
  - intros m [k grp] Ik H. simpl. apply package_keep; auto. intros x Ix Ep.
    assert (In (k, grp) (order (by_package fs))) as Io by (rewrite E; apply in_or_app; right; now right).
    pose proof (Permutation_in _ (O _) Io) as Ib. rewrite (G _ _ Ib) in Ix. apply filter_In in Ix as (Ix & Ek).
    apply peqb_eq in Ek. assert (x = f) by (eapply nodup_inj; eauto). subst x. subst k.
    assert (NDo : NoDup (map fst (order (by_package fs)))).
    { eapply Permutation_NoDup; [apply Permutation_map, Permutation_sym, O|exact NK]. }
    rewrite E, map_app in NDo. simpl in NDo. apply NoDup_remove_2 in NDo. apply NDo. apply in_or_app. right.
    change (pf_root f) with (fst (pf_root f, grp)). now apply in_map.
Qed.
End Unused.
