(** Duplicated definitions (C21). *)
From Coq Require Import Permutation Sorting.Sorted.
From Verif Require Import Model.Text Model.Base Model.Cli Model.Package Spec.PackageSpec.
From Verif Require Import Proofs.TextProofs Proofs.CliDiscover Proofs.CliReport Proofs.PackageScan.

(** ** Grouping *)
Section Group.
Definition of_root (k : dpath) (fs : list pfile) := filter (fun f => peqb (pf_root f) k) fs.
Definition groups_ok (fs : list pfile) (gs : list (dpath * list pfile)) : Prop :=
  NoDup (map fst gs) /\ (forall k l, In (k, l) gs -> l = of_root k fs) /\
  (forall f, In f fs -> In (pf_root f) (map fst gs)).
Lemma add_file_in f gs k l : NoDup (map fst gs) ->
  In (k, l) (add_file f gs) <->
  (k <> pf_root f /\ In (k, l) gs) \/
  (k = pf_root f /\ ((exists l0, In (k, l0) gs /\ l = l0 ++ [f]) \/ (~ In k (map fst gs) /\ l = [f]))).
Proof.
  induction gs as [|[k0 l0] gs IH]; intros N; simpl.
  - split.
    + intros [[= <- <-]|[]]. right. split; auto.
    + intros [(_ & [])|(-> & [(? & [] & _)|(_ & ->)])]. auto.
  - simpl in N. inversion N as [|? ? N1 N2]; subst. destruct (peqb (pf_root f) k0) eqn:E.
    + apply peqb_eq in E. subst k0. simpl. split.
      * intros [[= <- <-]|H]; [right; split; auto; left; eauto|].
        left. split; auto. intros ->. apply N1. apply (in_map fst) in H. exact H.
      * intros [(H1 & [[= <- <-]|H])|(-> & [(l1 & [[= <-]|H] & ->)|(H & _)])]; auto; try congruence.
        -- exfalso. apply N1. apply (in_map fst) in H. exact H.
        -- exfalso. apply H. auto.
    + apply peqb_neq in E. simpl. rewrite IH by auto. split.
      * intros [[= <- <-]|[(H1 & H2)|(-> & [(l1 & H1 & ->)|(H1 & ->)])]]; auto.
        -- right. split; auto. left. eauto.
        -- right. split; auto. right. split; auto. intros [H|H]; congruence.
      * intros [(H1 & [[= <- <-]|H2])|(Ek & [(l1 & [Ep|H1] & ->)|(H1 & ->)])]; auto; try congruence.
        -- right. right. split; auto. left. eauto.
        -- right. right. split; auto. right. split; auto.
Qed.
Lemma add_file_keys f gs : map fst (add_file f gs) = map fst gs \/
  (~ In (pf_root f) (map fst gs) /\ map fst (add_file f gs) = map fst gs ++ [pf_root f]).
Proof.
  induction gs as [|[k l] gs IH]; simpl; auto.
  destruct (peqb (pf_root f) k) eqn:E; simpl; auto. apply peqb_neq in E.
  destruct IH as [->|(H & ->)]; auto. right. split; auto. intros [K|K]; congruence.
Qed.
Lemma nodup_snoc {A} (x : A) l : NoDup l -> ~ In x l -> NoDup (l ++ [x]).
Proof.
  intros N H. apply (Permutation_NoDup (l := x :: l)); [|now constructor].
  apply Permutation_cons_append.
Qed.
Lemma by_package_ok fs : groups_ok fs (by_package fs).
Proof.
  unfold by_package. rewrite <- fold_left_rev_right. set (r := rev fs).
  assert (G : groups_ok (rev r) (fold_right (fun f gs => add_file f gs) [] r)).
  { induction r as [|f r IH]; simpl; [repeat split; try constructor; intros; easy|].
    destruct IH as (N & G & K). set (gs := fold_right _ _ r) in *. split; [|split].
    - destruct (add_file_keys f gs) as [->|(H & ->)]; auto. now apply nodup_snoc.
    - intros k l H. apply add_file_in in H; auto. unfold of_root in *. rewrite filter_app. simpl.
      destruct H as [(H1 & H2)|(-> & [(l0 & H1 & ->)|(H1 & ->)])].
      + assert (E : peqb (pf_root f) k = false) by (apply peqb_neq; congruence).
        rewrite E, app_nil_r. auto.
      + rewrite peqb_refl, <- (G _ _ H1). reflexivity.
      + rewrite peqb_refl. assert (E : filter (fun g => peqb (pf_root g) (pf_root f)) (rev r) = []); [|now rewrite E].
        destruct (filter _ _) as [|x xs] eqn:E; auto. exfalso. apply H1.
        assert (I : In x (x :: xs)) by now left. rewrite <- E in I. apply filter_In in I as (I & P).
        apply peqb_eq in P. rewrite <- P. auto.
    - intros g Hg. apply in_app_iff in Hg as [Hg|[<-|[]]].
      + destruct (add_file_keys f gs) as [->|(H & ->)]; auto. apply in_or_app; auto.
      + destruct (add_file_keys f gs) as [E|(H & ->)]; [|apply in_or_app; right; now left].
        rewrite E. clear -E. induction gs as [|[k l] gs IH]; simpl in *; [discriminate|].
        destruct (peqb (pf_root f) k) eqn:P; [apply peqb_eq in P; auto|]. right. apply IH. simpl in E. now injection E. }
  unfold r in G. rewrite rev_involutive in G. exact G.
Qed.
End Group.

(** ** The duplicates of one package *)
Section Flat.
Fixpoint flat_dups (seen : list (text * (dpath * nat))) (all : list (dpath * adef)) : list (dpath * dup) :=
  match all with
  | [] => []
  | (p, d) :: r =>
      match first_seen (ad_name d) seen with
      | Some first => (p, (d, first)) :: flat_dups seen r
      | None => flat_dups ((ad_name d, (p, ad_line d)) :: seen) r
      end
  end.
Definition locs (pre : list (dpath * adef)) (n : text) : option (dpath * nat) :=
  option_map (fun x => (fst x, ad_line (snd x))) (find (fun x => teqb n (ad_name (snd x))) pre).
Definition agrees (seen : list (text * (dpath * nat))) (pre : list (dpath * adef)) : Prop :=
  forall n, first_seen n seen = locs pre n.
Lemma find_app' {A} (f : A -> bool) a b : find f (a ++ b) = match find f a with Some x => Some x | None => find f b end.
Proof. induction a as [|x a IH]; simpl; auto. destruct (f x); auto. Qed.
Lemma agrees_step seen pre p d : agrees seen pre ->
  agrees (match first_seen (ad_name d) seen with Some _ => seen | None => (ad_name d, (p, ad_line d)) :: seen end) (pre ++ [(p, d)]).
Proof.
  intros A n. unfold locs. rewrite find_app'. specialize (A n) as An. unfold locs in An.
  destruct (first_seen (ad_name d) seen) as [f|] eqn:E; simpl.
  - rewrite An. destruct (find _ pre) as [x|] eqn:F; auto. simpl.
    destruct (teqb n (ad_name d)) eqn:T; auto. apply teqb_eq in T. subst n. simpl in An. congruence.
  - destruct (teqb n (ad_name d)) eqn:T.
    + apply teqb_eq in T. subst n. rewrite E in An. destruct (find _ pre); [discriminate|reflexivity].
    + rewrite An. destruct (find _ pre); auto.
Qed.
Lemma flat_iff all : forall seen pre p d first, agrees seen pre ->
  In (p, (d, first)) (flat_dups seen all) <->
  exists a b, all = a ++ (p, d) :: b /\ locs (pre ++ a) (ad_name d) = Some first.
Proof.
  induction all as [|[q e] all IH]; intros seen pre p d first A.
  - simpl. split; [tauto|]. intros ([|] & ? & E & _); discriminate.
  - pose proof (agrees_step seen pre q e A) as A'.
    assert (R : In (p, (d, first)) (flat_dups (match first_seen (ad_name e) seen with Some _ => seen | None => (ad_name e, (q, ad_line e)) :: seen end) all) <->
      exists a b, all = a ++ (p, d) :: b /\ locs (pre ++ (q, e) :: a) (ad_name d) = Some first).
    { rewrite (IH _ (pre ++ [(q, e)]) p d first A'). split; intros (a & b & H1 & H2); exists a, b; split; auto;
        rewrite <- app_assoc in *; exact H2. }
    specialize (A (ad_name e)). simpl. destruct (first_seen (ad_name e) seen) as [f|] eqn:E.
    + simpl. rewrite R. split.
      * intros [[= <- <- <-]|(a & b & -> & H)].
        -- exists [], all. rewrite app_nil_r. auto.
        -- exists ((q, e) :: a), b. auto.
      * intros ([|x a] & b & H & L).
        -- injection H as -> -> ->. left. rewrite app_nil_r in L. congruence.
        -- injection H as <- ->. right. eauto.
    + rewrite R. split.
      * intros (a & b & -> & H). exists ((q, e) :: a), b. auto.
      * intros ([|x a] & b & H & L).
        -- injection H as -> -> ->. rewrite app_nil_r in L. congruence.
        -- injection H as <- ->. eauto.
Qed.
(** With nothing seen before: the first definition of the name. *)
Lemma flat_first all p d p1 l1 : In (p, (d, (p1, l1))) (flat_dups [] all) <->
  exists a d1 m b, all = a ++ (p1, d1) :: m ++ (p, d) :: b /\ ad_line d1 = l1 /\ ad_name d1 = ad_name d /\
    forall q e, In (q, e) a -> ad_name e <> ad_name d.
Proof.
  rewrite (flat_iff all [] []) by (intros n; reflexivity). simpl. split.
  - intros (a & b & -> & L). unfold locs in L. destruct (find _ a) as [[q e]|] eqn:F; [|discriminate].
    simpl in L. injection L as -> <-.
    assert (K : exists a1 a2, a = a1 ++ (p1, e) :: a2 /\ teqb (ad_name d) (ad_name e) = true /\
              forall x, In x a1 -> teqb (ad_name d) (ad_name (snd x)) = false).
    { clear -F. induction a as [|x a IH]; simpl in F; [discriminate|].
      destruct (teqb (ad_name d) (ad_name (snd x))) eqn:E.
      - injection F as ->. exists [], a. repeat split; auto. intros ? [].
      - destruct (IH F) as (a1 & a2 & -> & H1 & H2). exists (x :: a1), a2. repeat split; auto. intros y [<-|Hy]; auto. }
    destruct K as (a1 & a2 & -> & K1 & K2). apply teqb_eq in K1.
    exists a1, e, a2, b. rewrite <- app_assoc. repeat split; auto.
    intros q e' I. apply K2 in I. simpl in I. apply teqb_neq in I. congruence.
  - intros (a & d1 & m & b & -> & <- & E & H). exists (a ++ (p1, d1) :: m), b. split; [now rewrite <- app_assoc|].
    unfold locs. rewrite find_app'. destruct (find _ a) as [[q e]|] eqn:F.
    + apply find_some in F as (I & T). apply teqb_eq in T. simpl in T. exfalso. eapply H; eauto.
    + simpl. rewrite E, teqb_refl. reflexivity.
Qed.
End Flat.

Section Dup.
Variable ia : char -> bool.
Definition defs_of (fs : list pfile) : list (dpath * adef) :=
  flat_map (fun f => map (fun d => (pf_path f, d)) (assignments ia f)) fs.
Definition at_path (p : dpath) (l : list (dpath * dup)) : list dup :=
  map snd (filter (fun x => peqb p (fst x)) l).
Definition or_else {A} (l m : list A) : list A := match l with [] => m | _ => l end.

Lemma file_flat path ds : forall seen r,
  flat_dups seen (map (fun d => (path, d)) ds ++ r) =
  map (fun x => (path, x)) (snd (file_duplicates path seen ds)) ++ flat_dups (fst (file_duplicates path seen ds)) r.
Proof.
  induction ds as [|d ds IH]; intros seen r; simpl; auto.
  destruct (first_seen (ad_name d) seen); [|apply IH].
  rewrite IH. destruct (file_duplicates path seen ds). reflexivity.
Qed.
Lemma at_path_app p a b : at_path p (a ++ b) = at_path p a ++ at_path p b.
Proof. unfold at_path. now rewrite filter_app, map_app. Qed.
Lemma at_path_same p l : at_path p (map (fun x => (p, x)) l) = l.
Proof. unfold at_path. induction l as [|x l IH]; simpl; auto. rewrite peqb_refl. simpl. now rewrite IH. Qed.
Lemma at_path_other p q l : p <> q -> at_path p (map (fun x => (q, x)) l) = [].
Proof.
  intros H. apply peqb_neq in H. unfold at_path. induction l as [|x l IH]; simpl; auto. now rewrite H.
Qed.
Lemma at_path_none p all seen : (forall q d, In (q, d) all -> q <> p) -> at_path p (flat_dups seen all) = [].
Proof.
  unfold at_path. revert seen. induction all as [|[q e] all IH]; intros seen H; simpl; auto.
  destruct (first_seen (ad_name e) seen); simpl.
  - assert (P : peqb p q = false) by (apply peqb_neq; intros ->; eapply H; [now left|reflexivity]).
    rewrite P. apply IH. intros. eapply H. right. eassumption.
  - apply IH. intros. eapply H. right. eassumption.
Qed.
Lemma package_lookup p fs : forall seen m, NoDup (map pf_path fs) ->
  lookup p (package_duplicates ia seen fs m) = or_else (at_path p (flat_dups seen (defs_of fs))) (lookup p m).
Proof.
  induction fs as [|f fs IH]; intros seen m N; simpl; auto.
  inversion N as [|? ? N1 N2]; subst.
  unfold defs_of. simpl. rewrite file_flat. destruct (file_duplicates (pf_path f) seen (assignments ia f)) as [s ds].
  simpl. rewrite IH by auto. rewrite at_path_app.
  destruct (peqb p (pf_path f)) eqn:P.
  - apply peqb_eq in P. subst p. rewrite at_path_same.
    fold (defs_of fs). assert (Z : at_path (pf_path f) (flat_dups s (defs_of fs)) = []).
    { apply at_path_none. intros q d I ->. unfold defs_of in I. apply in_flat_map in I as (g & Hg & I).
      apply in_map_iff in I as (e & [= E _] & _). apply N1. rewrite <- E. now apply in_map. }
    rewrite Z, app_nil_r. simpl. destruct ds as [|d ds]; simpl; auto. now rewrite peqb_refl.
  - pose proof P as P'. apply peqb_neq in P. rewrite at_path_other by auto. simpl. f_equal.
    destruct ds; simpl; auto. now rewrite P'.
Qed.

Lemma path_leb_total a b : path_leb a b = true \/ path_leb b a = true.
Proof. unfold path_leb. rewrite (pcmp_anti (pf_path a) (pf_path b)). destruct (pcmp (pf_path a) (pf_path b)); simpl; auto. Qed.
Lemma path_leb_iff a b : path_leb a b = true <-> pf_path a = pf_path b \/ pcmp (pf_path a) (pf_path b) = Lt.
Proof.
  unfold path_leb. destruct (pcmp (pf_path a) (pf_path b)) eqn:E; split; auto; try discriminate.
  - apply pcmp_eq in E. auto.
  - intros [K|K]; [|discriminate]. rewrite K, pcmp_refl in E. discriminate.
Qed.
Lemma path_leb_trans a b c : path_leb a b = true -> path_leb b c = true -> path_leb a c = true.
Proof.
  rewrite !path_leb_iff. intros [E1|E1] [E2|E2].
  - left. congruence.
  - right. congruence.
  - right. congruence.
  - right. eapply pcmp_trans; eauto.
Qed.
Lemma sort_perm_eq (l l' : list pfile) : NoDup (map pf_path l) -> Permutation l l' ->
  sort_by path_leb l = sort_by path_leb l'.
Proof.
  intros N P. apply (sorted_unique path_leb path_leb_total).
  - apply sort_by_sorted; (exact path_leb_total || exact path_leb_trans || auto).
  - apply sort_by_sorted; (exact path_leb_total || exact path_leb_trans || auto).
  - intros k. rewrite !sort_by_same by (exact path_leb_total || exact path_leb_trans || auto).
    assert (K : forall l : list pfile, NoDup (map pf_path l) -> forall x, In x (filter (same path_leb k) l) -> filter (same path_leb k) l = [x]).
    { clear. intros l N x Hx. revert x Hx. induction l as [|z l IH]; intros x Hx; simpl in *; [easy|].
      inversion N as [|? ? N1 N2]; subst.
      assert (S : forall z, same path_leb k z = true -> pf_path z = pf_path k).
      { intros y Hy. unfold same in Hy. apply andb_true_iff in Hy as (H1 & H2). apply path_leb_iff in H1, H2.
        destruct H1 as [H1|H1]; auto. destruct H2 as [H2|H2]; auto.
        rewrite pcmp_anti, H1 in H2. discriminate. }
      destruct (same path_leb k z) eqn:E.
      - assert (Z : filter (same path_leb k) l = []).
        { destruct (filter _ l) as [|y r] eqn:F; auto. exfalso. apply N1.
          assert (I : In y (y :: r)) by now left. rewrite <- F in I. apply filter_In in I as (I & Y).
          rewrite (S _ E), <- (S _ Y). now apply in_map. }
        rewrite Z in *. destruct Hx as [<-|[]]. reflexivity.
      - apply IH; auto. }
    assert (N' : NoDup (map pf_path l')) by (eapply Permutation_NoDup; [apply Permutation_map, P|exact N]).
    destruct (filter (same path_leb k) l) as [|x r] eqn:F.
    + destruct (filter (same path_leb k) l') as [|y r] eqn:F'; auto. exfalso.
      assert (I : In y (filter (same path_leb k) l')) by (rewrite F'; now left). apply filter_In in I as (I & Y).
      assert (I' : In y (filter (same path_leb k) l)).
      { apply filter_In. split; auto. eapply Permutation_in; [apply Permutation_sym, P|exact I]. }
      rewrite F in I'. destruct I'.
    + assert (I : In x (filter (same path_leb k) l)) by (rewrite F; now left).
      rewrite <- F. rewrite (K l N x I). symmetry. apply (K l' N' x).
      apply filter_In in I as (I & Y). apply filter_In. split; auto. eapply Permutation_in; eauto.
Qed.

(** ** All packages *)
Definition dups_at (p : dpath) (l : list pfile) : list dup := at_path p (flat_dups [] (defs_of (sort_by path_leb l))).
Lemma dups_at_none p l : ~ In p (map pf_path l) -> dups_at p l = [].
Proof.
  intros H. apply at_path_none. intros q d I ->. apply H. unfold defs_of in I.
  apply in_flat_map in I as (g & Hg & I). apply in_map_iff in I as (e & [= E _] & _). subst p.
  apply in_map. apply (Permutation_in g (sort_by_perm path_leb l) Hg).
Qed.
Lemma fold_lookup p (gs : list (dpath * list pfile)) : forall m,
  (forall k l, In (k, l) gs -> NoDup (map pf_path l)) -> NoDup (map fst gs) ->
  (forall k l k' l', In (k, l) gs -> In (k', l') gs -> In p (map pf_path l) -> In p (map pf_path l') -> k = k') ->
  ((exists k l, In (k, l) gs /\ In p (map pf_path l)) -> lookup p m = []) ->
  (forall k l, In (k, l) gs -> In p (map pf_path l) ->
    lookup p (fold_left (fun m g => package_duplicates ia [] (sort_by path_leb (snd g)) m) gs m) = dups_at p l) /\
  ((forall k l, In (k, l) gs -> ~ In p (map pf_path l)) ->
    lookup p (fold_left (fun m g => package_duplicates ia [] (sort_by path_leb (snd g)) m) gs m) = lookup p m).
Proof.
  induction gs as [|[k0 l0] gs IH]; intros m N K U Z; simpl.
  - split; [intros ? ? []|auto].
  - inversion K as [|? ? K1 K2]; subst.
    assert (N0 : NoDup (map pf_path (sort_by path_leb l0))).
    { eapply Permutation_NoDup; [apply Permutation_map, Permutation_sym, (sort_by_perm path_leb)|]. apply (N k0). now left. }
    assert (L : lookup p (package_duplicates ia [] (sort_by path_leb l0) m) = or_else (dups_at p l0) (lookup p m)).
    { apply package_lookup; auto. }
    assert (OUT : In p (map pf_path l0) -> forall k l, In (k, l) gs -> ~ In p (map pf_path l)).
    { intros H k l I H'. assert (k0 = k) by (apply (U k0 l0 k l); auto; [now left|now right]). subst.
      apply K1. apply (in_map fst) in I. exact I. }
    assert (R : (exists k l, In (k, l) gs /\ In p (map pf_path l)) -> lookup p (package_duplicates ia [] (sort_by path_leb l0) m) = []).
    { intros (k & l & I & H). assert (D0 : dups_at p l0 = []) by (apply dups_at_none; intros H0; eapply OUT; eauto).
      rewrite L, D0. simpl. apply Z. exists k, l. split; auto. now right. }
    edestruct (IH (package_duplicates ia [] (sort_by path_leb l0) m)) as (I1 & I2).
    { intros k l I. apply (N k). now right. } { auto. } { intros k l k' l' I I' H H'. apply (U k l k' l'); auto; now right. } { exact R. }
    split.
    + intros k l [[= <- <-]|I] Hp; [|eauto]. rewrite I2 by now apply OUT. rewrite L, Z by (exists k0, l0; split; auto; now left).
      destruct (dups_at p l0); auto.
    + intros H. rewrite I2 by (intros k l I; apply (H k l); now right). rewrite L, dups_at_none; auto. apply (H k0 l0). now left.
Qed.
Definition r_files (fs : list pfile) := filter (fun f => scope_eqb (pf_scope f) SR) fs.
Lemma nodup_filter {A B} (g : A -> B) f l : NoDup (map g l) -> NoDup (map g (filter f l)).
Proof.
  induction l as [|x l IH]; simpl; auto. intros N. inversion N as [|? ? N1 N2]; subst.
  destruct (f x); simpl; auto. constructor; auto. intros I. apply N1. apply in_map_iff in I as (y & E & I).
  apply filter_In in I as (I & _). rewrite <- E. now apply in_map.
Qed.
Lemma nodup_inj {A B} (g : A -> B) l x y : NoDup (map g l) -> In x l -> In y l -> g x = g y -> x = y.
Proof.
  induction l as [|z l IH]; simpl; [tauto|]. intros N Hx Hy E. inversion N as [|? ? N1 N2]; subst.
  destruct Hx as [->|Hx], Hy as [->|Hy]; auto.
  - exfalso. apply N1. rewrite E. now apply in_map.
  - exfalso. apply N1. rewrite <- E. now apply in_map.
Qed.
Theorem compute_lookup order fs p : (forall gs, Permutation (order gs) gs) -> distinct_files fs ->
  (forall f, In f (r_files fs) -> pf_path f = p ->
     lookup p (compute_duplicates ia order fs) = dups_at p (of_root (pf_root f) (r_files fs))) /\
  (~ In p (map pf_path (r_files fs)) -> lookup p (compute_duplicates ia order fs) = []).
Proof.
  intros O D. unfold compute_duplicates. fold (r_files fs). unfold distinct_files in D. fold (r_files fs) in D.
  set (rs := r_files fs) in *. destruct (by_package_ok rs) as (K & G & C).
  set (gs := order (by_package rs)).
  assert (Gin : forall x, In x gs <-> In x (by_package rs)).
  { intros x. split; apply Permutation_in; [apply O|apply Permutation_sym, O]. }
  assert (Nl : forall k l, In (k, l) gs -> NoDup (map pf_path l)).
  { intros k l I. apply Gin in I. rewrite (G _ _ I). now apply nodup_filter. }
  assert (Kg : NoDup (map fst gs)).
  { eapply Permutation_NoDup; [apply Permutation_map, Permutation_sym, O|exact K]. }
  edestruct (fold_lookup p gs []) as (F1 & F2); auto.
  { intros k l k' l' I I' H H'. apply Gin in I, I'. rewrite (G _ _ I) in H. rewrite (G _ _ I') in H'.
    apply in_map_iff in H as (x & E & H), H' as (x' & E' & H'). unfold of_root in *.
    apply filter_In in H as (H & P), H' as (H' & P'). apply peqb_eq in P, P'.
    assert (x = x') by (eapply nodup_inj; eauto; congruence). congruence. }
  split.
  - intros f I E. assert (Ik : In (pf_root f) (map fst (by_package rs))) by auto.
    apply in_map_iff in Ik as ([k l] & Ek & Ik). simpl in Ek. subst k. rewrite <- (G _ _ Ik).
    apply (F1 (pf_root f)); [now apply Gin|]. rewrite (G _ _ Ik). rewrite <- E. apply in_map.
    unfold of_root. apply filter_In. split; auto. apply peqb_refl.
  - intros H. rewrite F2; auto. intros k l I H'. apply H. apply Gin in I. rewrite (G _ _ I) in H'.
    apply in_map_iff in H' as (x & E & H'). unfold of_root in H'. apply filter_In in H' as (H' & _). rewrite <- E. now apply in_map.
Qed.
Lemma r_files_perm fs fs' : Permutation fs fs' -> Permutation (r_files fs) (r_files fs').
Proof.
  unfold r_files. induction 1 as [|x l l' P IH|x y l|]; simpl; auto.
  - destruct (scope_eqb (pf_scope x) SR); auto.
  - destruct (scope_eqb (pf_scope x) SR), (scope_eqb (pf_scope y) SR); auto. apply perm_swap.
  - eapply perm_trans; eauto.
Qed.
Lemma of_root_perm k fs fs' : Permutation fs fs' -> Permutation (of_root k fs) (of_root k fs').
Proof.
  unfold of_root. induction 1 as [|x l l' P IH|x y l|]; simpl; auto.
  - destruct (peqb (pf_root x) k); auto.
  - destruct (peqb (pf_root x) k), (peqb (pf_root y) k); auto. apply perm_swap.
  - eapply perm_trans; eauto.
Qed.
Theorem duplicates_order order order' fs fs' p :
  (forall gs, Permutation (order gs) gs) -> (forall gs, Permutation (order' gs) gs) ->
  distinct_files fs -> Permutation fs fs' ->
  lookup p (compute_duplicates ia order fs) = lookup p (compute_duplicates ia order' fs').
Proof.
  intros O O' D P. pose proof (r_files_perm _ _ P) as Pr.
  assert (D' : distinct_files fs').
  { unfold distinct_files in *. eapply Permutation_NoDup; [apply Permutation_map, Pr|exact D]. }
  destruct (compute_lookup order fs p O D) as (A1 & A2). destruct (compute_lookup order' fs' p O' D') as (B1 & B2).
  destruct (pmem p (map pf_path (r_files fs))) eqn:M.
  - apply pmem_iff, in_map_iff in M as (f & E & I). rewrite (A1 f I E).
    rewrite (B1 f); auto; [|eapply Permutation_in; eauto]. unfold dups_at. f_equal. f_equal. f_equal.
    apply sort_perm_eq; [now apply nodup_filter|]. now apply of_root_perm.
  - apply pmem_not in M. rewrite A2, B2; auto. intros I. apply M.
    eapply Permutation_in; [apply Permutation_map, Permutation_sym, Pr|exact I].
Qed.

(** Definitions in order. *)
Definition bef (x y : dpath * adef) : Prop := before (fst x) (snd x) (fst y) (snd y).
Lemma scan_from_sorted ls : forall off n,
  StronglySorted (fun a b => ad_line a < ad_line b) (scan_from ia off n ls) /\ Forall (fun a => n <= ad_line a) (scan_from ia off n ls).
Proof.
  induction ls as [|l ls IH]; intros off n; simpl; [split; constructor|].
  destruct (IH (off + blen l) (n + 1)) as (S & F).
  assert (F' : Forall (fun a => n <= ad_line a) (scan_from ia (off + blen l) (n + 1) ls)).
  { eapply Forall_impl; [|exact F]. simpl. intros. lia. }
  destruct (scan_line ia (strip_eol l)); auto. split; constructor; auto.
  eapply Forall_impl; [|exact F]. simpl. intros. lia.
Qed.
Lemma assignments_sorted f : StronglySorted (fun a b => ad_line a < ad_line b) (assignments ia f).
Proof. unfold assignments. destruct (pf_scope f); try constructor; apply scan_from_sorted. Qed.
Lemma ssorted_app {A} (R : A -> A -> Prop) a b : StronglySorted R a -> StronglySorted R b ->
  (forall x y, In x a -> In y b -> R x y) -> StronglySorted R (a ++ b).
Proof.
  induction 1 as [|x a S IH F]; intros B H; simpl; auto. constructor.
  - apply IH; auto. intros. apply H; auto. now right.
  - apply Forall_app. split; auto. apply Forall_forall. intros y Hy. apply H; auto. now left.
Qed.
Lemma ssorted_map {A B} (R : A -> A -> Prop) (Q : B -> B -> Prop) (g : A -> B) l :
  (forall x y, R x y -> Q (g x) (g y)) -> StronglySorted R l -> StronglySorted Q (map g l).
Proof.
  intros H. induction 1 as [|x l S IH F]; simpl; constructor; auto.
  apply Forall_forall. intros y Hy. apply in_map_iff in Hy as (z & <- & Hz). rewrite Forall_forall in F. auto.
Qed.
Lemma defs_sorted fs : StronglySorted (fun a b => path_leb a b = true) fs -> NoDup (map pf_path fs) ->
  StronglySorted bef (defs_of fs).
Proof.
  induction 1 as [|f fs S IH F]; intros N; simpl; [constructor|]. inversion N as [|? ? N1 N2]; subst.
  apply ssorted_app; auto.
  - eapply ssorted_map; [|apply assignments_sorted]. intros x y H. right. auto.
  - intros x y Hx Hy. apply in_map_iff in Hx as (d & <- & Hd). unfold defs_of in Hy.
    apply in_flat_map in Hy as (g & Hg & Hy). apply in_map_iff in Hy as (e & <- & He). left. simpl.
    rewrite Forall_forall in F. apply F in Hg as P. apply path_leb_iff in P as [P|P]; auto.
    exfalso. apply N1. rewrite P. now apply in_map.
Qed.
Lemma before_trans_irr p d : ~ before p d p d.
Proof. intros [H|(_ & H)]; [rewrite pcmp_refl in H; discriminate|lia]. Qed.
Lemma before_asym p d p' d' : before p d p' d' -> ~ before p' d' p d.
Proof.
  intros [H|(-> & H)] [K|(E & K)]; try lia.
  - rewrite pcmp_anti, H in K. discriminate.
  - subst. rewrite pcmp_refl in H. discriminate.
  - rewrite pcmp_refl in K. discriminate.
Qed.

Hypothesis U : unicode_alnum ia.
Lemma fun_def_iff fs root p d : fun_def ia fs root p d <->
  exists f, In f (r_files fs) /\ pf_root f = root /\ pf_path f = p /\ In d (assignments ia f).
Proof.
  unfold fun_def, r_files, assignments. split.
  - intros (f & I & S & R & P & D & E). exists f. rewrite filter_In, S. repeat split; auto.
    apply scan_iff; auto.
  - intros (f & I & R & P & D). apply filter_In in I as (I & S). exists f.
    assert (S' : pf_scope f = SR) by (destruct (pf_scope f); auto; discriminate).
    rewrite S' in D. apply scan_iff in D as (D & E); auto 10.
Qed.
Lemma fun_def_defs fs root p d : fun_def ia fs root p d <->
  In (p, d) (defs_of (sort_by path_leb (of_root root (r_files fs)))).
Proof.
  rewrite fun_def_iff. unfold defs_of. rewrite in_flat_map. split.
  - intros (f & I & R & P & D). exists f. split.
    + apply (Permutation_in _ (Permutation_sym (sort_by_perm path_leb _))). unfold of_root. apply filter_In. split; auto.
      now apply peqb_eq.
    + apply in_map_iff. exists d. split; congruence.
  - intros (f & I & D). apply (Permutation_in _ (sort_by_perm path_leb _)) in I. unfold of_root in I.
    apply filter_In in I as (I & P). apply peqb_eq in P. apply in_map_iff in D as (e & [= E <-] & D). exists f. auto.
Qed.

Theorem duplicates_iff order fs p d p1 l1 : (forall gs, Permutation (order gs) gs) -> distinct_files fs ->
  In (d, (p1, l1)) (lookup p (compute_duplicates ia order fs)) <->
  exists root d1, fun_def ia fs root p d /\ fun_def ia fs root p1 d1 /\ ad_line d1 = l1 /\
    ad_name d1 = ad_name d /\ before p1 d1 p d /\
    forall p2 d2, fun_def ia fs root p2 d2 -> ad_name d2 = ad_name d -> (p2, d2) = (p1, d1) \/ before p1 d1 p2 d2.
Proof.
  intros O D. destruct (compute_lookup order fs p O D) as (L1 & L2).
  assert (NR : forall root, NoDup (map pf_path (sort_by path_leb (of_root root (r_files fs))))).
  { intros root. eapply Permutation_NoDup; [apply Permutation_map, Permutation_sym, (sort_by_perm path_leb)|].
    apply nodup_filter, D. }
  assert (SR : forall root, StronglySorted bef (defs_of (sort_by path_leb (of_root root (r_files fs))))).
  { intros root. apply defs_sorted; auto. apply sort_by_sorted; (exact path_leb_total || exact path_leb_trans || auto). }
  assert (M : forall root, In (d, (p1, l1)) (dups_at p (of_root root (r_files fs))) <->
      exists d1, fun_def ia fs root p d /\ fun_def ia fs root p1 d1 /\ ad_line d1 = l1 /\
    ad_name d1 = ad_name d /\ before p1 d1 p d /\
    forall p2 d2, fun_def ia fs root p2 d2 -> ad_name d2 = ad_name d -> (p2, d2) = (p1, d1) \/ before p1 d1 p2 d2).
  { intros root. specialize (SR root). unfold dups_at.
    transitivity (In (p, (d, (p1, l1))) (flat_dups [] (defs_of (sort_by path_leb (of_root root (r_files fs)))))).
    { unfold at_path. rewrite in_map_iff. split.
      - intros ([q x] & E & I). apply filter_In in I as (I & P). apply peqb_eq in P. simpl in *. now subst.
      - intros I. exists (p, (d, (p1, l1))). split; auto. apply filter_In. split; auto. apply peqb_refl. }
    rewrite flat_first. setoid_rewrite fun_def_defs. set (all := defs_of _) in *. split.
    - intros (a & d1 & m & b & E & Hl & Hn & Ha). exists d1. rewrite E in *.
      split; [apply in_or_app; right; right; apply in_or_app; right; now left|].
      split; [apply in_or_app; right; now left|]. split; auto. split; auto.
      assert (S1 : StronglySorted bef ((p1, d1) :: m ++ (p, d) :: b)).
      { clear -SR. induction a; simpl in SR; auto. inversion SR; auto. }
      inversion S1 as [|? ? S2 F1]; subst. rewrite Forall_forall in F1. split.
      + apply (F1 (p, d)). apply in_or_app. right. now left.
      + intros p2 d2 I N2. apply in_app_iff in I as [I|I].
        * exfalso. eapply Ha; eauto.
        * destruct I as [I|I]; [left; congruence|]. right. apply (F1 (p2, d2) I).
    - intros (d1 & I & I1 & Hl & Hn & B & Hmin).
      apply in_split in I1 as (a & r & E). rewrite E in *.
      assert (Ir : In (p, d) r).
      { apply in_app_iff in I as [I|[I|I]]; auto; exfalso.
        - assert (K : bef (p, d) (p1, d1)).
          { clear -SR I. induction a as [|x a IH]; simpl in *; [easy|]. inversion SR as [|? ? S F]; subst.
            destruct I as [->|I]; auto. rewrite Forall_forall in F. apply F. apply in_or_app. right. now left. }
          eapply before_asym; eauto.
        - injection I as <- <-. eapply before_trans_irr; eauto. }
      apply in_split in Ir as (m & b & ->). exists a, d1, m, b. repeat split; auto.
      intros q e Iq Ne. assert (K : bef (q, e) (p1, d1)).
      { clear -SR Iq. induction a as [|x a IH]; simpl in *; [easy|]. inversion SR as [|? ? S F]; subst.
        destruct Iq as [->|Iq]; auto. rewrite Forall_forall in F. apply F. apply in_or_app. right. now left. }
      destruct (Hmin q e) as [E2|E2]; auto; [apply in_or_app; now left| |].
      + injection E2 as -> ->. eapply before_trans_irr; eauto.
      + eapply before_asym; eauto. }
  split.
  - intros I. destruct (pmem p (map pf_path (r_files fs))) eqn:Pm.
    + apply pmem_iff, in_map_iff in Pm as (f & E & If). rewrite (L1 f If E) in I. apply M in I as (d1 & I). eauto.
    + apply pmem_not in Pm. rewrite L2 in I by auto. destruct I.
  - intros (root & d1 & F & R). pose proof F as F0. apply fun_def_iff in F0 as (f & If & Rf & Pf & _).
    rewrite (L1 f If Pf), Rf. apply M. eauto.
Qed.
(** Reported iff there is an earlier definition. *)
Theorem duplicates_reported order fs p d : (forall gs, Permutation (order gs) gs) -> distinct_files fs ->
  In d (map fst (lookup p (compute_duplicates ia order fs))) <->
  exists root p0 d0, fun_def ia fs root p d /\ fun_def ia fs root p0 d0 /\ ad_name d0 = ad_name d /\ before p0 d0 p d.
Proof.
  intros O D. rewrite in_map_iff. split.
  - intros ([d' [p1 l1]] & E & I). simpl in E. subst d'. apply duplicates_iff in I; auto.
    destruct I as (root & d1 & F & F1 & _ & N & B & _). exists root, p1, d1. auto.
  - intros (root & p0 & d0 & F & F0 & N & B).
    assert (K : exists p1 d1, fun_def ia fs root p1 d1 /\ ad_name d1 = ad_name d /\ before p1 d1 p d /\
      forall p2 d2, fun_def ia fs root p2 d2 -> ad_name d2 = ad_name d -> (p2, d2) = (p1, d1) \/ before p1 d1 p2 d2).
    { setoid_rewrite fun_def_defs. apply fun_def_defs in F, F0.
      assert (NR : NoDup (map pf_path (sort_by path_leb (of_root root (r_files fs))))).
      { eapply Permutation_NoDup; [apply Permutation_map, Permutation_sym, (sort_by_perm path_leb)|]. apply nodup_filter, D. }
      assert (SR : StronglySorted bef (defs_of (sort_by path_leb (of_root root (r_files fs))))).
      { apply defs_sorted; auto. apply sort_by_sorted; (exact path_leb_total || exact path_leb_trans || auto). }
      revert F F0 SR. generalize (defs_of (sort_by path_leb (of_root root (r_files fs)))) as all. intros all F F0 SR.
      assert (T : exists a x b, all = a ++ x :: b /\ ad_name (snd x) = ad_name d /\ Forall (fun y => ad_name (snd y) <> ad_name d) a).
      { clear -F0 N. induction all as [|x all IH]; [easy|].
        destruct (teqb (ad_name (snd x)) (ad_name d)) eqn:E.
        - apply teqb_eq in E. exists [], x, all. auto.
        - apply teqb_neq in E. destruct F0 as [->|F0]; [easy|]. destruct (IH F0) as (a & y & b & -> & H1 & H2).
          exists (x :: a), y, b. auto. }
      destruct T as (a & [p1 d1] & b & -> & T1 & T2). simpl in T1.
      assert (F1 : Forall (bef (p1, d1)) b).
      { clear -SR. induction a; simpl in SR; inversion SR; auto. }
      rewrite Forall_forall in F1, T2.
      assert (Min : forall p2 d2, In (p2, d2) (a ++ (p1, d1) :: b) -> ad_name d2 = ad_name d -> (p2, d2) = (p1, d1) \/ before p1 d1 p2 d2).
      { intros p2 d2 I N2. apply in_app_iff in I as [I|[I|I]].
        - exfalso. eapply (T2 (p2, d2)); eauto.
        - left. congruence.
        - right. apply (F1 (p2, d2) I). }
      exists p1, d1. split; [apply in_or_app; right; now left|]. split; auto. split; auto.
      destruct (Min p d F eq_refl) as [E|H]; auto. exfalso. injection E as -> ->.
      destruct (Min p0 d0 F0 N) as [E|H]; [injection E as -> ->; eapply before_trans_irr; eauto|].
      eapply before_asym; eauto. }
    destruct K as (p1 & d1 & F1 & N1 & B1 & Min). exists (d, (p1, ad_line d1)). split; auto.
    apply duplicates_iff; auto. exists root, d1. repeat split; auto.
Qed.
End Dup.
