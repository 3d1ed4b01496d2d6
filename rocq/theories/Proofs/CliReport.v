(** Reporting, statistics and exit status (C24, C28, C50-C53). *)
From Coq Require Import Permutation Sorting.Sorted.
From Verif Require Import Model.Text Model.Base Model.Rules Model.Fix Model.Driver Model.Cli.
From Verif Require Import Spec.CliSpec Proofs.TextProofs Proofs.RulesProofs Proofs.CliDiscover.

(** ** Stable sorting *)
Section Sort.
Context {A : Type} (leb : A -> A -> bool).
Hypothesis leb_total : forall a b, leb a b = true \/ leb b a = true.
Hypothesis leb_trans : forall a b c, leb a b = true -> leb b c = true -> leb a c = true.

Lemma insert_by_perm x l : Permutation (insert_by leb x l) (x :: l).
Proof.
  induction l as [|y r IH]; simpl; auto. destruct (leb x y); auto.
  rewrite IH. apply perm_swap.
Qed.
Lemma sort_by_perm l : Permutation (sort_by leb l) l.
Proof. induction l as [|x l IH]; simpl; auto. unfold sort_by in *. simpl. now rewrite insert_by_perm, IH. Qed.
Lemma insert_by_sorted x l : StronglySorted (fun a b => leb a b = true) l ->
  StronglySorted (fun a b => leb a b = true) (insert_by leb x l).
Proof.
  induction 1 as [|y r S IH F]; simpl; [repeat constructor|].
  destruct (leb x y) eqn:E.
  - constructor; [now constructor|]. constructor; auto.
    rewrite Forall_forall in *. intros z Hz. eauto.
  - constructor; auto. rewrite Forall_forall in *. intros z Hz.
    apply (Permutation_in z (insert_by_perm x r)) in Hz as [<-|Hz]; auto.
    destruct (leb_total x y); congruence.
Qed.
Lemma sort_by_sorted l : StronglySorted (fun a b => leb a b = true) (sort_by leb l).
Proof. induction l as [|x l IH]; simpl; [constructor|]. now apply insert_by_sorted. Qed.

Definition same (k d : A) : bool := leb k d && leb d k.
Lemma insert_by_same k x l : StronglySorted (fun a b => leb a b = true) l ->
  filter (same k) (insert_by leb x l) = filter (same k) (x :: l).
Proof.
  induction 1 as [|y r S IH F]; simpl; auto. destruct (leb x y) eqn:E; auto.
  simpl. rewrite IH. simpl. destruct (same k x) eqn:Kx; auto. destruct (same k y) eqn:Ky; auto.
  exfalso. unfold same in *. apply andb_true_iff in Kx as (X1 & X2). apply andb_true_iff in Ky as (Y1 & Y2).
  rewrite (leb_trans x k y) in E; auto. discriminate.
Qed.
Lemma sort_by_same k l : filter (same k) (sort_by leb l) = filter (same k) l.
Proof.
  induction l as [|x l IH]; simpl; auto. unfold sort_by in *. simpl.
  rewrite insert_by_same by apply sort_by_sorted. simpl. now rewrite IH.
Qed.
Lemma same_refl k : same k k = true.
Proof. unfold same. destruct (leb_total k k) as [->| ->]; auto. Qed.
Lemma sorted_unique l1 : forall l2,
  StronglySorted (fun a b => leb a b = true) l1 -> StronglySorted (fun a b => leb a b = true) l2 ->
  (forall k, filter (same k) l1 = filter (same k) l2) -> l1 = l2.
Proof.
  induction l1 as [|x r1 IH]; intros [|y r2] S1 S2 F; auto.
  - specialize (F y). simpl in F. rewrite same_refl in F. discriminate.
  - specialize (F x). simpl in F. rewrite same_refl in F. discriminate.
  - inversion S1 as [|? ? T1 G1]; subst. inversion S2 as [|? ? T2 G2]; subst. rewrite Forall_forall in *.
    assert (Hx : In x (y :: r2)).
    { assert (I : In x (filter (same x) (y :: r2))) by (rewrite <- F; simpl; rewrite same_refl; now left).
      now apply filter_In in I. }
    assert (Hy : In y (x :: r1)).
    { assert (I : In y (filter (same y) (x :: r1))) by (rewrite F; simpl; rewrite same_refl; now left).
      now apply filter_In in I. }
    assert (E1 : leb y x = true) by (destruct Hx as [<-|Hx]; [destruct (leb_total y y); auto|auto]).
    assert (E2 : leb x y = true) by (destruct Hy as [<-|Hy]; [destruct (leb_total x x); auto|auto]).
    assert (E : x = y).
    { pose proof (F x) as Fx. simpl in Fx. rewrite same_refl in Fx. unfold same in Fx at 2. rewrite E1, E2 in Fx. simpl in Fx.
      now injection Fx. }
    subst y. f_equal. apply IH; auto. intros k. specialize (F k). simpl in F. destruct (same k x); [now injection F|auto].
Qed.
End Sort.

(** ** The order of diagnostics *)
Lemma tcmp_eq a b : tcmp a b = Eq <-> a = b.
Proof.
  revert b; induction a as [|x a IH]; intros [|y b]; simpl; try (split; congruence).
  destruct (N.compare x y) eqn:E.
  - apply N.compare_eq in E. subst y. rewrite IH. split; [intros ->; reflexivity|now intros [= ->]].
  - split; [discriminate|]. intros [= -> ->]. rewrite N.compare_refl in E. discriminate.
  - split; [discriminate|]. intros [= -> ->]. rewrite N.compare_refl in E. discriminate.
Qed.
Lemma tcmp_refl a : tcmp a a = Eq. Proof. now apply tcmp_eq. Qed.
Lemma tcmp_anti a b : tcmp b a = CompOpp (tcmp a b).
Proof.
  revert b; induction a as [|x a IH]; intros [|y b]; simpl; auto.
  rewrite (N.compare_antisym x y). destruct (N.compare x y); simpl; auto.
Qed.
Lemma tcmp_trans a b c : tcmp a b = Lt -> tcmp b c = Lt -> tcmp a c = Lt.
Proof.
  revert b c; induction a as [|x a IH]; intros [|y b] [|z c]; simpl; try congruence; auto.
  destruct (N.compare x y) eqn:E1; try discriminate.
  - apply N.compare_eq in E1. subst y. destruct (N.compare x z) eqn:E2; auto; try discriminate. eauto.
  - intros _. destruct (N.compare y z) eqn:E2; try discriminate; intros _.
    + apply N.compare_eq in E2. subst z. now rewrite E1.
    + rewrite N.compare_lt_iff in *. assert (H : (x < z)%N) by lia. apply N.compare_lt_iff in H. now rewrite H.
Qed.
Lemma pcmp_eq a b : pcmp a b = Eq <-> a = b.
Proof.
  revert b; induction a as [|x a IH]; intros [|y b]; simpl; try (split; congruence).
  destruct (tcmp x y) eqn:E.
  - apply tcmp_eq in E. subst y. rewrite IH. split; [intros ->; reflexivity|now intros [= ->]].
  - split; [discriminate|]. intros [= -> ->]. rewrite tcmp_refl in E. discriminate.
  - split; [discriminate|]. intros [= -> ->]. rewrite tcmp_refl in E. discriminate.
Qed.
Lemma pcmp_refl a : pcmp a a = Eq. Proof. now apply pcmp_eq. Qed.
Lemma pcmp_anti a b : pcmp b a = CompOpp (pcmp a b).
Proof.
  revert b; induction a as [|x a IH]; intros [|y b]; simpl; auto.
  rewrite (tcmp_anti x y). destruct (tcmp x y); simpl; auto.
Qed.
Lemma pcmp_trans a b c : pcmp a b = Lt -> pcmp b c = Lt -> pcmp a c = Lt.
Proof.
  revert b c; induction a as [|x a IH]; intros [|y b] [|z c]; simpl; try congruence; auto.
  destruct (tcmp x y) eqn:E1; try discriminate.
  - apply tcmp_eq in E1. subst y. destruct (tcmp x z) eqn:E2; auto; try discriminate. eauto.
  - intros _. destruct (tcmp y z) eqn:E2; try discriminate; intros _.
    + apply tcmp_eq in E2. subst z. now rewrite E1.
    + now rewrite (tcmp_trans x y z).
Qed.
Lemma fd_leb_total a b : fd_leb a b = true \/ fd_leb b a = true.
Proof.
  unfold fd_leb, fd_cmp. rewrite (pcmp_anti (fd_file a) (fd_file b)).
  destruct (pcmp (fd_file a) (fd_file b)); simpl; auto.
  rewrite (Nat.compare_antisym (d_start (fd_diag a)) (d_start (fd_diag b))).
  destruct (Nat.compare (d_start (fd_diag a)) (d_start (fd_diag b))); simpl; auto.
  rewrite (Nat.compare_antisym (d_end (fd_diag a)) (d_end (fd_diag b))).
  destruct (Nat.compare (d_end (fd_diag a)) (d_end (fd_diag b))); simpl; auto.
Qed.
Lemma fd_leb_iff a b : fd_leb a b = true <->
  pcmp (fd_file a) (fd_file b) = Lt \/
  fd_file a = fd_file b /\
  (d_start (fd_diag a) < d_start (fd_diag b) \/
   d_start (fd_diag a) = d_start (fd_diag b) /\ d_end (fd_diag a) <= d_end (fd_diag b)).
Proof.
  unfold fd_leb, fd_cmp. destruct (pcmp (fd_file a) (fd_file b)) eqn:P.
  - apply pcmp_eq in P. destruct (Nat.compare_spec (d_start (fd_diag a)) (d_start (fd_diag b))).
    + destruct (Nat.compare_spec (d_end (fd_diag a)) (d_end (fd_diag b))) as [E|E|E].
      * split; auto. intros _. right. split; auto. lia.
      * split; auto. intros _. right. split; auto. lia.
      * split; [discriminate|]. intros [K|[_ K]]; [congruence|lia].
    + split; auto.
    + split; [discriminate|]. intros [K|[_ K]]; [congruence|lia].
  - split; auto.
  - split; [discriminate|]. intros [K|[K _]]; [congruence|]. rewrite K, pcmp_refl in P. discriminate.
Qed.
Lemma fd_leb_trans a b c : fd_leb a b = true -> fd_leb b c = true -> fd_leb a c = true.
Proof.
  rewrite !fd_leb_iff. intros [H1|[E1 H1]] [H2|[E2 H2]].
  - left. now apply (pcmp_trans _ (fd_file b)).
  - left. now rewrite <- E2.
  - left. now rewrite E1.
  - right. split; [congruence|lia].
Qed.
Lemma fd_leb_order a b : fd_leb a b = true <-> report_order a b.
Proof. unfold fd_leb, report_order. destruct (fd_cmp a b); split; congruence. Qed.

(** ** Files with diagnostics *)
Lemma diag_files_flat rs : flat_map snd (diag_files rs) = all_found rs.
Proof.
  induction rs as [|[p [ds|e]] r IH]; simpl; auto. unfold diag_files, all_found in *. simpl.
  destruct ds as [|d ds]; simpl; auto. now rewrite IH.
Qed.
Lemma diag_files_nonempty rs f : In f (diag_files rs) -> snd f <> [].
Proof.
  unfold diag_files. rewrite in_flat_map. intros ((p & r) & _ & H).
  destruct r as [[|d ds]|e]; simpl in H; try contradiction. destruct H as [<-|[]]. discriminate.
Qed.
Lemma err_files_iff rs : err_files rs <> [] <-> failed rs.
Proof.
  unfold failed. induction rs as [|[p [ds|e]] r IH]; simpl.
  - split; [congruence|intros (? & ? & [])].
  - unfold err_files in *. simpl. rewrite IH. split.
    + intros (q & e & H). exists q, e. auto.
    + intros (q & e & [H|H]); [discriminate|eauto].
  - split; [intros _; exists p, e; auto|discriminate].
Qed.
Lemma err_files_in rs p e : In (p, e) (err_files rs) <-> In (p, inr e) rs.
Proof.
  unfold err_files. rewrite in_flat_map. split.
  - intros ((q & [ds|e']) & H & I); simpl in I; [contradiction|]. destruct I as [[= -> ->]|[]]. exact H.
  - intros H. exists (p, inr e). split; auto. now left.
Qed.

(** ** Hiding *)
Lemma min_list_spec items : items <> [] ->
  exists n, min_list (map (fun i : item => cs_threshold (snd i)) items) = Some n /\
    (exists i, In i items /\ cs_threshold (snd i) = n) /\ forall i, In i items -> n <= cs_threshold (snd i).
Proof.
  destruct items as [|i r]; [congruence|]. intros _. simpl.
  assert (K : forall (l : list item) m, let n := fold_left Nat.min (map (fun i => cs_threshold (snd i)) l) m in
    (n = m \/ exists j, In j l /\ cs_threshold (snd j) = n) /\ n <= m /\ forall j, In j l -> n <= cs_threshold (snd j)).
  { clear. induction l as [|j l IH]; intros m; simpl; [repeat split; auto; intros ? []|].
    destruct (IH (Nat.min m (cs_threshold (snd j)))) as (H1 & H2 & H3). repeat split.
    - destruct H1 as [->|(k & Hk & E)]; [|right; exists k; auto].
      destruct (Nat.min_spec m (cs_threshold (snd j))) as [(_ & ->)|(_ & ->)]; auto. right. exists j; auto.
    - lia.
    - intros k [<-|Hk]; auto. lia. }
  destruct (K r (cs_threshold (snd i))) as (H1 & H2 & H3).
  exists (fold_left Nat.min (map (fun i => cs_threshold (snd i)) r) (cs_threshold (snd i))).
  split; auto. split.
  - destruct H1 as [E|(j & Hj & E)]; [exists i; auto|exists j; auto].
  - intros j [<-|Hj]; auto.
Qed.
Lemma explicit_iff select extend items :
  explicitly_selected select extend items = true <-> asked_by_name select extend items.
Proof.
  unfold explicitly_selected, asked_by_name. rewrite orb_true_iff, !existsb_exists. split.
  - intros [(s & I & E)|((d & st) & I & E)].
    + left. exists s. split; auto. now apply teqb_eq.
    + right. apply existsb_exists in E as (s & Is & E). apply teqb_eq in E. subst s. simpl in Is.
      apply in_app_iff in Is. destruct Is as [Is|Is].
      * destruct (cs_select st) as [l|] eqn:L; [|contradiction]. exists d, st, l. auto.
      * destruct (cs_extend st) as [l|] eqn:L; [|contradiction]. exists d, st, l. auto.
  - intros [(s & I & E)|(d & st & l & I & L & M)].
    + left. exists s. split; auto. now apply teqb_eq.
    + right. exists (d, st). split; auto. apply existsb_exists. exists (lit "unused_function"). split; [|apply teqb_refl].
      simpl. apply in_app_iff. destruct L as [->| ->]; auto.
Qed.
Lemma filter_flat_map {A B} (f : B -> bool) (g : A -> list B) l :
  filter f (flat_map g l) = flat_map (fun x => filter f (g x)) l.
Proof. induction l as [|x l IH]; simpl; auto. now rewrite filter_app, IH. Qed.
Lemma flat_map_snd_nonempty {A B} (l : list (A * list B)) :
  flat_map snd (filter (fun f => match snd f with [] => false | _ => true end) l) = flat_map snd l.
Proof. induction l as [|[a [|b bs]] l IH]; simpl; auto. now rewrite IH. Qed.
Lemma hide_unused_spec select extend items rs hidden count files :
  hide_unused select extend items (diag_files rs) = (hidden, count, files) ->
  count = length (of_rule (lit "unused_function") (all_found rs)) /\
  visible select extend items rs (flat_map snd files) /\
  (hidden = true <-> ~ asked_by_name select extend items /\ exists n, threshold_is items n /\ n < count) /\
  (files = [] <-> flat_map snd files = []).
Proof.
  unfold hide_unused. rewrite diag_files_flat.
  set (th := match min_list _ with Some n => n | None => 50 end).
  assert (T : threshold_is items th).
  { unfold th, threshold_is. destruct items as [|i r] eqn:I; [left; auto|].
    destruct (min_list_spec (i :: r)) as (n & E & H1 & H2); [discriminate|].
    right. unfold item in *. rewrite E. auto. }
  assert (Tu : forall n, threshold_is items n -> n = th).
  { intros n Hn. destruct Hn as [(E & ->)|((i & Hi & E) & M)], T as [(E' & ->)|((j & Hj & E'') & M')]; auto.
    - subst items. contradiction.
    - subst items. contradiction.
    - apply Nat.le_antisymm; [rewrite <- E''|rewrite <- E]; auto. }
  intros [= <- <- <-]. change (filter is_unused_fn (all_found rs)) with (of_rule (lit "unused_function") (all_found rs)).
  set (count := length (of_rule (lit "unused_function") (all_found rs))).
  split; auto. destruct (negb (explicitly_selected select extend items) && (th <? count)) eqn:H.
  - apply andb_true_iff in H as (H1 & H2). apply negb_true_iff in H1. apply Nat.ltb_lt in H2.
    assert (NA : ~ asked_by_name select extend items) by (rewrite <- explicit_iff; congruence).
    assert (F : flat_map snd (filter (fun f : dpath * list fdiag => match snd f with [] => false | _ :: _ => true end)
             (map (fun f => (fst f, filter (fun d => negb (is_unused_fn d)) (snd f))) (diag_files rs)))
           = filter (fun d => negb (teqb (d_rule (fd_diag d)) (lit "unused_function"))) (all_found rs)).
    { rewrite flat_map_snd_nonempty, <- diag_files_flat, filter_flat_map.
      generalize (diag_files rs). intros l. induction l as [|f l IH]; simpl; auto. now rewrite IH. }
    split; [|split].
    + exists th. split; auto. right. rewrite F. auto.
    + split; auto. intros _. split; auto. exists th. auto.
    + split; [intros ->; reflexivity|].
      assert (K : forall l : list (dpath * list fdiag), flat_map snd (filter (fun f => match snd f with [] => false | _ :: _ => true end) l) = [] ->
                filter (fun f => match snd f with [] => false | _ :: _ => true end) l = []).
      { induction l as [|[a [|b bs]] l IH]; simpl; auto. discriminate. }
      apply K.
  - rewrite diag_files_flat. split; [|split].
    + exists th. split; auto. left. split; auto.
      apply andb_false_iff in H as [H|H].
      * apply negb_false_iff in H. left. now apply explicit_iff.
      * apply Nat.ltb_ge in H. auto.
    + split; [discriminate|]. intros (NA & n & Tn & L). rewrite (Tu n Tn) in L.
      apply andb_false_iff in H as [H|H].
      * apply negb_false_iff, explicit_iff in H. contradiction.
      * apply Nat.ltb_ge in H. fold count in L. lia.
    + rewrite <- diag_files_flat. split; [intros ->; reflexivity|].
      pose proof (diag_files_nonempty rs) as N. destruct (diag_files rs) as [|f fs]; auto.
      simpl. intros E. apply app_eq_nil in E as (E & _). exfalso. apply (N f); simpl; auto.
Qed.

Lemma visible_perm select extend items rs l l' : Permutation l l' ->
  visible select extend items rs l -> visible select extend items rs l'.
Proof.
  intros P (n & T & [(H & Q)|(H & L & Q)]); exists n; split; auto; [left|right]; repeat split; auto;
    apply Permutation_trans with l; auto; now apply Permutation_sym.
Qed.

(** ** Statistics *)
Definition stat_ok (ds : list fdiag) (m : list (text * (nat * bool))) : Prop :=
  NoDup (map fst m) /\
  forall name n b, In (name, (n, b)) m <->
    n = length (of_rule name ds) /\ 0 < n /\ b = existsb (fun d => diag_safe_fix (fd_diag d)) (of_rule name ds).
Lemma of_rule_snoc name ds d : of_rule name (ds ++ [d]) =
  of_rule name ds ++ (if teqb (d_rule (fd_diag d)) name then [d] else []).
Proof. unfold of_rule. rewrite filter_app. simpl. now destruct (teqb _ name). Qed.
Lemma bump_keys name s m : forall k, In k (map fst (bump name s m)) <-> k = name \/ In k (map fst m).
Proof.
  induction m as [|[k' [n b]] r IH]; intros k; simpl.
  - split; intros H; intuition congruence.
  - destruct (teqb k' name) eqn:E; simpl.
    + apply teqb_eq in E. subst k'. split; intros H; intuition congruence.
    + rewrite IH. tauto.
Qed.
Lemma bump_in name s m : NoDup (map fst m) -> forall k v, In (k, v) (bump name s m) <->
  (k <> name /\ In (k, v) m) \/
  (k = name /\ ((exists n b, In (name, (n, b)) m /\ v = (n + 1, b || s)) \/ (~ In name (map fst m) /\ v = (1, s)))).
Proof.
  induction m as [|[k' [n b]] r IH]; intros N k v; simpl.
  - split.
    + intros [[= <- <-]|[]]. right. auto.
    + intros [(_ & [])|(-> & [(n & b & [] & _)|(_ & ->)])]. auto.
  - simpl in N. apply NoDup_cons_iff in N as (N1 & N2). destruct (teqb k' name) eqn:E; simpl.
    + apply teqb_eq in E. subst k'. split.
      * intros [[= <- <-]|H]; [right; split; auto; left; exists n, b; auto|].
        left. split; auto. intros ->. apply N1. apply in_map_iff. exists (name, v). auto.
      * intros [(Hk & [[= <- <-]|H])|(-> & [(n' & b' & H & ->)|(H & ->)])]; auto; try congruence.
        -- destruct H as [[= <- <-]|H]; auto. exfalso. apply N1. apply in_map_iff. exists (name, (n', b')). auto.
        -- exfalso. auto.
    + apply teqb_neq in E. rewrite IH by auto. split.
      * intros [[= <- <-]|[(Hk & H)|(-> & [(n' & b' & H & ->)|(H & ->)])]]; auto.
        -- right. split; auto. left. exists n', b'. auto.
        -- right. split; auto. right. split; auto. intros [?|?]; congruence.
      * intros [(Hk & [[= <- <-]|H])|(-> & [(n' & b' & [H|H] & ->)|(H & ->)])]; auto.
        -- congruence.
        -- right. right. split; auto. left. exists n', b'. auto.
        -- right. right. split; auto. right. split; auto.
Qed.
Lemma bump_nodup name s m : NoDup (map fst m) -> NoDup (map fst (bump name s m)).
Proof.
  induction m as [|[k' [n b]] r IH]; simpl; intros N; [repeat constructor; auto|].
  apply NoDup_cons_iff in N as (N1 & N2). destruct (teqb k' name) eqn:E; simpl.
  - now constructor.
  - apply teqb_neq in E. constructor; auto. rewrite bump_keys. intros [->|H]; auto.
Qed.
Lemma stat_step ds m d : stat_ok ds m ->
  stat_ok (ds ++ [d]) (bump (d_rule (fd_diag d)) (diag_safe_fix (fd_diag d)) m).
Proof.
  intros (N & S). split; [now apply bump_nodup|]. intros name n b. rewrite bump_in by auto.
  rewrite of_rule_snoc. destruct (teqb (d_rule (fd_diag d)) name) eqn:E.
  - apply teqb_eq in E. subst name. rewrite app_length, existsb_app. simpl. rewrite orb_false_r. split.
    + intros [(H & _)|(_ & [(n' & b' & H & [= -> ->])|(H & [= -> ->])])]; [congruence| |].
      * apply S in H as (-> & Hn & ->). repeat split; auto. lia.
      * assert (Z : of_rule (d_rule (fd_diag d)) ds = []).
        { destruct (of_rule (d_rule (fd_diag d)) ds) as [|x l] eqn:O; auto. exfalso. apply H.
          apply in_map_iff. exists (d_rule (fd_diag d), (length (x :: l), existsb (fun d => diag_safe_fix (fd_diag d)) (x :: l))).
          split; auto. apply S. rewrite O. repeat split; auto. simpl. lia. }
        rewrite Z. simpl. auto.
    + intros (-> & Hn & ->). right. split; auto.
      destruct (of_rule (d_rule (fd_diag d)) ds) as [|x l] eqn:O.
      * right. split; auto. intros H. apply in_map_iff in H as ((k & (n' & b')) & Ek & H). simpl in Ek. subst k.
        apply S in H as (H1 & H2 & _). rewrite O in H1. simpl in H1. lia.
      * left. exists (length (x :: l)), (existsb (fun d => diag_safe_fix (fd_diag d)) (x :: l)).
        split; [|reflexivity]. apply S. rewrite O. repeat split; auto. simpl. lia.
  - apply teqb_neq in E. rewrite app_nil_r. split.
    + intros [(_ & H)|(-> & _)]; [now apply S|congruence].
    + intros H. left. split; [congruence|now apply S].
Qed.
Lemma stat_map_ok ds : stat_ok ds (stat_map ds).
Proof.
  induction ds as [|d ds IH] using rev_ind.
  - split; [constructor|]. intros name n b. simpl. split; [intros []|]. intros (-> & H & _). simpl in H. lia.
  - unfold stat_map. rewrite fold_left_app. simpl. now apply stat_step.
Qed.
Lemma stat_sum ds : list_sum (map (fun l => fst (snd l)) (stat_map ds)) = length ds.
Proof.
  induction ds as [|d ds IH] using rev_ind; auto.
  unfold stat_map. rewrite fold_left_app, app_length. simpl. fold (stat_map ds).
  rewrite <- IH. generalize (stat_map ds) (d_rule (fd_diag d)) (diag_safe_fix (fd_diag d)). clear.
  intros m name s. induction m as [|[k [n b]] r IH]; simpl; auto.
  destruct (teqb k name); simpl; lia.
Qed.
Lemma list_sum_perm l l' : Permutation l l' -> list_sum l = list_sum l'.
Proof. induction 1; simpl in *; lia. Qed.
Lemma stat_lines_perm iter : Permutation (stat_lines iter) iter.
Proof. unfold stat_lines. rewrite <- Permutation_rev. apply sort_by_perm. Qed.
Lemma rev_sorted {A} (R : A -> A -> Prop) l : StronglySorted R l -> StronglySorted (fun a b => R b a) (rev l).
Proof.
  induction 1 as [|x l S IH F]; simpl; [constructor|].
  rewrite Forall_forall in F. clear S. revert IH.
  assert (F' : forall y, In y (rev l) -> R x y) by (intros y Hy; apply F; now apply in_rev).
  revert F'. generalize (rev l). clear. intros l F S. induction S as [|y l S IH G]; simpl.
  - repeat constructor.
  - constructor; [apply IH; intros; apply F; now right|]. rewrite Forall_forall in *. intros z Hz.
    apply in_app_iff in Hz as [Hz|[<-|[]]]; auto. apply F. now left.
Qed.
Lemma stat_lines_sorted iter : StronglySorted (fun a b => fst (snd b) <= fst (snd a)) (stat_lines iter).
Proof.
  unfold stat_lines. apply rev_sorted.
  assert (S : StronglySorted (fun a b : text * (nat * bool) => (fst (snd a) <=? fst (snd b)) = true)
                (sort_by (fun a b => fst (snd a) <=? fst (snd b)) iter)).
  { apply sort_by_sorted.
    - intros a b. rewrite !Nat.leb_le. lia.
    - intros a b c. rewrite !Nat.leb_le. lia. }
  induction S as [|x l S IH F]; constructor; auto. rewrite Forall_forall in *. intros y Hy. apply Nat.leb_le. auto.
Qed.

Lemma safe_fix_iff d : diag_safe_fix d = true <-> offers_fix FixSafe d.
Proof.
  unfold diag_safe_fix, fix_kind, offers_fix. destruct (f_skip (d_fix d)); simpl.
  { split; [discriminate|intros (? & _); discriminate]. }
  destruct (f_content (d_fix d)) eqn:C. { split; [discriminate|intros (_ & H & _); congruence]. }
  destruct (from_name (d_rule d)) as [r|] eqn:F; simpl.
  - apply from_name_iff in F. split.
    + intros H. repeat split; try discriminate. exists r. split; auto. destruct (rule_fix r); congruence.
    + intros (_ & _ & r' & E & K). assert (r' = r) by (apply rule_name_inj; congruence). subst r'. now rewrite K.
  - split; [discriminate|]. intros (_ & _ & r & E & _). assert (from_name (d_rule d) = Some r) by now apply from_name_iff. congruence.
Qed.
Lemma unsafe_fix_iff d : diag_unsafe_fix d = true <-> offers_fix FixUnsafe d.
Proof.
  unfold diag_unsafe_fix, fix_kind, offers_fix. destruct (f_skip (d_fix d)); simpl.
  { split; [discriminate|intros (? & _); discriminate]. }
  destruct (f_content (d_fix d)) eqn:C. { split; [discriminate|intros (_ & H & _); congruence]. }
  destruct (from_name (d_rule d)) as [r|] eqn:F; simpl.
  - apply from_name_iff in F. split.
    + intros H. repeat split; try discriminate. exists r. split; auto. destruct (rule_fix r); congruence.
    + intros (_ & _ & r' & E & K). assert (r' = r) by (apply rule_name_inj; congruence). subst r'. now rewrite K.
  - split; [discriminate|]. intros (_ & _ & r & E & _). assert (from_name (d_rule d) = Some r) by now apply from_name_iff. congruence.
Qed.

(** ** The report *)
Lemma flat_sorted l : StronglySorted report_order (sort_by fd_leb l).
Proof.
  pose proof (sort_by_sorted fd_leb fd_leb_total fd_leb_trans l) as S.
  induction S as [|x r S IH F]; constructor; auto. rewrite Forall_forall in *. intros y Hy. apply fd_leb_order. auto.
Qed.

(** Permuting the results of distinct files does not change the sorted list. *)
Lemma filter_files_perm (k : fdiag) (files files' : list (dpath * list fdiag)) :
  (forall f d, In f files -> In d (snd f) -> fd_file d = fst f) ->
  NoDup (map fst files) -> Permutation files files' ->
  filter (same fd_leb k) (flat_map snd files) = filter (same fd_leb k) (flat_map snd files').
Proof.
  intros W N P. induction P as [|f l l' P IH|f g l|l1 l2 l3 P1 IH1 P2 IH2]; auto.
  - simpl in N. apply NoDup_cons_iff in N as (_ & N). simpl. rewrite !filter_app, IH; auto. intros; apply W; simpl; auto.
  - simpl. rewrite !filter_app, !app_assoc. f_equal. simpl in N. apply NoDup_cons_iff in N as (N & _).
    assert (Z : forall h, (forall d, In d (snd h) -> fd_file d = fst h) -> fst h <> fd_file k -> filter (same fd_leb k) (snd h) = []).
    { intros h Wh Ne. destruct (filter (same fd_leb k) (snd h)) as [|d r] eqn:E; auto. exfalso.
      assert (I : In d (filter (same fd_leb k) (snd h))) by (rewrite E; now left). apply filter_In in I as (I & S).
      unfold same in S. apply andb_true_iff in S as (S1 & S2). rewrite fd_leb_iff in S1, S2.
      apply Ne. rewrite <- (Wh d I). destruct S1 as [S1|[S1 _]]; auto. destruct S2 as [S2|[S2 _]]; auto.
      pose proof (pcmp_trans _ _ _ S1 S2) as T. rewrite pcmp_refl in T. discriminate. }
    destruct (peqb (fst g) (fd_file k)) eqn:Eg; [apply peqb_eq in Eg|apply peqb_neq in Eg].
    + rewrite (Z f); [now rewrite app_nil_r| |].
      * intros d Hd. apply W; simpl; auto.
      * intros Ef. apply N. left. congruence.
    + rewrite (Z g); [now rewrite app_nil_r| |exact Eg]. intros d Hd. apply W; simpl; auto.
  - rewrite IH1; auto. apply IH2.
    + intros f d Hf. apply W. now apply (Permutation_in f (Permutation_sym P1)).
    + now apply (Permutation_NoDup (Permutation_map fst P1)).
Qed.
Lemma sort_files_perm files files' :
  (forall f d, In f files -> In d (snd f) -> fd_file d = fst f) ->
  NoDup (map fst files) -> Permutation files files' ->
  sort_by fd_leb (flat_map snd files) = sort_by fd_leb (flat_map snd files').
Proof.
  intros W N P. apply (sorted_unique fd_leb fd_leb_total).
  - apply sort_by_sorted; [apply fd_leb_total|apply fd_leb_trans].
  - apply sort_by_sorted; [apply fd_leb_total|apply fd_leb_trans].
  - intros k. rewrite !(sort_by_same fd_leb fd_leb_total fd_leb_trans). now apply filter_files_perm.
Qed.
Lemma diag_files_perm rs rs' : Permutation rs rs' -> Permutation (diag_files rs) (diag_files rs').
Proof. intros P. unfold diag_files. now apply Permutation_flat_map. Qed.
Lemma diag_files_keys rs : NoDup (map fst rs) -> NoDup (map fst (diag_files rs)).
Proof.
  assert (I : forall p l, In p (map fst (diag_files l)) -> In p (map fst l)).
  { intros p l H. apply in_map_iff in H as (f & <- & H). unfold diag_files in H. apply in_flat_map in H as ((q & r) & H & K).
    destruct r as [[|d ds]|e]; simpl in K; try contradiction. destruct K as [<-|[]]. simpl. apply in_map_iff. exists (q, inl (d :: ds)). auto. }
  induction rs as [|[p r] rs IH]; simpl; intros N; [constructor|].
  apply NoDup_cons_iff in N as (N1 & N2). unfold diag_files in *. simpl.
  destruct r as [[|d ds]|e]; simpl; auto. constructor; auto.
Qed.
Lemma diag_files_file rs f d : In f (diag_files rs) -> In d (snd f) -> fd_file d = fst f.
Proof.
  unfold diag_files. rewrite in_flat_map. intros ((p & r) & _ & H).
  destruct r as [[|x ds]|e]; simpl in H; try contradiction. destruct H as [<-|[]]. simpl.
  intros [<-|H]; auto. unfold with_file in H. apply in_map_iff in H as (y & <- & _). reflexivity.
Qed.
Lemma hide_unused_perm select extend items fs fs' :
  Permutation fs fs' -> 
  fst (hide_unused select extend items fs) = fst (hide_unused select extend items fs') /\
  Permutation (snd (hide_unused select extend items fs)) (snd (hide_unused select extend items fs')).
Proof.
  intros P. unfold hide_unused.
  assert (E : length (filter is_unused_fn (flat_map snd fs)) = length (filter is_unused_fn (flat_map snd fs'))).
  { apply Permutation_length. assert (Q : Permutation (flat_map snd fs) (flat_map snd fs')) by now apply Permutation_flat_map.
    clear -Q. induction Q; simpl; auto.
    - destruct (is_unused_fn x); auto.
    - destruct (is_unused_fn x), (is_unused_fn y); auto. apply perm_swap.
    - now apply Permutation_trans with (filter is_unused_fn l'). }
  rewrite E. destruct (_ && _); simpl; split; auto.
  apply (Permutation_map (fun f => (fst f, filter (fun d => negb (is_unused_fn d)) (snd f)))) in P.
  revert P. generalize (map (fun f : dpath * list fdiag => (fst f, filter (fun d => negb (is_unused_fn d)) (snd f))) fs).
  generalize (map (fun f : dpath * list fdiag => (fst f, filter (fun d => negb (is_unused_fn d)) (snd f))) fs').
  clear. intros a b P. induction P; simpl; auto.
  - destruct (snd x); auto.
  - destruct (snd x), (snd y); auto. apply perm_swap.
  - eapply Permutation_trans; eauto.
Qed.
Lemma hide_unused_files select extend items fs :
  NoDup (map fst fs) -> (forall f d, In f fs -> In d (snd f) -> fd_file d = fst f) ->
  let files := snd (hide_unused select extend items fs) in
  NoDup (map fst files) /\ forall f d, In f files -> In d (snd f) -> fd_file d = fst f.
Proof.
  intros N W. unfold hide_unused. destruct (_ && _); simpl; auto. split.
  - induction fs as [|f fs IH]; simpl in *; [constructor|]. apply NoDup_cons_iff in N as (N1 & N2).
    assert (IH' := IH N2 ltac:(intros; apply W; auto)). clear IH.
    destruct (filter _ (snd f)) as [|d ds]; simpl; auto. constructor; auto.
    intros H. apply N1. apply in_map_iff in H as (g & E & H). apply filter_In in H as (H & _).
    apply in_map_iff in H as (g' & <- & H). simpl in E. apply in_map_iff. exists g'. auto.
  - intros f d H D. apply filter_In in H as (H & _). apply in_map_iff in H as (g & <- & H). simpl in *.
    apply filter_In in D as (D & _). auto.
Qed.
