(** Unused functions: the exact characterization (C22, C56). *)
From Coq Require Import Permutation.
From Verif Require Import Model.Text Model.Base Model.Cli Model.Package Spec.PackageSpec.
From Verif Require Import Proofs.TextProofs Proofs.SplitProofs Proofs.RulesProofs Proofs.RmdProofs Proofs.LspGlob Proofs.CliDiscover Proofs.PackageScan Proofs.PackageDup Proofs.PackageWords Proofs.PackageExports Proofs.PackageUnused.

(** ** Where exported names come from *)
Lemma occurs_refl x : occurs x x.
Proof. exists [], []. now rewrite app_nil_r. Qed.
Lemma occurs_trans x y z : occurs x y -> occurs y z -> occurs x z.
Proof. intros (a & b & ->) (c & d & ->). exists (c ++ a), (b ++ d). now rewrite <- !app_assoc. Qed.
Lemma occurs_mid a x b : occurs x (a ++ x ++ b).
Proof. now exists a, b. Qed.
Lemma drop_while_suffix x t : exists a, t = a ++ drop_while x t.
Proof.
  induction t as [|c t (a & IH)]; simpl; [now exists []|]. destruct (N.eqb c x); [|now exists []].
  exists (c :: a). simpl. now rewrite <- IH.
Qed.
Lemma trim_end_prefix x t : exists b, t = trim_end_matches x t ++ b.
Proof.
  unfold trim_end_matches. destruct (drop_while_suffix x (rev t)) as (a & E). exists (rev a).
  rewrite <- rev_app_distr, <- E. symmetry. apply rev_involutive.
Qed.
Lemma trim_matches_occurs x t : occurs (trim_matches x t) t.
Proof.
  unfold trim_matches. destruct (drop_while_suffix x t) as (a & E). destruct (trim_end_prefix x (drop_while x t)) as (b & F).
  exists a, b. now rewrite <- F.
Qed.
Lemma trim_occurs t : occurs (trim t) t.
Proof. destruct (trim_spec t) as (a & b & E & _). exists a, b. exact E. Qed.
Lemma unquote_occurs t : occurs (unquote t) t.
Proof.
  unfold unquote. eapply occurs_trans; [apply trim_matches_occurs|]. eapply occurs_trans; [apply trim_matches_occurs|].
  apply trim_occurs.
Qed.
Lemma find_sub_some p t : forall a b, find_sub p t = Some (a, b) -> t = a ++ p ++ b.
Proof.
  induction t as [|c t IH]; intros a b; simpl.
  - destruct (strip_prefix p []) as [r|] eqn:E; [|discriminate]. intros [= <- <-]. now apply strip_prefix_iff in E.
  - destruct (strip_prefix p (c :: t)) as [r|] eqn:E.
    + intros [= <- <-]. now apply strip_prefix_iff in E.
    + destruct (find_sub p t) as [[a' b']|]; [|discriminate]. intros [= <- <-]. simpl. f_equal. now apply IH.
Qed.
Lemma strip_pkg_occurs t : occurs (strip_pkg t) t.
Proof.
  unfold strip_pkg. destruct (find_sub (lit "::") (rev t)) as [[a b]|] eqn:E; [|apply occurs_refl].
  apply find_sub_some in E. apply (f_equal (@rev _)) in E. rewrite rev_involutive in E.
  exists (rev (lit "::" ++ b)), []. rewrite app_nil_r, E, rev_app_distr. reflexivity.
Qed.
Lemma split_occurs c t x : In x (split_on c t) -> occurs x t.
Proof. intros H. apply split_components in H as (_ & a & b & -> & _). apply occurs_mid. Qed.
Lemma before_last_some x t u : before_last x t = Some u -> occurs u t.
Proof.
  unfold before_last. destruct (find_char x (rev t)) as [[a b]|] eqn:E; [|discriminate]. intros [= <-].
  apply find_char_some in E as (E & _). apply (f_equal (@rev _)) in E. rewrite rev_involutive in E.
  exists [], (x :: rev a). rewrite E, rev_app_distr. simpl. now rewrite <- app_assoc.
Qed.
Lemma extract_occurs line d inner : extract_directive line d = Some inner -> occurs (d ++ lit "(") line /\ occurs inner line.
Proof.
  unfold extract_directive. destruct (find_sub (d ++ lit "(") line) as [[before rest]|] eqn:E; [|discriminate].
  apply find_sub_some in E.
  assert (K : before_last 41%N rest = Some inner -> occurs (d ++ lit "(") line /\ occurs inner line).
  { intros B. apply before_last_some in B. split; [now exists before, rest|].
    eapply occurs_trans; [exact B|]. exists (before ++ d ++ lit "("), []. rewrite app_nil_r, E, <- !app_assoc. reflexivity. }
  destruct (rev before) as [|c r]; auto. destruct (ascii_alnum c || N.eqb c 95%N); [discriminate|auto].
Qed.

Section NS.
Variable regex : text -> option (text -> bool).
Lemma directive_exports_from d line inner all name : extract_directive line d = Some inner ->
  In name (directive_exports regex d inner all) -> maybe_exported regex line name.
Proof.
  intros E H. apply extract_occurs in E as (Od & Oi). unfold directive_exports in H.
  assert (UQ : forall x, occurs x inner -> occurs (unquote x) line).
  { intros x Hx. eapply occurs_trans; [apply unquote_occurs|]. eapply occurs_trans; eauto. }
  destruct (teqb d (lit "exportPattern")) eqn:D1.
  - apply teqb_eq in D1. subst d. destruct (regex (unquote inner)) as [m|] eqn:R; [|destruct H].
    apply filter_In in H as (_ & H). right. right. exists (unquote inner), m. repeat split; auto.
    apply UQ, occurs_refl.
  - destruct (teqb d (lit "S3method")) eqn:D2.
    + apply teqb_eq in D2. subst d.
      assert (SP : forall x, In x (split_on 44%N inner) -> occurs (unquote x) line) by (intros; eauto using split_occurs).
      destruct (split_on 44%N inner) as [|g [|c [|f rest]]] eqn:Sp; simpl in H; try (now destruct H).
      * destruct H as [<-|[]]. right. left. exists (strip_pkg (unquote g)), (unquote c). repeat split; auto.
        -- eapply occurs_trans; [apply strip_pkg_occurs|]. apply SP. now left.
        -- apply SP. right. now left.
      * left. assert (X : In name [unquote f] -> occurs name line).
        { intros [<-|[]]. apply SP. right. right. now left. }
        destruct (unquote f) as [|y l]; [destruct H|]. now apply X.
    + unfold list_names in H. apply filter_In in H as (H & _). apply in_map_iff in H as (x & <- & H).
      left. apply UQ. eapply split_occurs; eauto.
Qed.
Lemma first_directive_from line ds all name : In name (first_directive regex line ds all) -> maybe_exported regex line name.
Proof.
  induction ds as [|d ds IH]; simpl; [tauto|]. destruct (extract_directive line d) as [inner|] eqn:E; auto.
  now apply directive_exports_from.
Qed.
Lemma maybe_mono l ns name : occurs l ns -> maybe_exported regex l name -> maybe_exported regex ns name.
Proof.
  intros O [H|[(g & c & -> & H1 & H2 & H3)|(p & m & H1 & H2 & H3 & H4)]].
  - left. eapply occurs_trans; eauto.
  - right. left. exists g, c. repeat split; eauto using occurs_trans.
  - right. right. exists p, m. repeat split; eauto using occurs_trans.
Qed.
Lemma lines_occurs t x : In x (lines t) -> occurs x t.
Proof.
  unfold lines. rewrite in_map_iff. intros (y & <- & I).
  assert (Oy : occurs y t).
  { apply in_split in I as (a & b & E). exists (concat a), (concat b).
    rewrite <- (split_incl_concat t), E, concat_app. reflexivity. }
  eapply occurs_trans; [|exact Oy]. unfold chomp.
  destruct (strip_suffix1 nl y) as [u|] eqn:E1; [|apply occurs_refl].
  apply strip_suffix1_some in E1. subst y. destruct (strip_suffix1 13%N u) as [v|] eqn:E2.
  - apply strip_suffix1_some in E2. subst u. exists [], [13%N; nl]. simpl. now rewrite <- app_assoc.
  - exists [], [nl]. reflexivity.
Qed.
Theorem exports_from ns all name : In name (parse_namespace_exports regex ns all) -> maybe_exported regex ns name.
Proof.
  unfold parse_namespace_exports. rewrite in_flat_map. intros (x & Ix & H).
  apply (maybe_mono x); [now apply lines_occurs|]. unfold line_exports in H.
  destruct (trim x) as [|c r] eqn:T; [destruct H|]. destruct (starts_with (lit "#") (c :: r)); [destruct H|].
  apply (maybe_mono (c :: r)); [rewrite <- T; apply trim_occurs|]. now apply first_directive_from in H.
Qed.
End NS.

(** ** Generics *)
Lemma dot_prefixes_iff t : forall acc p, In p (dot_prefixes acc t) <-> exists a r, t = a ++ 46%N :: r /\ p = rev acc ++ a.
Proof.
  induction t as [|c t IH]; intros acc p; simpl.
  - split; [tauto|]. intros (a & r & E & _). destruct a; discriminate.
  - destruct (N.eqb c 46%N) eqn:E.
    + apply N.eqb_eq in E. subst c. simpl. rewrite IH. simpl. split.
      * intros [<-|(a & r & -> & ->)].
        -- exists [], t. now rewrite app_nil_r.
        -- exists (46%N :: a), r. now rewrite <- app_assoc.
      * intros (a & r & Ea & ->). destruct a as [|x a].
        -- left. now rewrite app_nil_r.
        -- right. injection Ea as <- ->. exists a, r. now rewrite <- app_assoc.
    + apply N.eqb_neq in E. rewrite IH. simpl. split.
      * intros (a & r & -> & ->). exists (c :: a), r. now rewrite <- app_assoc.
      * intros (a & r & Ea & ->). destruct a as [|x a]; [injection Ea; congruence|].
        injection Ea as <- ->. exists a, r. now rewrite <- app_assoc.
Qed.
Lemma generic_iff name g : In g (dot_prefixes [] name) <-> generic_of name g.
Proof.
  rewrite dot_prefixes_iff. unfold generic_of. split.
  - intros (a & r & -> & ->). now exists r.
  - intros (r & ->). exists g, r. auto.
Qed.
Lemma generic_plain name g : plain_name name -> generic_of name g -> g <> [] -> plain_name g.
Proof.
  intros (F & c & r & E & D) (r' & ->) N. apply Forall_app in F as (F & _). split; auto.
  destruct g as [|x g]; [congruence|]. injection E as -> _. eauto.
Qed.

(** ** Exact characterization *)
Lemma ascii_unicode : unicode_alnum ascii_alnum.
Proof.
  split; [auto|]. intros c H. unfold is_ws in H. unfold ascii_alnum, ascii_alpha, ascii_digit.
  apply not_true_iff_false. rewrite !orb_true_iff, !andb_true_iff, !N.leb_le. intros K.
  rewrite !orb_true_iff, !andb_true_iff, !N.leb_le, !N.eqb_eq in H. lia.
Qed.
Lemma words_of_iff fs name : plain_name name ->
  mem name (words_of fs) = true <-> exists g, In g fs /\ maybe_mentioned (pf_content g) name.
Proof.
  intros P. rewrite mem_iff. unfold words_of. rewrite in_flat_map. 
  split; intros (g & I & H); exists g; (split; [exact I|]).
  - now apply (proj2 (file_mention _ ascii_unicode (pf_content g) name P)).
  - now apply (proj1 (file_mention _ ascii_unicode (pf_content g) name P)).
Qed.
Lemma words_plain fs w : In w (words_of fs) -> plain_name w.
Proof.
  unfold words_of, scan_symbols. rewrite in_flat_map. intros (f & _ & H). apply in_flat_map in H as (l & _ & H).
  destruct (comment_line l); [destruct H|]. apply in_split in H as (a & b & E).
  destruct (sw_inv (length l) l a w b (le_n _) E) as (? & ? & _ & _ & _ & P). exact P.
Qed.
Section Exact.
Variable ia : char -> bool.
Hypothesis U : unicode_alnum ia.
Variable regex : text -> option (text -> bool).
Variable skipped : text -> bool.
Variable namespace : dpath -> option text.

Lemma of_root_in k fs f : In f (of_root k fs) <-> In f fs /\ pf_root f = k.
Proof. unfold of_root. now rewrite filter_In, peqb_eq. Qed.
Lemma scope_unused_iff s root fs d : plain_name (ad_name d) -> s <> SSrc ->
  unused_in_scope ia skipped (of_scope s (of_root root fs)) d = true <->
  skipped (ad_name d) = false /\
  forall g, In g fs -> pf_root g = root -> pf_scope g = s -> ~ maybe_referenced ia (pf_content g) (ad_name d).
Proof.
  intros P Ns. unfold unused_in_scope. rewrite andb_true_iff, negb_true_iff, Nat.leb_le.
  rewrite (count_iff ia U) by (auto; intros f I; apply of_scope_in in I as (_ & ->); auto).
  split; intros (H & K); split; auto.
  - intros g I R Sc. apply K. apply of_scope_in. rewrite of_root_in. auto.
  - intros g I. apply of_scope_in in I as (I & Sc). apply of_root_in in I as (I & R). auto.
Qed.
Lemma r_unused_iff exports root fs d : plain_name (ad_name d) ->
  unused_in_r ia skipped exports (of_scope SR (of_root root fs)) (not_r (of_root root fs)) d = true <->
  ~ In (ad_name d) exports /\ ~ hook (ad_name d) /\ skipped (ad_name d) = false /\
  (forall g, generic_of (ad_name d) g -> g <> [] -> ~ r_mentions fs root g) /\
  (forall g, In g fs -> pf_root g = root -> pf_scope g = SR -> ~ maybe_referenced ia (pf_content g) (ad_name d)) /\
  (forall g, In g fs -> pf_root g = root -> pf_scope g <> SR -> ~ maybe_mentioned (pf_content g) (ad_name d)).
Proof.
  intros P. unfold unused_in_r. rewrite !andb_true_iff, !negb_true_iff, Nat.leb_le, !mem_false.
  rewrite (count_iff ia U) by (auto; intros f I; apply of_scope_in in I as (_ & ->); discriminate).
  assert (G : existsb (fun p => mem p (words_of (of_scope SR (of_root root fs)))) (dot_prefixes [] (ad_name d)) = false <->
              forall g, generic_of (ad_name d) g -> g <> [] -> ~ r_mentions fs root g).
  { rewrite <- not_true_iff_false, existsb_exists. split.
    - intros H g Gg Ng (f & If & R & Sc & M). apply H. exists g. rewrite generic_iff. split; auto.
      apply words_of_iff; [now apply generic_plain in Gg|]. exists f. split; auto. apply of_scope_in. rewrite of_root_in. auto.
    - intros H (g & Ig & M). apply generic_iff in Ig. assert (Pg : plain_name g) by (eapply words_plain, mem_iff, M).
      apply words_of_iff in M as (f & If & M); auto. apply of_scope_in in If as (If & Sc). apply of_root_in in If as (If & R).
      apply (H g Ig); [destruct Pg as (_ & c & r & -> & _); discriminate|]. now exists f. }
  assert (R1 : (forall f, In f (of_scope SR (of_root root fs)) -> ~ maybe_referenced ia (pf_content f) (ad_name d)) <->
    (forall g, In g fs -> pf_root g = root -> pf_scope g = SR -> ~ maybe_referenced ia (pf_content g) (ad_name d))).
  { split.
    - intros H g I R Sc. apply H. apply of_scope_in. rewrite of_root_in. auto.
    - intros H g I. apply of_scope_in in I as (I & Sc). apply of_root_in in I as (I & R). auto. }
  assert (R2 : ~ In (ad_name d) (words_of (not_r (of_root root fs))) <->
    (forall g, In g fs -> pf_root g = root -> pf_scope g <> SR -> ~ maybe_mentioned (pf_content g) (ad_name d))).
  { rewrite <- mem_iff, words_of_iff by auto. split.
    - intros H g I R Sc M. apply H. exists g. split; auto. unfold not_r. apply filter_In. rewrite of_root_in. split; auto.
      apply negb_true_iff. destruct (pf_scope g); auto; congruence.
    - intros H (g & I & M). unfold not_r in I. apply filter_In in I as (I & Sc). apply of_root_in in I as (I & R).
      apply (H g I R); auto. intros E. rewrite E in Sc. discriminate. }
  rewrite G, R1, R2. unfold hook, package_hooks. tauto.
Qed.
Lemma names_in fs f d : In f fs -> In d (assignments ia f) -> In (ad_name d) (names_of ia fs).
Proof. intros I H. unfold names_of. apply in_flat_map. exists f. split; auto. now apply in_map. Qed.
Lemma assignments_iff f d : In d (assignments ia f) <-> pf_scope f <> SSrc /\
  defines ia (pf_content f) (ad_name d) (ad_start d) (ad_line d) /\ ad_end d = ad_start d + blen (ad_name d).
Proof.
  unfold assignments. rewrite <- (scan_iff ia U). destruct (pf_scope f); simpl; intuition congruence.
Qed.
(** What [reported] says. *)
Theorem reported_iff fs f d : plain_name (ad_name d) -> In f fs ->
  reported ia regex skipped namespace (of_root (pf_root f) fs) f d <->
  In d (assignments ia f) /\ skipped (ad_name d) = false /\
  (exists r, In r fs /\ pf_root r = pf_root f /\ pf_scope r = SR) /\
  (forall g, In g fs -> pf_root g = pf_root f -> pf_scope g = pf_scope f -> ~ maybe_referenced ia (pf_content g) (ad_name d)) /\
  exists ns, namespace (pf_root f) = Some ns /\
  (pf_scope f = SR -> ~ hook (ad_name d) /\
     (forall g, generic_of (ad_name d) g -> g <> [] -> ~ r_mentions fs (pf_root f) g) /\
     (forall g, In g fs -> pf_root g = pf_root f -> pf_scope g <> SR -> ~ maybe_mentioned (pf_content g) (ad_name d)) /\
     ~ In (ad_name d) (parse_namespace_exports regex ns (names_of ia (of_scope SR (of_root (pf_root f) fs))))).
Proof.
  intros P If. unfold reported. split.
  - intros (_ & Id & first & rest & ns & R & N & H).
    assert (I1 : In first (of_scope SR (of_root (pf_root f) fs))) by (rewrite R; now left).
    apply of_scope_in in I1 as (I1 & S1). apply of_root_in in I1 as (I1 & R1). rewrite R1 in N.
    split; auto. assert (Ns : pf_scope f <> SSrc) by (now apply assignments_iff in Id).
    destruct (pf_scope f) eqn:Sc; [| | |congruence].
    + apply r_unused_iff in H as (H1 & H2 & H3 & H4 & H5 & H6); auto. split; auto. split; [eauto|]. split; auto.
      exists ns. auto.
    + apply scope_unused_iff in H as (H1 & H2); auto. split; auto. split; [eauto|]. split; auto. exists ns. split; auto. discriminate.
    + apply scope_unused_iff in H as (H1 & H2); auto. split; auto. split; [eauto|]. split; auto. exists ns. split; auto. discriminate.
  - intros (Id & Sk & (r & Ir & Rr & Sr) & H & ns & N & K). split; [now apply of_root_in|]. split; auto.
    assert (Ir' : In r (of_scope SR (of_root (pf_root f) fs))) by (apply of_scope_in; rewrite of_root_in; auto).
    destruct (of_scope SR (of_root (pf_root f) fs)) as [|first rest] eqn:R; [destruct Ir'|].
    assert (I1 : In first (of_scope SR (of_root (pf_root f) fs))) by (rewrite R; now left).
    apply of_scope_in in I1 as (I1 & S1). apply of_root_in in I1 as (I1 & R1).
    exists first, rest, ns. split; auto. rewrite R1. split; auto. rewrite <- R.
    assert (Ns : pf_scope f <> SSrc) by (now apply assignments_iff in Id).
    destruct (pf_scope f) eqn:Sc; [| | |congruence].
    + destruct (K eq_refl) as (K1 & K2 & K3 & K4). rewrite R. rewrite <- R. apply r_unused_iff; auto.
      rewrite <- R in K4. repeat split; auto.
    + apply scope_unused_iff; auto.
    + apply scope_unused_iff; auto.
Qed.
End Exact.

(** ** Order *)
Lemma perm_filter {A} (f : A -> bool) l l' : Permutation l l' -> Permutation (filter f l) (filter f l').
Proof.
  induction 1; simpl; auto.
  - destruct (f x); auto.
  - destruct (f x), (f y); auto using perm_swap.
  - eauto using Permutation_trans.
Qed.
Lemma perm_flat_map {A B} (g : A -> list B) l l' : Permutation l l' -> Permutation (flat_map g l) (flat_map g l').
Proof.
  induction 1; simpl; auto.
  - now apply Permutation_app_head.
  - rewrite !app_assoc. apply Permutation_app_tail, Permutation_app_comm.
  - eauto using Permutation_trans.
Qed.
Lemma count_perm n l l' : Permutation l l' -> count n l = count n l'.
Proof. intros H. unfold count. now apply Permutation_length, perm_filter. Qed.
Lemma mem_ext x l l' : (forall y, In y l <-> In y l') -> mem x l = mem x l'.
Proof.
  intros H. destruct (mem x l) eqn:E, (mem x l') eqn:F; auto.
  - apply mem_iff, H, mem_iff in E. congruence.
  - apply mem_iff, H, mem_iff in F. congruence.
Qed.
Lemma perm_in_iff {A} (l l' : list A) : Permutation l l' -> forall y, In y l <-> In y l'.
Proof. intros H y. split; apply Permutation_in; auto using Permutation_sym. Qed.
Lemma exports_ext regex ns all all' : (forall y, In y all <-> In y all') ->
  forall y, In y (parse_namespace_exports regex ns all) <-> In y (parse_namespace_exports regex ns all').
Proof.
  assert (H : forall all all', (forall y, In y all <-> In y all') -> forall y, In y (parse_namespace_exports regex ns all) -> In y (parse_namespace_exports regex ns all')).
  { intros a a' E y. unfold parse_namespace_exports. rewrite !in_flat_map. intros (x & Ix & H). exists x. split; auto.
    unfold line_exports in *. destruct (trim x) as [|c r]; auto. destruct (starts_with _ _); auto. revert H.
    generalize directives. induction l as [|d ds IH]; simpl; auto. destruct (extract_directive _ d); auto.
    unfold directive_exports. destruct (teqb d (lit "exportPattern")); auto. destruct (regex _); auto.
    rewrite !filter_In. now rewrite E. }
  intros E y. split; apply H; auto. intros z. symmetry. apply E.
Qed.
Theorem reported_perm ia regex skipped namespace grp grp' f d : Permutation grp grp' -> (forall x y, In x grp -> In y grp -> pf_root x = pf_root y) ->
  reported ia regex skipped namespace grp f d -> reported ia regex skipped namespace grp' f d.
Proof.
  intros Pm Rt (If & Id & first & rest & ns & R & N & H).
  assert (PS : forall s, Permutation (of_scope s grp) (of_scope s grp')) by (intros; now apply perm_filter).
  assert (PN : Permutation (not_r grp) (not_r grp')) by now apply perm_filter.
  assert (PW : forall a b, Permutation a b -> Permutation (words_of a) (words_of b)) by (intros; now apply perm_flat_map).
  assert (PM : forall a b, Permutation a b -> Permutation (names_of ia a) (names_of ia b)) by (intros; now apply perm_flat_map).
  split; [eapply Permutation_in; eauto|]. split; auto.
  assert (I1 : In first (of_scope SR grp)) by (rewrite R; now left).
  destruct (of_scope SR grp') as [|first' rest'] eqn:R'.
  - specialize (PS SR). rewrite R, R' in PS. now apply Permutation_sym, Permutation_nil in PS.
  - exists first', rest', ns. split; auto. split.
    + assert (I2 : In first' (of_scope SR grp)) by (apply (Permutation_in _ (Permutation_sym (PS SR))); rewrite R'; now left).
      apply of_scope_in in I1 as (I1 & _). apply of_scope_in in I2 as (I2 & _). now rewrite (Rt first' first).
    + rewrite <- R'.
      assert (Q : forall s, unused_in_scope ia skipped (of_scope s grp) d = true -> unused_in_scope ia skipped (of_scope s grp') d = true).
      { intros s. unfold unused_in_scope. rewrite (count_perm _ _ _ (PW _ _ (PS s))), (count_perm _ _ _ (PM _ _ (PS s))). auto. }
      destruct (pf_scope f); auto. revert H. unfold unused_in_r.
      rewrite (mem_ext _ _ _ (exports_ext regex ns _ _ (perm_in_iff _ _ (PM _ _ (PS SR))))).
      rewrite (mem_ext _ _ _ (perm_in_iff _ _ (PW _ _ PN))).
      rewrite (count_perm _ _ _ (PW _ _ (PS SR))), (count_perm _ _ _ (PM _ _ (PS SR))).
      assert (X : existsb (fun p => mem p (words_of (of_scope SR grp))) (dot_prefixes [] (ad_name d)) =
                  existsb (fun p => mem p (words_of (of_scope SR grp'))) (dot_prefixes [] (ad_name d))).
      { induction (dot_prefixes [] (ad_name d)) as [|x l IH]; simpl; auto. rewrite IH. f_equal. apply mem_ext, perm_in_iff, PW, PS. }
      rewrite X. auto.
Qed.
Theorem unused_order ia regex skipped order order' namespace fs fs' p d :
  (forall gs, Permutation (order gs) gs) -> (forall gs, Permutation (order' gs) gs) ->
  NoDup (map pf_path fs) -> Permutation fs fs' ->
  In d (lookup p (compute_unused ia regex skipped order namespace fs)) ->
  In d (lookup p (compute_unused ia regex skipped order' namespace fs')).
Proof.
  intros O O' ND P I. apply unused_sound in I as (f & If & <- & R); auto. apply unused_complete; auto.
  - eapply Permutation_NoDup; [apply Permutation_map, P|auto].
  - eapply Permutation_in; eauto.
  - eapply reported_perm; [|..|exact R].
    + now apply perm_filter.
    + intros x y Ix Iy. apply of_root_in in Ix as (_ & Ix). apply of_root_in in Iy as (_ & Iy). congruence.
Qed.
