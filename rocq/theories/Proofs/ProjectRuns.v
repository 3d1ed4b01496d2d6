(** Whole runs: what a run says about one file (C87), and the editor (C88). *)
From Coq Require Import Permutation.
From Verif Require Import Model.Text Model.Base Model.Rules Model.Description Model.Fix Model.Driver Model.Cli Model.Package Model.Project.
From Verif Require Model.Config.
From Verif Require Import Spec.CliSpec Spec.PackageSpec Spec.ProjectSpec.
From Verif Require Import Proofs.TextProofs Proofs.CliDiscover Proofs.CliReport Proofs.PackageFiles Proofs.PackageSearch Proofs.CliMain Proofs.ProjectFiles.

(** ** Groups *)
Lemma add_group_in items p gs : forall k ps, (forall k ps, In (k, ps) gs -> forall q, In q ps -> group_key items q = k) ->
  In (k, ps) (add_to_group (group_key items p) p gs) -> forall q, In q ps -> group_key items q = k.
Proof.
  induction gs as [|[k' l] gs IH]; intros k ps H I q Iq; cbn [add_to_group] in I.
  - destruct I as [[= <- <-]|[]]. destruct Iq as [<-|[]]. auto.
  - destruct (key_eqb (group_key items p) k') eqn:E.
    + destruct I as [[= <- <-]|I]; [|eapply H; eauto; now right]. apply in_app_or in Iq as [Iq|[<-|[]]].
      * eapply H; eauto. now left.
      * now apply key_eqb_eq in E.
    + destruct I as [[= <- <-]|I]; [eapply H; eauto; now left|]. eapply IH; eauto. intros. eapply H; eauto. now right.
Qed.
Lemma group_paths_key items paths k ps : In (k, ps) (group_paths items paths) -> forall q, In q ps -> group_key items q = k.
Proof.
  unfold group_paths.
  assert (G : forall paths gs, (forall k ps, In (k, ps) gs -> forall q, In q ps -> group_key items q = k) ->
    forall k ps, In (k, ps) (fold_left (fun gs p => add_to_group (group_key items p) p gs) paths gs) -> forall q, In q ps -> group_key items q = k).
  { clear. induction paths as [|p paths IH]; intros gs H k ps I; cbn [fold_left] in I; [eauto|]. eapply IH; [|exact I].
    intros. eapply add_group_in; eauto. }
  apply G. intros ? ? [].
Qed.
Lemma spread_paths f gs : map snd (spread f gs) = flat_map snd gs.
Proof. induction gs as [|[k ps] gs IH]; auto. unfold spread in *. cbn [flat_map]. rewrite map_app, IH, map_map. cbn [snd]. now rewrite map_id. Qed.
Lemma groups_perm items paths : Permutation (flat_map snd (group_paths items paths)) paths.
Proof.
  rewrite <- (spread_paths (fun _ => None)). eapply Permutation_trans; [apply Permutation_map, group_paths_spread|].
  rewrite map_map. cbn [snd]. now rewrite map_id.
Qed.
Lemma nodup_left {A} (l l' : list A) : NoDup (l ++ l') -> NoDup l.
Proof. induction l as [|x l IH]; intros N; [constructor|]. inversion N as [|? ? N1 N2]; subst. constructor; auto. intros K. apply N1. apply in_or_app; auto. Qed.
Lemma nodup_right {A} (l l' : list A) : NoDup (l ++ l') -> NoDup l'.
Proof. induction l as [|x l IH]; intros N; auto. inversion N; subst; auto. Qed.
Lemma nodup_part {A B} (gs : list (A * list B)) k ps : NoDup (flat_map snd gs) -> In (k, ps) gs -> NoDup ps.
Proof.
  induction gs as [|[k' l] gs IH]; intros N I; [destruct I|]. cbn [flat_map snd] in N. apply nodup_left in N as Na. apply nodup_right in N as Nb.
  destruct I as [[= <- <-]|I]; auto.
Qed.
Lemma part_unique {A B} (gs : list (A * list B)) k ps k' ps' x : NoDup (flat_map snd gs) -> In (k, ps) gs -> In (k', ps') gs ->
  In x ps -> In x ps' -> (k, ps) = (k', ps').
Proof.
  induction gs as [|[k0 l] gs IH]; intros N I I' X X'; [destruct I|]. cbn [flat_map snd] in N.
  assert (D : forall y, In y l -> ~ In y (flat_map snd gs)).
  { intros y Y K. apply in_split in K as (l1 & l2 & K). rewrite K in N. rewrite app_assoc in N. apply NoDup_remove_2 in N.
    apply N. apply in_or_app. left. apply in_or_app. auto. }
  apply nodup_right in N.
  assert (F : forall k ps, In (k, ps) gs -> In x ps -> In x (flat_map snd gs)) by (intros; apply in_flat_map; eauto).
  destruct I as [[= <- <-]|I], I' as [[= <- <-]|I']; auto.
  - exfalso. eapply D; eauto.
  - exfalso. eapply D; eauto.
Qed.
Section Runs.
Variable run_group : option csettings -> list dpath -> res (list fresult).
Lemma run_all_in items gs : forall rs, run_all run_group items gs = ROk rs ->
  (forall k ps, In (k, ps) gs -> exists l, run_group (group_settings items k) ps = ROk l) /\
  forall x, In x rs <-> exists k ps l, In (k, ps) gs /\ run_group (group_settings items k) ps = ROk l /\ In x l.
Proof.
  induction gs as [|[k ps] gs IH]; intros rs H; cbn [run_all] in H.
  - injection H as <-. split; [intros ? ? []|]. intros x. split; [intros []|]. intros (? & ? & ? & [] & _).
  - destruct (run_group (group_settings items k) ps) as [l| |] eqn:E; try discriminate. cbn [rbind] in H.
    destruct (run_all run_group items gs) as [l'| |] eqn:E'; try discriminate. cbn [rbind] in H. injection H as <-.
    destruct (IH l' eq_refl) as (G & M). split.
    + intros k0 ps0 [[= <- <-]|I]; eauto.
    + intros x. rewrite in_app_iff, M. split.
      * intros [I|(k0 & ps0 & l0 & I & R & J)]; [exists k, ps, l; split; [now left|auto]|exists k0, ps0, l0; split; [now right|auto]].
      * intros (k0 & ps0 & l0 & [[= <- <-]|I] & R & J); [left; congruence|right; now exists k0, ps0, l0].
Qed.
End Runs.

(** ** One file of a run *)
Section Project.
Variable ia : char -> bool.
Variable regex : text -> option (text -> bool).
Variable skipped : option csettings -> text -> bool.
Variables order order' : list (dpath * list pfile) -> list (dpath * list pfile).
Hypothesis O : forall gs, Permutation (order gs) gs.
Hypothesis O' : forall gs, Permutation (order' gs) gs.
Variable toml : csettings -> Config.settings.
Variable lint : option csettings -> Config.config -> dpath -> text -> list dup -> list adef -> list diag + err.
Variable pr : project.
Let analysis := package_analysis ia regex skipped order order' pr.
Let group := check_group ia regex skipped order order' toml lint pr.

Lemma one_file a gorder items paths rs p : (forall gs, Permutation (gorder gs) gs) -> NoDup paths ->
  run_all (group a) items (gorder (group_paths items paths)) = ROk rs -> In p paths ->
  exists ps cfg, In p ps /\ incl ps paths /\ NoDup ps /\
    Config.build_config a (option_map toml (settings_for items p)) (map (description_beside pr) ps) = ROk cfg /\
    result_is rs p (lint_path lint pr (settings_for items p) cfg (analysis (settings_for items p) cfg ps) p).
Proof.
  intros G N H I. destruct (run_all_in _ _ _ _ H) as (T & M).
  pose proof (Permutation_sym (groups_perm items paths)) as P.
  assert (NG : NoDup (flat_map snd (group_paths items paths))) by (eapply Permutation_NoDup; eauto).
  pose proof (Permutation_in _ P I) as Ig. apply in_flat_map in Ig as ([k ps] & Ik & Ip). cbn [snd] in Ip.
  pose proof (group_paths_key _ _ _ _ Ik p Ip) as K. pose proof (Permutation_in _ (Permutation_sym (G _)) Ik) as Io.
  destruct (T k ps Io) as (l & E). exists ps. unfold group, check_group in E.
  destruct (Config.build_config a (option_map toml (group_settings items k)) (map (description_beside pr) ps)) as [cfg| |] eqn:B; try discriminate.
  cbn [rbind] in E. injection E as E. exists cfg. split; auto. split; [|split; [|split]].
  - intros q Iq. apply (Permutation_in _ (Permutation_sym P)). apply in_flat_map. exists (k, ps). auto.
  - eapply nodup_part; eauto.
  - unfold settings_for. now rewrite K.
  - unfold settings_for. rewrite K. intros r. rewrite M. split.
    + intros (k0 & ps0 & l0 & I0 & R0 & J). unfold group, check_group in R0.
      destruct (Config.build_config a (option_map toml (group_settings items k0)) (map (description_beside pr) ps0)) as [cfg0| |] eqn:B0; try discriminate.
      cbn [rbind] in R0. injection R0 as <-. apply in_map_iff in J as (q & [= -> <-] & Jq).
      assert (X : (k0, ps0) = (k, ps)) by (eapply part_unique; eauto; eapply Permutation_in; eauto). injection X as -> ->.
      rewrite B in B0. now injection B0 as ->.
    + intros ->. exists k, ps, l. split; auto. unfold group, check_group. rewrite B. cbn [rbind]. split; [now rewrite E|]. rewrite <- E.
      apply in_map_iff. now exists p.
Qed.
Lemma no_description p : ~ is_package pr (removelast p) -> description_beside pr p = None.
Proof.
  unfold is_package, description_beside, beside, parent. intros H. destruct (text_at pr (removelast p ++ [lit "DESCRIPTION"])) eqn:E; auto.
  exfalso. eauto.
Qed.
Lemma config_same a t ps ps' : version_settled pr (Config.a_min_r a) ps -> version_settled pr (Config.a_min_r a) ps' ->
  Config.build_config a t (map (description_beside pr) ps) = Config.build_config a t (map (description_beside pr) ps').
Proof.
  intros V V'. assert (E : determine_minimum_r_version (Config.a_min_r a) (map (description_beside pr) ps) =
                           determine_minimum_r_version (Config.a_min_r a) (map (description_beside pr) ps')).
  { unfold determine_minimum_r_version. unfold version_settled in *. destruct (Config.a_min_r a); auto.
    destruct V as [V|V]; [congruence|]. destruct V' as [V'|V']; [congruence|].
    assert (Z : forall l, (forall p, In p l -> ~ is_package pr (removelast p)) -> version_from_descriptions (map (description_beside pr) l) = ROk None).
    { induction l as [|p l IH]; intros H; auto. cbn [map]. rewrite no_description by (apply H; now left). cbn [version_from_descriptions].
      apply IH. intros q Iq. apply H. now right. }
    now rewrite !Z. }
  unfold Config.build_config. now rewrite E.
Qed.
Lemma apart_sub paths ps : incl ps paths -> packages_apart pr paths -> packages_apart pr ps.
Proof. intros I A r r' (p & Ip & R) (q & Iq & R') K. apply A; auto; [exists p|exists q]; auto. Qed.
Lemma placed_sub paths ps p : incl ps paths -> well_placed pr paths p -> well_placed pr ps p.
Proof. intros I [W|W]; [now left|]. right. intros root (q & Iq & R). apply W. exists q. auto. Qed.
Lemma version_sub e paths ps : incl ps paths -> version_settled pr e paths -> version_settled pr e ps.
Proof. intros I [V|V]; [now left|right; auto]. Qed.

Theorem same_result a items items' gorder gorder' paths paths' rs rs' p :
  (forall gs, Permutation (gorder gs) gs) -> (forall gs, Permutation (gorder' gs) gs) ->
  settings_for items p = settings_for items' p ->
  proper_files pr paths -> proper_files pr paths' -> packages_apart pr paths -> packages_apart pr paths' ->
  well_placed pr paths p -> well_placed pr paths' p ->
  version_settled pr (Config.a_min_r a) paths -> version_settled pr (Config.a_min_r a) paths' ->
  In p paths -> In p paths' ->
  run_all (group a) items (gorder (group_paths items paths)) = ROk rs ->
  run_all (group a) items' (gorder' (group_paths items' paths')) = ROk rs' ->
  exists r, result_is rs p r /\ result_is rs' p r.
Proof.
  intros G G' Es (N & D & Inc) (N' & _ & Inc') A A' W W' V V' I I' H H'.
  destruct (one_file a gorder items paths rs p G N H I) as (ps & cfg & Ip & Ips & Np & B & R).
  destruct (one_file a gorder' items' paths' rs' p G' N' H' I') as (ps' & cfg' & Ip' & Ips' & Np' & B' & R').
  rewrite <- Es in *. rewrite (config_same a _ ps ps') in B; [|eapply version_sub; eauto|eapply version_sub; eauto].
  rewrite B in B'. injection B' as <-.
  eexists. split; [exact R|]. replace (lint_path lint pr (settings_for items p) cfg (analysis (settings_for items p) cfg ps) p)
    with (lint_path lint pr (settings_for items p) cfg (analysis (settings_for items p) cfg ps') p); auto.
  destruct (analysis_placed ia regex skipped order order' O O' pr ps ps' (settings_for items p) cfg p) as (E1 & E2); auto;
    try (split; [assumption|split; [assumption|intros ? ?; auto]]); try (eapply apart_sub; eauto); try (eapply placed_sub; eauto).
  unfold lint_path, analysis. now rewrite E1, E2.
Qed.
End Project.

(** ** Settings *)
Lemma nearest_fun config_at p d s d' s' : nearest config_at p d s -> nearest config_at p d' s' -> s = s'.
Proof.
  intros (A & C & M) (A' & C' & M'). assert (d = d') as ->.
  { apply (above_same d d' p); auto. apply Nat.le_antisymm; [apply M'|apply M]; auto; congruence. }
  congruence.
Qed.
Lemma settings_same config_at user_dir subdirs subdirs' inputs inputs' items items' p :
  discover_settings config_at user_dir subdirs inputs = ROk items -> discover_settings config_at user_dir subdirs' inputs' = ROk items' ->
  reached config_at subdirs inputs p -> reached config_at subdirs' inputs' p -> (forall u, user_dir = Some u -> ~ above u p) ->
  settings_for items p = settings_for items' p.
Proof.
  intros D D' R R' U. pose proof (nearest_settings _ _ _ _ _ _ D R U) as N. pose proof (nearest_settings _ _ _ _ _ _ D' R' U) as N'.
  unfold settings_for. destruct (group_settings items (group_key items p)) as [s|], (group_settings items' (group_key items' p)) as [s'|]; auto.
  - destruct N as (d & N), N' as (d' & N'). f_equal. eapply nearest_fun; eauto.
  - exfalso. destruct N as (d & A & C & _). rewrite (N' d A) in C. discriminate.
  - exfalso. destruct N' as (d & A & C & _). rewrite (N d A) in C. discriminate.
Qed.
Lemma documented_fun config_at user_dir p o o' : documented_settings config_at user_dir p o -> documented_settings config_at user_dir p o' -> o = o'.
Proof.
  intros [(d & s & N & ->)|(Nc & H)] [(d' & s' & N' & ->)|(Nc' & H')].
  - f_equal. eapply nearest_fun; eauto.
  - exfalso. destruct N as (A & C & _). rewrite (Nc' d A) in C. discriminate.
  - exfalso. destruct N' as (A & C & _). rewrite (Nc d' A) in C. discriminate.
  - destruct user_dir as [u|]; [destruct (config_at u)|]; congruence.
Qed.

(** ** The editor *)
Section Editor.
Variable ia : char -> bool.
Variable regex : text -> option (text -> bool).
Variable skipped : option csettings -> text -> bool.
Variables order order' : list (dpath * list pfile) -> list (dpath * list pfile).
Hypothesis O : forall gs, Permutation (order gs) gs.
Hypothesis O' : forall gs, Permutation (order' gs) gs.
Variable toml : csettings -> Config.settings.
Variable lint : option csettings -> Config.config -> dpath -> text -> list dup -> list adef -> list diag + err.
Variable pr : project.
Let analysis := package_analysis ia regex skipped order order' pr.
Let group := check_group ia regex skipped order order' toml lint pr.
Let editor := editor_lint ia regex skipped order order' toml lint pr.

Definition editor_analysis st cfg p : dmap * rmap := match siblings pr p with Some qs => analysis st cfg qs | None => ([], []) end.
Lemma siblings_r root p : r_file_of pr root p -> In p (disk pr) -> NoDup (disk pr) ->
  exists qs, siblings pr p = Some qs /\ proper_files pr qs /\ packages_apart pr qs /\ In p qs.
Proof.
  intros ((n & -> & R) & Pk) I N. unfold siblings. rewrite (in_pkg (has_description pr)) by (now apply has_description_iff).
  eexists. split; [reflexivity|]. split; [split; [now apply NoDup_filter|split; auto; intros q Iq; now apply filter_In in Iq]|].
  split; [|apply filter_In; split; auto; rewrite peqb_refl; auto].
  assert (K : forall q r, In q (filter (fun q => peqb (parent q) (parent (root ++ [lit "R"; n])) && r_file q) (disk pr)) -> r_source r q -> r = root).
  { intros q r Iq (m & -> & _). apply filter_In in Iq as (_ & Iq). apply andb_true_iff in Iq as (Iq & _). apply peqb_eq in Iq.
    rewrite !parent_app in Iq by discriminate. cbn [removelast] in Iq. now apply app_inv_tail in Iq. }
  intros r r' (q & Iq & R1 & _) (q' & Iq' & R2 & _) _. now rewrite (K q r), (K q' r').
Qed.
Lemma editor_analysis_same paths st cfg p : proper_files pr paths -> packages_apart pr paths -> In p paths -> r_file_or_outside pr p ->
  lookup p (fst (analysis st cfg paths)) = lookup p (fst (editor_analysis st cfg p)) /\
  lookup p (snd (analysis st cfg paths)) = lookup p (snd (editor_analysis st cfg p)).
Proof.
  intros P A I [(root & R)|Out].
  - destruct P as (P1 & P2 & P3). destruct (siblings_r root p R (P3 _ I) P2) as (qs & E & Q & Aq & Iq). unfold editor_analysis. rewrite E.
    eapply analysis_same; eauto. split; auto.
  - assert (E : siblings pr p = None).
    { unfold siblings. destruct (in_package (has_description pr) p) eqn:K; auto. exfalso. apply in_package_split in K as (root & n & -> & Hd & _).
      apply (Out root); [now apply has_description_iff|now exists [lit "R"; n]]. }
    unfold editor_analysis. rewrite E. cbn [fst snd lookup]. apply analysis_outside; auto. intros root (q & _ & _ & Pk). now apply Out.
Qed.
Lemma removelast_sub p paths e : In p paths -> version_settled pr e paths -> version_settled pr e [p].
Proof. intros I V. eapply version_sub; eauto. intros x [<-|[]]. auto. Qed.
Theorem editor_agrees items gorder paths rs eitems p t :
  (forall gs, Permutation (gorder gs) gs) -> settings_for items p = lsp_settings eitems ->
  editor_excludes eitems p = false -> proper_files pr paths -> packages_apart pr paths -> In p paths -> r_file_or_outside pr p ->
  version_settled pr None paths -> text_at pr p = Some t ->
  run_all (group no_args) items (gorder (group_paths items paths)) = ROk rs ->
  exists r, result_is rs p r /\
    match r with
    | inl ds => exists eds hidden, editor (ROk eitems) p t = ROk (eds, hidden) /\ (hidden = 0 -> eds = ds) /\ (hidden <> 0 -> eds = filter not_unused ds)
    | inr _ => editor (ROk eitems) p t = RErr
    end.
Proof.
  intros G Es Ex P A I W V T H. destruct P as (N & D & Inc).
  destruct (one_file ia regex skipped order order' toml lint pr no_args gorder items paths rs p G N H I) as (ps & cfg & Ip & Ips & Np & B & R).
  eexists. split; [exact R|]. rewrite Es in *.
  destruct (editor_analysis_same ps (lsp_settings eitems) cfg p) as (E1 & E2); auto;
    [split; [assumption|split; [assumption|intros ? ?; auto]]|eapply apart_sub; eauto|].
  rewrite (config_same pr no_args _ ps [p]) in B; [|exact (version_sub pr None paths ps Ips V)|exact (removelast_sub p paths None I V)].
  cbn [map] in B.
  assert (Ed : editor (ROk eitems) p t =
    match lint_path lint pr (lsp_settings eitems) cfg (analysis (lsp_settings eitems) cfg ps) p with
    | inr _ => RErr
    | inl ds => if negb (explicitly_selected [] [] eitems) &&
                   ((match min_list (map (fun i => cs_threshold (snd i)) eitems) with Some n => n | None => 50 end) <?
                     total_unused (snd (editor_analysis (lsp_settings eitems) cfg p)))
                then ROk (filter (fun d => negb (d_unused_fn d)) ds, total_unused (snd (editor_analysis (lsp_settings eitems) cfg p)))
                else ROk (ds, 0)
    end).
  { unfold editor, editor_lint. cbn [rbind]. rewrite Ex, B. cbn [rbind]. unfold lint_path. rewrite T.
    fold analysis. change (match siblings pr p with Some qs => analysis (lsp_settings eitems) cfg qs | None => ([], []) end)
      with (editor_analysis (lsp_settings eitems) cfg p). now rewrite E1, E2. }
  fold analysis in R. fold analysis. destruct (lint_path lint pr (lsp_settings eitems) cfg (analysis (lsp_settings eitems) cfg ps) p) as [ds|er]; rewrite Ed; auto.
  destruct (negb (explicitly_selected [] [] eitems) && _) eqn:C.
  - eexists _, _. split; [reflexivity|]. split; [|intros _; reflexivity]. intros Z. apply andb_true_iff in C as (_ & C). apply Nat.ltb_lt in C. lia.
  - exists ds, 0. split; [reflexivity|]. split; [reflexivity|]. intros Z. congruence.
Qed.
End Editor.

(** What is shown of one file. *)
Lemma shown_of_file select extend items rs shown p ds d : visible select extend items rs shown -> result_is rs p (inl ds) -> not_unused d = true ->
  (In (mk_fd p d) shown <-> In d ds).
Proof.
  intros (n & _ & V) R U.
  assert (K : In (mk_fd p d) (all_found rs) <-> In d ds).
  { unfold all_found. rewrite in_flat_map. split.
    - intros ((q & [l|e]) & Iq & J); [|destruct J]. apply in_map_iff in J as (d' & [= -> ->] & J). apply R in Iq. now injection Iq as ->.
    - intros I. exists (p, inl ds). split; [now apply R|]. now apply in_map. }
  destruct V as [(_ & V)|(_ & _ & V)].
  - rewrite <- K. split; intros I; [exact (Permutation_in _ V I)|exact (Permutation_in _ (Permutation_sym V) I)].
  - rewrite <- K. split; intros I.
    + apply (Permutation_in _ V) in I. now apply filter_In in I.
    + apply (Permutation_in _ (Permutation_sym V)). apply filter_In. split; auto.
Qed.

(** ** Example projects *)
Definition pkg_root : dpath := [lit "p"].
Definition pkg_a : dpath := [lit "p"; lit "R"; lit "a.R"].
Definition pkg_b : dpath := [lit "p"; lit "R"; lit "b.R"].
Definition pkg_test : dpath := [lit "p"; lit "tests"; lit "h.R"].
Definition pkg_build : dpath := [lit "p"; lit "build.R"].
(** Two R files with one unused function each, a test helper, a script at the root. *)
Definition demo : project := mk_project [pkg_a; pkg_b; pkg_test; pkg_build] (fun q =>
  if peqb q pkg_a then Some (lit "f <- function() 1") else if peqb q pkg_b then Some (lit "g <- function() 1")
  else if peqb q pkg_test then Some (lit "h <- function() 1") else if peqb q pkg_build then Some (lit "1")
  else if peqb q (pkg_root ++ [lit "DESCRIPTION"]) then Some (lit "Depends: R (>= 4.5.0)")
  else if peqb q (pkg_root ++ [lit "NAMESPACE"]) then Some [] else None).
Definition demo_alnum : char -> bool := ascii_alnum.
Definition demo_toml (s : csettings) : Config.settings := Config.mk_settings (cs_select s) (cs_extend s) None None None.
(** The part of the linter that reports the unused functions handed to it. *)
Definition demo_lint (_ : option csettings) (_ : Config.config) (_ : dpath) (_ : text) (_ : list dup) (us : list adef) : list diag + err :=
  inl (map (fun u => mk_diag (lit "unused_function") (ad_start u) (ad_end u) (mk_fix [] 0 0 true)) us).
(** A linter that reports once when a rule that needs R 4.5.0 is in force. *)
Definition demo_lint_v (_ : option csettings) (cfg : Config.config) (_ : dpath) (_ : text) (_ : list dup) (_ : list adef) : list diag + err :=
  inl (if applies cfg (lit "grepv") then [mk_diag (lit "grepv") 0 1 (mk_fix [] 0 0 true)] else []).
Definition demo_group lint := check_group demo_alnum (fun _ => None) (fun _ _ => false) (fun gs => gs) (fun gs => gs) demo_toml lint demo.
Definition demo_editor := editor_lint demo_alnum (fun _ => None) (fun _ _ => false) (fun gs => gs) (fun gs => gs) demo_toml demo_lint demo.
(** Configurations of the package: all rules, unused functions withheld when there is more than one; and
    [unused_function] asked for by name. *)
Definition all_rules_one : item := (pkg_root, mk_cs None (Some [lit "ALL"]) None None None 1 0).
Definition by_name : item := (pkg_root, mk_cs None (Some [lit "unused_function"]) None None None 50 0).
Definition demo_results lint items paths := run_all (demo_group lint no_args) items (group_paths items paths).
Definition unused_diag : diag := mk_diag (lit "unused_function") 0 1 (mk_fix [] 0 0 true).
Definition grepv_diag : diag := mk_diag (lit "grepv") 0 1 (mk_fix [] 0 0 true).
(** A project without package, and a linter that reports once in every file. *)
Definition renv_file : dpath := [lit "p"; lit "renv"; lit "activate.R"].
Definition renv_editor := editor_lint demo_alnum (fun _ => None) (fun _ _ => false) (fun gs => gs) (fun gs => gs) demo_toml
  (fun _ _ _ _ _ _ => inl [unused_diag]) (mk_project [renv_file] (fun q => if peqb q renv_file then Some (lit "x") else None)).
Definition demo_config (d : dpath) : cfile := if peqb d pkg_root then GoodConfig (snd by_name) else NoConfig.
Lemma demo_package root : is_package demo root -> root = pkg_root.
Proof.
  intros (t & E). unfold demo in E. cbn [text_at] in E.
  assert (L : forall b, last b [] <> lit "DESCRIPTION" -> peqb (root ++ [lit "DESCRIPTION"]) b = false).
  { intros b N. apply peqb_neq. intros <-. rewrite last_last in N. now apply N. }
  rewrite !L in E by discriminate.
  destruct (peqb (root ++ [lit "DESCRIPTION"]) (pkg_root ++ [lit "DESCRIPTION"])) eqn:Q.
  - apply peqb_eq in Q. now apply app_inj_tail in Q as (-> & _).
  - rewrite L in E by discriminate. discriminate.
Qed.
Lemma demo_apart paths : packages_apart demo paths.
Proof. intros r r' (p & _ & _ & P) (p' & _ & _ & P') _. apply demo_package in P, P'. congruence. Qed.
Lemma demo_r_a : r_file_of demo pkg_root pkg_a.
Proof. split; [exists (lit "a.R"); split; reflexivity|]. eexists. vm_compute. reflexivity. Qed.
Lemma demo_version paths : (forall p, In p paths -> removelast p <> pkg_root) -> version_settled demo None paths.
Proof. intros H. right. intros p I K. apply demo_package in K. exact (H p I K). Qed.
Lemma demo_proper paths : NoDup paths -> incl paths [pkg_a; pkg_b; pkg_test; pkg_build] -> proper_files demo paths.
Proof.
  intros N I. split; auto. split; auto. cbn [disk demo]. repeat constructor; cbn [In]; intros K;
    repeat match goal with H : _ \/ _ |- _ => destruct H as [H|H] end; try discriminate; auto.
Qed.
Lemma demo_reached p : demo_config p = NoConfig -> reached demo_config (fun _ => []) [p] p.
Proof.
  intros C. split; auto. exists p. split; [now left|]. split; [apply above_refl|]. intros d A1 A2. left.
  symmetry. apply (above_same p d p); auto using above_refl. apply Nat.le_antisymm; now apply above_len.
Qed.
