(** Fixing runs on a project (C99). *)
From Coq Require Import Permutation.
From Verif Require Import Model.Text Model.Base Model.Rules Model.Description Model.Fix Model.Driver Model.Cli Model.Package Model.Project Model.ProjectFix.
From Verif Require Model.Config.
From Verif Require Import Spec.CliSpec Spec.PackageSpec Spec.ProjectSpec.
From Verif Require Proofs.RulesProofs Model.Pipeline Model.RuleOptions Model.Traverse.
From Verif Require Import Proofs.TextProofs Proofs.DriverProofs Proofs.CliDiscover Proofs.CliReport Proofs.PackageFiles Proofs.PackageSearch Proofs.CliMain Proofs.ProjectFiles Proofs.ProjectRuns.

Lemma filter_all {A} (f : A -> bool) l : (forall x, In x l -> f x = true) -> filter f l = l.
Proof. induction l as [|x l IH]; intros H; auto. cbn [filter]. rewrite (H x) by now left. apply f_equal. apply IH. intros y Y. apply H. now right. Qed.
Lemma same_rules a rules : (Config.a_fix_only a = true \/ Config.a_unsafe a = true \/ forall r, In r rules -> rule_fix r <> FixUnsafe) ->
  Config.rules_to_apply (without_fixing a) rules = Config.rules_to_apply a rules.
Proof.
  unfold Config.rules_to_apply, without_fixing. cbn [Config.a_fix_only Config.a_fix Config.a_unsafe]. intros H.
  destruct (Config.a_fix_only a); auto. destruct H as [H|H]; [discriminate|].
  destruct (Config.a_unsafe a).
  - symmetry. assert (X : filter (fun r => has_no_fix r || has_safe_fix r || has_unsafe_fix r) rules = rules).
    { apply filter_all. intros r _. unfold has_no_fix, has_safe_fix, has_unsafe_fix. destruct (rule_fix r); reflexivity. }
    destruct (Config.a_fix a); exact X.
  - destruct H as [H|H]; [discriminate|]. destruct (Config.a_fix a); auto. symmetry. apply filter_all. intros r I.
    unfold has_no_fix, has_safe_fix. specialize (H r I). destruct (rule_fix r); auto; contradiction.
Qed.
Lemma config_without a t descs cfg : Config.build_config a t descs = ROk cfg -> no_rule_left_out a cfg ->
  exists cfg', Config.build_config (without_fixing a) t descs = ROk cfg' /\
    Config.c_rules_to_apply cfg = Config.c_rules_to_apply cfg' /\ Config.c_version cfg = Config.c_version cfg' /\
    Config.c_unfixable cfg = Config.c_unfixable cfg' /\ Config.c_fixable cfg = Config.c_fixable cfg'.
Proof.
  unfold Config.build_config. cbn [without_fixing Config.a_min_r Config.a_select Config.a_extend Config.a_ignore Config.a_assignment].
  destruct (determine_minimum_r_version _ _) as [v| |]; try discriminate. cbn [rbind].
  destruct (Config.parse_rules_cli _ _ _) as [cli| |]; try discriminate. cbn [rbind].
  destruct (Config.parse_rules_toml t) as [tm| |]; try discriminate. cbn [rbind].
  destruct (Config.parse_fixable_toml t) as [fu| |]; try discriminate. cbn [rbind].
  destruct (Config.assignment_ok _); try discriminate. intros [= <-] L. unfold no_rule_left_out in L. cbn [Config.c_rules] in L.
  eexists. split; [reflexivity|]. cbn [Config.c_rules_to_apply Config.c_version Config.c_unfixable Config.c_fixable].
  split; auto. symmetry. apply same_rules. exact L.
Qed.
Lemma applied_sub a t descs cfg r : Config.build_config a t descs = ROk cfg -> In r (Config.c_rules_to_apply cfg) -> In r (Config.c_rules cfg).
Proof.
  unfold Config.build_config. 
  destruct (determine_minimum_r_version _ _) as [v| |]; try discriminate. cbn [rbind].
  destruct (Config.parse_rules_cli _ _ _) as [cli| |]; try discriminate. cbn [rbind].
  destruct (Config.parse_rules_toml t) as [tm| |]; try discriminate. cbn [rbind].
  destruct (Config.parse_fixable_toml t) as [fu| |]; try discriminate. cbn [rbind].
  destruct (Config.assignment_ok _); try discriminate. intros [= <-]. cbn [Config.c_rules Config.c_rules_to_apply].
  unfold Config.rules_to_apply. destruct (Config.a_fix_only a); [intros I; now apply filter_In in I|].
  destruct (Config.a_fix a), (Config.a_unsafe a); auto; intros I; now apply filter_In in I.
Qed.

Section Fixing.
Variable ia : char -> bool.
Variable regex : text -> option (text -> bool).
Variable skipped : option csettings -> text -> bool.
Variables order order' : list (dpath * list pfile) -> list (dpath * list pfile).
Hypothesis O : forall gs, Permutation (order gs) gs.
Hypothesis O' : forall gs, Permutation (order' gs) gs.
Variable toml : csettings -> Config.settings.
Variable lint : option csettings -> Config.config -> dpath -> text -> list dup -> list adef -> list diag + err.
Variable writable : dpath -> bool.
Variable pr : project.

Lemma text_after_other q runs : ~ In q (map fst runs) -> text_after pr runs q = text_at pr q.
Proof.
  induction runs as [|[p [t o]] runs IH]; intros H; auto. cbn [text_after]. cbn [map fst In] in H.
  destruct (peqb q p) eqn:E; [apply peqb_eq in E; subst; tauto|]. apply IH. tauto.
Qed.
Lemma text_after_here p t o runs : NoDup (map fst runs) -> In (p, (t, o)) runs -> text_after pr runs p = t.
Proof.
  induction runs as [|[q [u o']] runs IH]; intros N I; [destruct I|]. cbn [text_after]. inversion N; subst.
  destruct I as [[= -> -> ->]|I]; [now rewrite peqb_refl|]. destruct (peqb p q) eqn:E; [|now apply IH].
  apply peqb_eq in E. subst q. exfalso. apply H1. apply in_map_iff. now exists (p, (t, o)).
Qed.
Lemma description_after runs d : not_description (map fst runs) ->
  text_after pr runs (d ++ [lit "DESCRIPTION"]) = text_at pr (d ++ [lit "DESCRIPTION"]).
Proof. intros H. apply text_after_other. intros I. apply (H _ I). apply last_last. Qed.
Lemma package_after runs root : not_description (map fst runs) -> (is_package (after pr runs) root <-> is_package pr root).
Proof. intros H. unfold is_package, after. cbn [text_at]. now rewrite description_after. Qed.

Lemma fix_path_ok n st cfg pkg p t ds : fix_path lint writable pr n st cfg pkg p = (t, Some (Ok ds)) ->
  exists c, t = Some c /\ lint st cfg p c (lookup p (fst pkg)) (lookup p (snd pkg)) = inl ds.
Proof.
  unfold fix_path. destruct (check_path _ _ _ _ _ _) as [fs o] eqn:E. intros [= <- ->]. apply fix_ok in E as (_ & c0 & c & _ & H & L & _).
  exists c. split; auto. destruct (lint _ _ _ _ _ _); [now injection L as ->|discriminate].
Qed.
Theorem fixing_agrees n a st paths runs cfg p t ds :
  ignores_mode lint -> proper_files pr paths -> packages_apart pr paths -> not_description paths ->
  Config.build_config a (option_map toml st) (map (description_beside pr) paths) = ROk cfg -> no_rule_left_out a cfg ->
  fix_group ia regex skipped order order' toml lint writable pr n a st paths = ROk runs ->
  In (p, (t, Some (Ok ds))) runs ->
  package_rules_off cfg \/ (forall root, is_package pr root -> ~ above root p) ->
  exists rs, check_group ia regex skipped order order' toml lint (after pr runs) (without_fixing a) st paths = ROk rs /\
    result_is rs p (inl ds).
Proof.
  intros L P A D B N F I Q. unfold fix_group in F. rewrite B in F. cbn [rbind] in F. injection F as F.
  assert (M : map fst runs = paths) by (rewrite <- F, map_map; cbn [fst]; apply map_id).
  destruct (config_without _ _ _ _ B N) as (cfg' & B' & R & V & U & X).
  unfold check_group.
  assert (Dd : map (description_beside (after pr runs)) paths = map (description_beside pr) paths).
  { apply map_ext. intros q. unfold description_beside, beside, after. cbn [text_at]. apply description_after. now rewrite M. }
  rewrite Dd, B'. cbn [rbind]. eexists. split; [reflexivity|].
  assert (Ip : In p paths) by (rewrite <- M; apply in_map_iff; now exists (p, (t, Some (Ok ds)))).
  assert (Nr : NoDup (map fst runs)) by (exact (eq_ind_r (fun l => NoDup l) (proj1 P) M)).
  assert (Tp : text_after pr runs p = t) by exact (text_after_here p t (Some (Ok ds)) runs Nr I).
  rewrite <- F in I. apply in_map_iff in I as (q & E & _).
  assert (q = p) by exact (f_equal fst E). subst q.
  assert (E2 : fix_path lint writable pr n st cfg (package_analysis ia regex skipped order order' pr st cfg paths) p = (t, Some (Ok ds))) by exact (f_equal snd E).
  apply fix_path_ok in E2 as (c & -> & Lc).
  set (an := package_analysis ia regex skipped order order' (after pr runs) st cfg' paths).
  assert (K : lint_path lint (after pr runs) st cfg' an p = inl ds).
  { unfold lint_path, after. cbn [text_at]. rewrite Tp. rewrite <- Lc. rewrite <- (L st cfg cfg') by assumption.
    assert (Same : lookup p (fst an) = lookup p (fst (package_analysis ia regex skipped order order' pr st cfg paths)) /\
                   lookup p (snd an) = lookup p (snd (package_analysis ia regex skipped order order' pr st cfg paths))).
    { destruct Q as [Q|Q].
      - assert (Z : forall nm, nm = lit "duplicated_function_definition" \/ nm = lit "unused_function" -> applies cfg nm = false).
        { intros nm Hn. unfold applies. destruct (mem nm (map rule_name (Config.c_rules_to_apply cfg))) eqn:E3; auto.
          apply RulesProofs.mem_iff in E3. apply in_map_iff in E3 as (r & <- & Ir). apply (applied_sub _ _ _ _ _ B) in Ir. destruct (Q r Ir). tauto. }
        assert (Z' : forall nm, applies cfg' nm = applies cfg nm) by (intros; unfold applies; now rewrite R).
        unfold an, package_analysis. rewrite !Z', !Z by auto. split; reflexivity.
      - assert (Q' : forall root, is_package (after pr runs) root -> ~ above root p).
        { intros root H. apply Q. apply package_after in H; auto. now rewrite M. }
        assert (C : forall root, checked_package (after pr runs) paths root <-> checked_package pr paths root).
        { intros root. unfold checked_package, r_file_of. split; intros (q & H1 & H2 & H3); exists q; split; auto; split; auto; eapply package_after; eauto; now rewrite M. }
        unfold an. destruct (analysis_outside ia regex skipped order order' O O' (after pr runs) paths st cfg' p) as (-> & ->); auto.
        + intros r r' H H'. apply A; now apply C.
        + intros root (q & _ & _ & H). now apply Q'.
        + destruct (analysis_outside ia regex skipped order order' O O' pr paths st cfg p) as (-> & ->); auto.
          intros root (q & _ & _ & H). now apply Q. }
    destruct Same as (-> & ->). reflexivity. }
  intros r'. rewrite in_map_iff. split.
  - intros (q & [= -> <-] & _). exact K.
  - intros ->. exists p. split; auto. now rewrite K.
Qed.
End Fixing.

(** ** Example *)
(** The linter of Model/Pipeline.v, followed by the report of the unused functions handed to it. *)
Definition whole_lint (_ : option csettings) (cfg : Config.config) (_ : dpath) (t : text) (_ : list dup) (us : list adef) : list diag + err :=
  match Pipeline.get_checks cfg (RuleOptions.mk_options true [] [] [] [] 0) (fun _ _ => ROk []) t with
  | Some ds => inl (ds ++ map (fun u => mk_diag (lit "unused_function") (ad_start u) (ad_end u) empty_fix)
      (if applies cfg (lit "unused_function") then us else []))
  | None => inr ELint
  end.
Definition fix_args (select : text) : Config.args := Config.mk_args true false false select [] [] None None.
Definition nl_text : text := [10%N].
Definition moved_before : text := lit "any(is.na(x))" ++ nl_text ++ lit "f <- function() 1".
Definition moved_after : text := lit "anyNA(x)" ++ nl_text ++ lit "f <- function() 1".
Definition moving (t : text) : project := mk_project [pkg_a] (fun q =>
  if peqb q pkg_a then Some t else if peqb q (pkg_root ++ [lit "DESCRIPTION"]) then Some (lit "Package: p")
  else if peqb q (pkg_root ++ [lit "NAMESPACE"]) then Some [] else None).
Definition moving_fix (select : text) : res (list (dpath * fixed)) :=
  fix_group demo_alnum (fun _ => None) (fun _ _ => false) (fun gs => gs) (fun gs => gs) demo_toml whole_lint (fun _ => true)
    (moving moved_before) 10 (fix_args select) None [pkg_a].
Definition moving_check (pr : project) (select : text) : res (list fresult) :=
  check_group demo_alnum (fun _ => None) (fun _ _ => false) (fun gs => gs) (fun gs => gs) demo_toml whole_lint
    pr (without_fixing (fix_args select)) None [pkg_a].
Definition unused_at (s e : nat) : diag := mk_diag (lit "unused_function") s e empty_fix.
Lemma whole_ignores : ignores_mode whole_lint.
Proof.
  intros st c c' p t ds us H1 H2 H3 H4. unfold whole_lint, Pipeline.get_checks, Pipeline.settings_of, Config.filter_fix, applies.
  now rewrite H1, H3, H4.
Qed.
Lemma moving_stale : exists runs rs,
  moving_fix (lit "any_is_na,unused_function") = ROk runs /\
  In (pkg_a, (Some moved_after, Some (Ok [unused_at 14 15]))) runs /\
  moving_check (after (moving moved_before) runs) (lit "any_is_na,unused_function") = ROk rs /\ result_is rs pkg_a (inl [unused_at 9 10]).
Proof.
  eexists _, _. split; [vm_compute; reflexivity|]. split; [left; reflexivity|]. split; [vm_compute; reflexivity|].
  intros r'. split; [intros [[= <-]|[]]; reflexivity|]. intros ->. now left.
Qed.
