(** Text of the editor that is not saved (C100). *)
From Coq Require Import Permutation.
From Verif Require Import Model.Text Model.Base Model.Rules Model.Description Model.Fix Model.Driver Model.Cli Model.Package Model.Project.
From Verif Require Model.Config.
From Verif Require Proofs.RulesProofs.
From Verif Require Import Spec.CliSpec Spec.PackageSpec Spec.ProjectSpec.
From Verif Require Import Proofs.TextProofs Proofs.CliDiscover Proofs.CliReport Proofs.PackageFiles Proofs.PackageSearch Proofs.CliMain Proofs.ProjectFiles Proofs.ProjectRuns Proofs.ProjectFixes.

Section Unsaved.
Variable ia : char -> bool.
Variable regex : text -> option (text -> bool).
Variable skipped : option csettings -> text -> bool.
Variables order order' : list (dpath * list pfile) -> list (dpath * list pfile).
Variable toml : csettings -> Config.settings.
Variable lint : option csettings -> Config.config -> dpath -> text -> list dup -> list adef -> list diag + err.
Variable pr : project.
Lemma beside_saved p t d : last p [] <> lit "DESCRIPTION" -> beside (saved pr p t) d (lit "DESCRIPTION") = beside pr d (lit "DESCRIPTION").
Proof.
  intros N. unfold beside, saved. cbn [text_at]. destruct (peqb (d ++ [lit "DESCRIPTION"]) p) eqn:E; auto.
  apply peqb_eq in E. rewrite <- E, last_last in N. now destruct N.
Qed.
Theorem editor_unsaved items p t : last p [] <> lit "DESCRIPTION" ->
  (forall cfg, Config.build_config no_args (option_map toml (lsp_settings items)) [description_beside pr p] = ROk cfg -> package_rules_off cfg) \/
  (forall root, is_package pr root -> ~ above root p) ->
  editor_lint ia regex skipped order order' toml lint pr (ROk items) p t =
  editor_lint ia regex skipped order order' toml lint (saved pr p t) (ROk items) p t.
Proof.
  intros N Q. unfold editor_lint. cbn [rbind]. destruct (editor_excludes items p); auto.
  assert (D : description_beside (saved pr p t) p = description_beside pr p) by (unfold description_beside; now apply beside_saved).
  rewrite D. destruct (Config.build_config no_args (option_map toml (lsp_settings items)) [description_beside pr p]) as [cfg| |] eqn:B; auto. cbn [rbind].
  assert (I : in_package (has_description (saved pr p t)) p = in_package (has_description pr) p).
  { unfold in_package, has_description. destruct (teqb _ _); auto. now rewrite (beside_saved p t). }
  assert (S1 : siblings (saved pr p t) p = siblings pr p) by (unfold siblings; now rewrite I).
  rewrite S1. destruct Q as [Q|Q].
  - specialize (Q cfg eq_refl).
    assert (Z : forall nm, nm = lit "duplicated_function_definition" \/ nm = lit "unused_function" -> applies cfg nm = false).
    { intros nm Hn. unfold applies. destruct (mem nm (map rule_name (Config.c_rules_to_apply cfg))) eqn:E3; auto.
      apply RulesProofs.mem_iff in E3. apply in_map_iff in E3 as (r & <- & Ir). apply (applied_sub _ _ _ _ _ B) in Ir. destruct (Q r Ir). tauto. }
    destruct (siblings pr p) as [qs|]; auto. unfold package_analysis. rewrite !Z by auto. reflexivity.
  - assert (E : siblings pr p = None).
    { unfold siblings. destruct (in_package (has_description pr) p) eqn:K; auto. exfalso. apply in_package_split in K as (root & n & -> & Hd & _).
      apply (Q root); [now apply has_description_iff|now exists [lit "R"; n]]. }
    rewrite E. reflexivity.
Qed.
End Unsaved.
(** ** Example *)
Definition two_rules : item := (pkg_root, mk_cs (Some [lit "any_is_na"; lit "unused_function"]) None None None None 50 0).
Definition typing (saved_text typed : text) : res (list diag * nat) :=
  editor_lint demo_alnum (fun _ => None) (fun _ _ => false) (fun gs => gs) (fun gs => gs) demo_toml whole_lint (moving saved_text) (ROk [two_rules]) pkg_a typed.
Definition one_rule : item := (pkg_root, mk_cs (Some [lit "any_is_na"]) None None None None 50 0).
