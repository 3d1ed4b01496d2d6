(** C91: the rules behave as the documented table says (docs/rules.qmd, transcribed in Spec/RuleTable.v). *)
From Verif Require Import Model.Text Model.Base Model.Rules Model.Description Model.Config Model.Fix Model.Driver.
From Verif Require Import Spec.ConfigSpec Spec.RuleTable.
From Verif Require Import Proofs.TextProofs Proofs.RulesProofs Proofs.ConfigProofs Proofs.TableProofs.
From Verif Require Import Properties.ConfigProperties.

(** Every documented name but [unused_suppression] is accepted in a list of rules and designates one rule,
    and every rule but [outdated_suppression] is documented. *)
Theorem C91_names_partial :
  (forall w, In w documented_rules -> w_name w <> lit "unused_suppression" ->
     exists r, forall r', designates (w_name w) r' <-> r' = r) /\
  (forall r, rule_name r <> lit "outdated_suppression" -> exists w, In w documented_rules /\ designates (w_name w) r).
Proof.
  assert (T : forall r, trim (rule_name r) = rule_name r) by (intros []; vm_compute; reflexivity).
  split.
  - intros w I N. destruct (row_rule w I N) as (r & E). exists r. intros r'. rewrite E. unfold designates. rewrite T. split.
    + intros [X|[(c & X & _)|X]].
      * now apply rule_name_not_all in X.
      * now apply rule_name_not_group in X.
      * symmetry in X. now apply rule_name_inj in X.
    + intros ->. auto.
  - intros r N. destruct (rule_row r) as (w & I & E).
    { intros ->. now apply N. }
    exists w. split; auto. rewrite E. right. right. apply T.
Qed.
Print Assumptions C91_names_partial.

(** Without any selection, a documented rule runs exactly when the table does not call it disabled by
    default and the project requires the version of R given in the table.  Missing: two rules, below. *)
Theorem C91_default_partial : forall a t descs cfg w r, build_config a t descs = ROk cfg ->
  a_select a = [] -> a_extend a = [] -> a_ignore a = [] ->
  toml_field s_select t = None -> toml_field s_extend t = None -> toml_field s_ignore t = None ->
  In w documented_rules -> w_name w = rule_name r ->
  w_name w <> lit "sample_int" -> w_name w <> lit "unused_function" ->
  (In r (c_rules cfg) <-> w_off w = false /\ enough (w_version w) (c_version cfg)).
Proof.
  intros a t descs cfg w r B S E G S' E' G' I R N1 N2. apply build_inv in B. destruct B as (_ & _ & _ & _ & _ & _ & H & _). rewrite H. clear H.
  unfold selected, extended, ignored. rewrite S, E, G, S', E', G'. cbn [cli_entries first_given listed].
  destruct (row_facts w r I R) as (D & _ & V & _).
  unfold version_allows. rewrite V, D.
  - unfold enough. destruct (w_off w), (w_version w); cbn; intuition discriminate.
  - intros [X|[X|[]]]; [now apply N1|now apply N2].
Qed.
Print Assumptions C91_default_partial.

(** With [--select GROUP] alone, a documented rule runs exactly when the table puts it in the group (and
    the version allows it). *)
Theorem C91_groups : forall a t descs cfg w r g, build_config a t descs = ROk cfg ->
  a_select a = category_name g -> a_extend a = [] -> a_ignore a = [] ->
  toml_field s_extend t = None -> toml_field s_ignore t = None ->
  In w documented_rules -> w_name w = rule_name r ->
  (In r (c_rules cfg) <-> In g (w_groups w) /\ enough (w_version w) (c_version cfg)).
Proof.
  intros a t descs cfg w r g B S E G E' G' I R. apply build_inv in B. destruct B as (_ & _ & _ & _ & _ & _ & H & _). rewrite H. clear H.
  unfold selected, extended, ignored. rewrite S, E, G, E', G'.
  assert (C : cli_entries (category_name g) = Some [category_name g]) by (destruct g; vm_compute; reflexivity).
  rewrite C. cbn [cli_entries first_given listed].
  destruct (row_facts w r I R) as (_ & _ & V & K).
  assert (L : lists [category_name g] r <-> In g (w_groups w)).
  { rewrite <- K. unfold lists, designates.
    assert (T : trim (category_name g) = category_name g) by (destruct g; vm_compute; reflexivity). split.
    - intros (x & [<-|[]] & X). rewrite T in X. destruct X as [X|[(c & X & Y)|X]].
      + now apply category_not_all in X.
      + apply category_name_inj in X. now subst.
      + symmetry in X. now apply rule_name_not_group in X.
    - intros X. exists (category_name g). split; [now left|]. right. left. exists g. now rewrite T. }
  rewrite L. unfold version_allows. rewrite V. unfold enough. destruct (w_version w); intuition.
Qed.
Print Assumptions C91_groups.

(** What [--fix] alone may rewrite is what the table lists with a safe fix, and what [--unsafe-fixes] may
    rewrite is what it lists with any fix.  [d] is a report of the rule that offers a fix.
    Missing: [class_equals] (below), and [browser] and [empty_assignment], which the table lists without
    fix and the program with a safe one that no report carries (Model/Lints.v). *)
Theorem C91_fix_column_partial : forall a t descs cfg w r d, build_config a t descs = ROk cfg ->
  a_fix_only a = false -> a_fix a = true \/ a_unsafe a = true ->
  In w documented_rules -> w_name w = rule_name r ->
  w_name w <> lit "class_equals" -> w_name w <> lit "browser" -> w_name w <> lit "empty_assignment" ->
  toml_field s_fixable t = None -> toml_field s_unfixable t = None ->
  In r (c_rules cfg) -> d_rule d = rule_name r -> offers_fix d -> f_skip (d_fix d) = false ->
  (In r (c_rules_to_apply cfg) /\ offers_fix (filter_fix cfg d) <->
   w_fix w = FixSafe \/ (w_fix w = FixUnsafe /\ a_unsafe a = true)).
Proof.
  intros a t descs cfg w r d B FO M I R N1 N2 N3 F U In_r Ed O Sk.
  destruct (row_facts w r I R) as (_ & X & _ & _).
  assert (Y : rule_fix r = w_fix w) by (apply X; intros [Z|[Z|[Z|[]]]]; [now apply N1|now apply N2|now apply N3]). clear X.
  rewrite <- Y. clear Y.
  assert (Ap : In r (c_rules_to_apply cfg) <-> a_unsafe a = true \/ rule_fix r <> FixUnsafe).
  { destruct (a_unsafe a) eqn:Un.
    - rewrite (lint_runs_all a t descs cfg B FO (or_intror Un)). intuition.
    - destruct M as [M|M]; [|discriminate]. rewrite (safe_only a t descs cfg B M Un FO r). intuition discriminate. }
  split.
  - intros (A & Of). apply (C18_fixable a t descs cfg d r B Ed A) in Of as (_ & _ & Nn & _). apply Ap in A.
    destruct (rule_fix r); intuition congruence.
  - intros W. assert (A : In r (c_rules_to_apply cfg)) by (apply Ap; destruct W as [W|(W & W')]; [right; congruence|now left]).
    split; auto. apply (C18_fixable a t descs cfg d r B Ed A). rewrite F, U. repeat split; auto.
    + destruct W as [W|(W & _)]; congruence.
    + intros l [=].
Qed.
Print Assumptions C91_fix_column_partial.

(** [class_equals] is listed with an unsafe fix, but [--fix] alone applies it. *)
Theorem C91_class_equals_refuted : exists w cfg d,
  In w documented_rules /\ w_name w = lit "class_equals" /\ w_fix w = FixUnsafe /\
  build_config (mk_args true false false [] [] [] None None) None [] = ROk cfg /\
  In R_ClassEquals (c_rules_to_apply cfg) /\ d_rule d = w_name w /\ offers_fix d /\ filter_fix cfg d = d.
Proof.
  eexists _, _, (mk_diag (lit "class_equals") 0 17 (mk_fix (lit "inherits(x, 'a')") 0 17 false)).
  split; [do 6 right; left; reflexivity|]. split; [reflexivity|]. split; [reflexivity|].
  split; [vm_compute; reflexivity|]. split; [vm_compute; auto 30|]. split; [reflexivity|].
  split; [discriminate|vm_compute; reflexivity].
Qed.
Print Assumptions C91_class_equals_refuted.
(** [sample_int] and [unused_function] are not marked as disabled by default, but do not run by default. *)
Theorem C91_default_refuted : exists cfg w w',
  build_config (mk_args false false false [] [] [] None None) None [] = ROk cfg /\
  In w documented_rules /\ w_name w = lit "sample_int" /\ w_off w = false /\ w_version w = None /\ ~ In R_SampleInt (c_rules cfg) /\
  In w' documented_rules /\ w_name w' = lit "unused_function" /\ w_off w' = false /\ w_version w' = None /\ ~ In R_UnusedFunction (c_rules cfg).
Proof.
  eexists.
  exists (mk_row (lit "sample_int") [Read] FixSafe false None), (mk_row (lit "unused_function") [Corr] FixNone false None).
  split; [vm_compute; reflexivity|]. repeat split; try (vm_compute; tauto); vm_compute; intuition discriminate.
Qed.
Print Assumptions C91_default_refuted.
(** The documented name [unused_suppression] is an error, and [outdated_suppression] is not documented. *)
Theorem C91_names_refuted :
  (exists w, In w documented_rules /\ w_name w = lit "unused_suppression") /\
  build_config (mk_args false false false (lit "unused_suppression") [] [] None None) None [] = RErr /\
  (exists cfg, build_config (mk_args false false false (lit "outdated_suppression") [] [] None None) None [] = ROk cfg /\
     c_rules cfg = [R_OutdatedSuppression]) /\
  forall w, In w documented_rules -> w_name w <> lit "outdated_suppression".
Proof.
  split; [|split; [vm_compute; reflexivity|split]].
  - exists (mk_row (lit "unused_suppression") [Comm] FixNone false None). split; [vm_compute; tauto|reflexivity].
  - eexists. split; vm_compute; reflexivity.
  - intros w I E.
    assert (X : forallb (fun w => negb (teqb (w_name w) (lit "outdated_suppression"))) documented_rules = true) by (vm_compute; reflexivity).
    rewrite forallb_forall in X. specialize (X w I). rewrite E, teqb_refl in X. discriminate.
Qed.
Print Assumptions C91_names_refuted.

(** The hypotheses are met. *)
Example C91_hypotheses_met : exists cfg cfg' w,
  build_config (mk_args false false false [] [] [] None None) None [] = ROk cfg /\
  build_config (mk_args true false false (category_name Perf) [] [] None None) None [] = ROk cfg' /\
  In w documented_rules /\ w_name w = rule_name R_AnyIsNa /\ In Perf (w_groups w) /\ w_off w = false /\ w_fix w = FixSafe /\
  In R_AnyIsNa (c_rules cfg) /\ In R_AnyIsNa (c_rules cfg') /\
  offers_fix (mk_diag (rule_name R_AnyIsNa) 0 13 (mk_fix (lit "anyNA(x)") 0 13 false)).
Proof.
  eexists _, _. exists (mk_row (lit "any_is_na") [Perf] FixSafe false None).
  split; [vm_compute; reflexivity|]. split; [vm_compute; reflexivity|].
  split; [do 2 right; left; reflexivity|]. repeat split; try (vm_compute; tauto); discriminate.
Qed.
