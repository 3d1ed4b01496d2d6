(** C16–C20, C36–C39: which rules run, which fixes are allowed, R versions, rule options. *)
From Verif Require Import Model.Text Model.Base Model.Rules Model.Description Model.Config Model.Fix Model.Driver
  Model.RuleOptions Spec.ConfigSpec Spec.DescriptionSpec Spec.RuleOptionsSpec Proofs.TextProofs Proofs.RulesProofs Proofs.ConfigProofs
  Proofs.SplitProofs Proofs.DescriptionProofs Proofs.RuleOptionsProofs.

(** Example inputs. *)
Definition ex_args : args := mk_args true false false (lit "PERF, equals_na") [] (lit "any_is_na") None None.
Definition ex_toml : option settings :=
  Some (mk_settings (Some [lit "READ"]) (Some [lit "all_equal"; lit "SUSP"]) (Some [lit "class_equals"])
          None (Some [lit "any_duplicated"])).

(** C16: the rules that run. *)
Theorem C16_selection : forall a t descs cfg, build_config a t descs = ROk cfg ->
  forall r, In r (c_rules cfg) <->
    (selected a t r \/ extended a t r) /\ ~ ignored a t r /\ version_allows (c_version cfg) r.
Proof. intros a t descs cfg H. apply build_inv in H. tauto. Qed.
Print Assumptions C16_selection.

(** C16: unknown names are an error, and only they are (with invalid versions and operators). *)
Theorem C16_unknown_is_error : forall a t descs v,
  determine_minimum_r_version (a_min_r a) descs = ROk v ->
  ~ all_known a t -> build_config a t descs = RErr.
Proof. exact build_unknown. Qed.
Print Assumptions C16_unknown_is_error.

Theorem C16_known_is_accepted : forall a t descs v,
  all_known a t -> determine_minimum_r_version (a_min_r a) descs = ROk v -> assignment_ok (a_assignment a) = true ->
  exists cfg, build_config a t descs = ROk cfg /\ c_version cfg = v.
Proof. exact build_ok. Qed.
Print Assumptions C16_known_is_accepted.

(** C16: order and duplicates do not matter. *)
Theorem C16_order_irrelevant : forall a a' t t' descs cfg cfg',
  build_config a t descs = ROk cfg -> build_config a' t' descs = ROk cfg' ->
  same_list (cli_entries (a_select a)) (cli_entries (a_select a')) ->
  same_list (cli_entries (a_extend a)) (cli_entries (a_extend a')) ->
  same_list (cli_entries (a_ignore a)) (cli_entries (a_ignore a')) ->
  same_list (toml_field s_select t) (toml_field s_select t') ->
  same_list (toml_field s_extend t) (toml_field s_extend t') ->
  same_list (toml_field s_ignore t) (toml_field s_ignore t') ->
  a_min_r a = a_min_r a' -> c_rules cfg = c_rules cfg'.
Proof. exact build_extensional. Qed.
Print Assumptions C16_order_irrelevant.

Theorem C16_no_duplicates : forall a t descs cfg, build_config a t descs = ROk cfg -> NoDup (c_rules cfg).
Proof. exact rules_nodup. Qed.
Print Assumptions C16_no_duplicates.

Example C16_hypotheses_met : exists cfg, build_config ex_args ex_toml [] = ROk cfg /\
  In R_EqualsNa (c_rules cfg) /\ In R_AllEqual (c_rules cfg) /\ In R_AnyDuplicated (c_rules cfg) /\
  ~ In R_AnyIsNa (c_rules cfg) /\ ~ In R_ClassEquals (c_rules cfg) /\ ~ In R_Coalesce (c_rules cfg) /\
  build_config (mk_args false false false (lit "no_such_rule") [] [] None None) None [] = RErr.
Proof.
  eexists. split; [vm_compute; reflexivity|]. cbn. repeat split; auto 20; intuition discriminate.
Qed.

(** C17: with --fix alone, fixes come from rules with a safe fix only.  [raw] stands for what the
    enabled rules report (analyze/expression.rs, analyze/document.rs: every report is guarded by
    [is_rule_enabled]). *)
Theorem C17_safe_fixes_partial : forall a t descs cfg raw, build_config a t descs = ROk cfg ->
  a_fix a = true -> a_unsafe a = false -> a_fix_only a = false ->
  (forall d, In d raw -> exists r, In r (c_rules_to_apply cfg) /\ d_rule d = rule_name r) ->
  forall d, In d (map (filter_fix cfg) raw) -> offers_fix d ->
  exists r, d_rule d = rule_name r /\ rule_fix r = FixSafe.
Proof.
  intros a t descs cfg raw H F U O HR d Hd Ho. apply in_map_iff in Hd as (d0 & <- & Hd0).
  destruct (HR _ Hd0) as (r & Hr & En). exists r.
  destruct (filter_fix_shape cfg d0) as (-> & _). split; auto.
  apply filter_fix_keeps in Ho as (_ & _ & Hn & _).
  pose proof Hr as Hr'. apply (safe_only a t descs cfg H F U O) in Hr' as (_ & Hu).
  destruct (rule_fix r) eqn:E; auto; [|congruence]. exfalso. apply Hn. rewrite En. apply in_names, filter_In.
  split; auto. unfold has_no_fix. now rewrite E.
Qed.
Print Assumptions C17_safe_fixes_partial.

(** Without fixing flags, or with --unsafe-fixes, all the selected rules run. *)
Theorem C17_other_modes : forall a t descs cfg, build_config a t descs = ROk cfg ->
  a_fix_only a = false -> (a_fix a = false \/ a_unsafe a = true) -> c_rules_to_apply cfg = c_rules cfg.
Proof. exact lint_runs_all. Qed.
Print Assumptions C17_other_modes.

(** C17 is false with [--fix --fix-only]: the unsafe fix of [all_equal] is applied (config.rs:126-132
    filters [rules], not [rules_to_apply]). *)
Theorem C17_fix_only_refuted : exists a t descs cfg r f,
  build_config a t descs = ROk cfg /\ a_fix a = true /\ a_unsafe a = false /\ fixing_mode cfg = true /\
  In r (c_rules_to_apply cfg) /\ rule_fix r = FixUnsafe /\
  d_fix (filter_fix cfg (mk_diag (rule_name r) 4 19 f)) = f /\ offers_fix (mk_diag (rule_name r) 4 19 f).
Proof.
  exists (mk_args true false true [] [] [] None None), None, []. eexists.
  exists R_AllEqual, (mk_fix (lit "isTRUE(all.equal(a, b))") 4 19 false).
  split; [vm_compute; reflexivity|]. repeat split; [cbn; auto|]. unfold offers_fix. discriminate.
Qed.
Print Assumptions C17_fix_only_refuted.

Example C17_hypotheses_met : exists cfg, build_config ex_args ex_toml [] = ROk cfg /\
  a_fix ex_args = true /\ a_unsafe ex_args = false /\ a_fix_only ex_args = false /\
  In R_AllEqual (c_rules cfg) /\ ~ In R_AllEqual (c_rules_to_apply cfg) /\
  In R_EqualsNa (c_rules_to_apply cfg) /\
  offers_fix (filter_fix cfg (mk_diag (lit "equals_na") 0 7 (mk_fix (lit "is.na(x)") 0 7 false))).
Proof.
  eexists. split; [vm_compute; reflexivity|]. cbn. repeat split; auto 20; [intuition discriminate|].
  unfold offers_fix. cbn. discriminate.
Qed.

(** C18: exactly which fixes are kept, in terms of what the user wrote. *)
Theorem C18_fixable : forall a t descs cfg d r, build_config a t descs = ROk cfg ->
  d_rule d = rule_name r -> In r (c_rules_to_apply cfg) ->
  (offers_fix (filter_fix cfg d) <->
     offers_fix d /\ f_skip (d_fix d) = false /\ rule_fix r <> FixNone /\
     ~ listed (toml_field s_unfixable t) r /\
     (forall l, toml_field s_fixable t = Some l -> lists l r)).
Proof.
  intros a t descs cfg d r H E Hr. rewrite filter_fix_keeps. apply build_inv in H.
  destruct H as (_ & _ & _ & _ & _ & _ & _ & U & F & _). rewrite E, U, in_names, filter_In.
  unfold has_no_fix.
  assert (FF : (forall s, c_fixable cfg = Some s -> In (rule_name r) s) <-> (forall l, toml_field s_fixable t = Some l -> lists l r)).
  { destruct (toml_field s_fixable t) as [l|], (c_fixable cfg) as [s|]; try tauto.
    - split; intros H x [= <-]; apply F; auto.
    - split; discriminate. }
  rewrite FF. clear FF F U.
  destruct (rule_fix r); split; intros (H1 & H2 & H3 & H4); repeat split; try tauto; try congruence.
  - intros (_ & X). discriminate.
  - intros (_ & X). discriminate.
Qed.
Print Assumptions C18_fixable.

(** C18: nothing else changes. *)
Theorem C18_only_fix_dropped : forall c d,
  d_rule (filter_fix c d) = d_rule d /\ d_start (filter_fix c d) = d_start d /\ d_end (filter_fix c d) = d_end d /\
  (d_fix (filter_fix c d) = d_fix d \/ d_fix (filter_fix c d) = empty_fix).
Proof. exact filter_fix_shape. Qed.
Print Assumptions C18_only_fix_dropped.

Example C18_hypotheses_met : exists cfg, build_config ex_args ex_toml [] = ROk cfg /\
  In R_AnyDuplicated (c_rules_to_apply cfg) /\
  d_fix (filter_fix cfg (mk_diag (lit "any_duplicated") 0 7 (mk_fix (lit "x") 0 7 false))) = empty_fix.
Proof. eexists. split; [vm_compute; reflexivity|]. cbn. auto. Qed.

(** C19: rules with a minimum version run only under a known, sufficient version. *)
Theorem C19_min_version : forall a t descs cfg r m, build_config a t descs = ROk cfg ->
  In r (c_rules_to_apply cfg) -> rule_min_version r = Some m ->
  exists p, c_version cfg = Some p /\ version_le m p.
Proof.
  intros a t descs cfg r m H Hr Hm. apply build_inv in H. destruct H as (_ & _ & _ & _ & _ & A & R & _).
  assert (Hr' : In r (c_rules cfg)).
  { rewrite A in Hr. unfold rules_to_apply in Hr. destruct (a_fix_only a); [now apply filter_In in Hr|].
    destruct (a_fix a), (a_unsafe a); auto; now apply filter_In in Hr. }
  apply R in Hr' as (_ & _ & V). unfold version_allows in V. now rewrite Hm in V.
Qed.
Print Assumptions C19_min_version.

(** C19: the version of the project is the one of the command line if given, and otherwise that of
    the first DESCRIPTION that states one (see C37). *)
Theorem C19_project_version : forall a t descs cfg, build_config a t descs = ROk cfg ->
  match a_min_r a with
  | Some v => exists x, parse_r_version v = ROk x /\ c_version cfg = Some x
  | None => determine_minimum_r_version None descs = ROk (c_version cfg) /\
            ((forall d, In d descs -> d = None) -> c_version cfg = None)
  end.
Proof.
  intros a t descs cfg H. apply build_inv in H as (_ & V & _).
  destruct (a_min_r a) as [v|]; cbn [determine_minimum_r_version] in V.
  - destruct (parse_r_version v) as [x| |] eqn:E; cbn [rbind] in V; try discriminate. injection V as V. eauto.
  - split; auto. intros HN.
    assert (E : version_from_descriptions descs = ROk None).
    { clear V. induction descs as [|d r IH]; auto. rewrite (HN d) by now left. cbn. apply IH. intros; apply HN; now right. }
    congruence.
Qed.
Print Assumptions C19_project_version.

(** C19: a better known or higher version never disables a rule. *)
Theorem C19_monotone : forall a a' t descs descs' cfg cfg',
  build_config a t descs = ROk cfg -> build_config a' t descs' = ROk cfg' ->
  a_select a = a_select a' -> a_extend a = a_extend a' -> a_ignore a = a_ignore a' ->
  match c_version cfg, c_version cfg' with
  | None, _ => True | Some _, None => False | Some v, Some v' => version_le v v' end ->
  forall r, In r (c_rules cfg) -> In r (c_rules cfg').
Proof. exact version_monotone. Qed.
Print Assumptions C19_monotone.

(** C19: version strings are read as written. *)
Theorem C19_version_string : forall a b c,
  (N.of_nat a < 4294967296)%N -> (N.of_nat b < 4294967296)%N -> (N.of_nat c < 4294967296)%N ->
  parse_r_version (show_nat a ++ lit "." ++ show_nat b ++ lit "." ++ show_nat c) = ROk (a, b, c) /\
  parse_r_version (show_nat a ++ lit "." ++ show_nat b) = ROk (a, b, 0).
Proof. intros. split; [now apply parse_version_show3|now apply parse_version_show2]. Qed.
Print Assumptions C19_version_string.

Example C19_hypotheses_met :
  exists cfg cfg', build_config (mk_args false false false [] [] [] (Some (lit "4.3")) None) None [] = ROk cfg /\
  build_config (mk_args false false false [] [] [] (Some (lit "4.10.1")) None) None [] = ROk cfg' /\
  c_version cfg = Some (4, 3, 0) /\ c_version cfg' = Some (4, 10, 1) /\
  ~ In R_Coalesce (c_rules cfg) /\ In R_Coalesce (c_rules cfg') /\ show_nat 10 = lit "10" /\
  rule_min_version R_Coalesce = Some (4, 4, 0).
Proof.
  eexists _, _. split; [vm_compute; reflexivity|]. split; [vm_compute; reflexivity|]. cbn.
  repeat split; auto 60. intuition discriminate.
Qed.

(** C20: names and groups. *)
Theorem C20_names : (forall s r, from_name s = Some r <-> s = rule_name r) /\
  NoDup (map rule_name all_rules) /\ (forall r, In r all_rules).
Proof. split; [exact from_name_iff|]. split; [exact names_nodup|exact all_rules_complete]. Qed.
Print Assumptions C20_names.

Theorem C20_groups : forall r e,
  (trim e = lit "ALL" -> In (rule_name r) (replace_group_rules [e])) /\
  (forall c, trim e = category_name c -> In (rule_name r) (replace_group_rules [e]) <-> In c (rule_categories r)) /\
  (forall r', trim e = rule_name r' -> In (rule_name r) (replace_group_rules [e]) <-> r = r').
Proof.
  intros r e.
  assert (H : In (rule_name r) (replace_group_rules [e]) <-> designates e r).
  { rewrite expand_spec. unfold lists. split.
    - intros (e' & [<-|[]] & H). exact H.
    - intros H. exists e. cbn. auto. }
  repeat split; rewrite H; unfold designates.
  - auto.
  - intros [X|[(c' & X & Y)|X]]; rewrite H0 in X.
    + now apply category_not_all in X.
    + apply category_name_inj in X. now subst.
    + symmetry in X. now apply rule_name_not_group in X.
  - intros X. right. left. eauto.
  - intros [X|[(c' & X & Y)|X]]; rewrite H0 in X.
    + now apply rule_name_not_all in X.
    + now apply rule_name_not_group in X.
    + now apply rule_name_inj in X.
  - intros ->. auto.
Qed.
Print Assumptions C20_groups.

Example C20_example : from_name (lit "any_is_na") = Some R_AnyIsNa /\ from_name (lit "any_is_nan") = None /\
  trim (lit " PERF ") = category_name Perf /\ In (rule_name R_AnyIsNa) (replace_group_rules [lit " PERF "]).
Proof. repeat split; vm_compute; auto 20. Qed.

(** C36: --fix-only implies --fix.  False: nothing is fixed, the flag only hides rules. *)
Theorem C36_fix_only_refuted : exists a t descs cfg,
  build_config a t descs = ROk cfg /\ a_fix_only a = true /\ fixing_mode cfg = false.
Proof.
  exists (mk_args false false true [] [] [] None None), None, []. eexists. split; [vm_compute; reflexivity|]. auto.
Qed.
Print Assumptions C36_fix_only_refuted.

(** C36, what is true: fixing mode is exactly --fix or --unsafe-fixes, and --fix-only drops the rules
    without fix. *)
Theorem C36_fixing_mode_partial : forall a t descs cfg, build_config a t descs = ROk cfg ->
  fixing_mode cfg = (a_fix a || a_unsafe a)%bool /\
  (a_fix_only a = true -> forall r, In r (c_rules_to_apply cfg) <-> In r (c_rules cfg) /\ rule_fix r <> FixNone).
Proof.
  intros a t descs cfg H. apply build_inv in H. destruct H as (_ & _ & _ & F & U & A & _).
  unfold fixing_mode. rewrite F, U. split; auto. intros O r. rewrite A. unfold rules_to_apply. rewrite O, filter_In.
  unfold has_no_fix. destruct (rule_fix r); cbn; split; intros (H1 & H2); split; auto; congruence.
Qed.
Print Assumptions C36_fixing_mode_partial.

(** C37: the R version required by a DESCRIPTION file. *)
Theorem C37_description_version : forall t ls vfield conts before after a b c,
  text_lines t ls -> last_field ls (lit "Depends") vfield conts ->
  dependencies vfield conts =
    before ++ (lit "R (>= " ++ (show_nat a ++ lit "." ++ show_nat b ++ lit "." ++ show_nat c) ++ lit ")") :: after ->
  (forall d, In d before \/ In d after -> forall x, d <> lit "R " ++ x) ->
  (N.of_nat a < 4294967296)%N -> (N.of_nat b < 4294967296)%N -> (N.of_nat c < 4294967296)%N ->
  forall descs, determine_minimum_r_version None (Some t :: descs) = ROk (Some (a, b, c)).
Proof.
  intros t ls vf conts before after a b c HL HF HD HO Ha Hb Hc descs. apply text_lines_lines in HL. subst ls.
  cbn [determine_minimum_r_version version_from_descriptions].
  set (v := show_nat a ++ lit "." ++ show_nat b ++ lit "." ++ show_nat c) in *.
  assert (CH : forall x, In x v -> x = 46%N \/ (48 <= x <= 57)%N).
  { intros x. unfold v. change (lit ".") with [46%N]. rewrite !in_app_iff. cbn.
    intros [H|[[H|[]]|[H|[[H|[]]|H]]]]; auto; right; eapply show_chars; exact H. }
  assert (NW : forall x, In x v -> is_ws x = false).
  { intros x Hx. apply CH in Hx. unfold is_ws.
    rewrite !orb_false_iff, !andb_false_iff, !N.leb_gt, !N.eqb_neq. lia. }
  rewrite (depends_version t vf conts before after v); auto.
  - cbn [rbind]. unfold v. now rewrite parse_version_show3.
  - unfold v. destruct (show_nat a) eqn:E; [now apply show_nonempty in E|discriminate].
  - split; intros; apply NW; [rewrite H; cbn; auto|rewrite H; apply in_app_iff; cbn; auto].
  - intros H. apply CH in H. lia.
  - intros H. apply CH in H. lia.
  - intros H. apply CH in H. lia.
Qed.
Print Assumptions C37_description_version.

Definition ex_description : text :=
  lit "Package: foo" ++ [nl] ++ lit "Depends:" ++ [nl] ++ lit "    methods," ++ [nl] ++ lit "    R (>= 4.1.0)," ++ [nl]
  ++ lit "    dplyr" ++ [nl] ++ lit "Title: A, B" ++ [nl].
Example C37_hypotheses_met : exists ls,
  text_lines ex_description ls /\
  last_field ls (lit "Depends") [] [lit "    methods,"; lit "    R (>= 4.1.0),"; lit "    dplyr"] /\
  dependencies [] [lit "    methods,"; lit "    R (>= 4.1.0),"; lit "    dplyr"] =
    [lit "methods"] ++ (lit "R (>= " ++ (show_nat 4 ++ lit "." ++ show_nat 1 ++ lit "." ++ show_nat 0) ++ lit ")") :: [lit "dplyr"] /\
  determine_minimum_r_version None [Some ex_description] = ROk (Some (4, 1, 0)).
Proof.
  exists (lines ex_description). split; [now apply text_lines_iff|]. split; [|split; vm_compute; reflexivity].
  exists [lit "Package: foo"], [lit "Title: A, B"]. split; [vm_compute; reflexivity|]. split.
  - repeat constructor; eexists _, _; split; reflexivity.
  - split; [eexists _, _; split; [reflexivity|split; [reflexivity|cbn; auto 10]]|].
    intros l [<-|[]] _ (a & b & E & Ha & T).
    assert (F : find_char 58%N (lit "Title: A, B") = Some (a, b)) by (apply find_char_some; auto).
    vm_compute in F. injection F as <- <-. vm_compute in T. discriminate.
Qed.

(** C38: a DESCRIPTION file must not crash the linter.  False: a dependency on R without a version in
    parentheses, e.g. [R (4.1], panics. *)
Theorem C38_description_panic_refuted : exists t, determine_minimum_r_version None [Some t] = RPanic.
Proof. exists (lit "Depends: R (>=)"). vm_compute. reflexivity. Qed.
Print Assumptions C38_description_panic_refuted.

(** C38, positive part: no crash when each dependency on R has the form [R (>= v)]. *)
Theorem C38_no_panic_partial : forall t ls vfield conts,
  text_lines t ls -> last_field ls (lit "Depends") vfield conts ->
  (forall d x, In d (dependencies vfield conts) -> d = lit "R " ++ x ->
     exists v, d = lit "R (>= " ++ v ++ lit ")" /\ v <> [] /\ tight v /\ ~ In 40%N v /\ ~ In 41%N v /\ ~ In 62%N v) ->
  exists vs, get_depend_r_version t = ROk vs.
Proof. intros t ls v c H. apply text_lines_lines in H. subst ls. exact (depends_no_panic t v c). Qed.
Print Assumptions C38_no_panic_partial.

(** C39: per-rule options. *)
Theorem C39_rule_options : forall a dup imp und unr th,
  match resolve_options a dup imp und unr th with
  | ROk o =>
      ~ contradictory dup /\ ~ contradictory imp /\ ~ contradictory und /\ ~ contradictory unr /\
      (forall x, In x (o_dup_args o) <-> in_effect dup documented_dup_args x) /\
      (forall x, In x (o_implicit o) <-> in_effect imp documented_implicit x) /\
      (forall x, In x (o_undesirable o) <-> in_effect und documented_undesirable x) /\
      (forall x, In x (o_stopping o) <-> in_effect unr documented_stopping x) /\
      (o_assignment o = false <-> a = Some (Some (lit "="))) /\
      o_threshold o = match th with Some n => n | None => 50 end
  | RErr => contradictory dup \/ contradictory imp \/ contradictory und \/ contradictory unr \/
      exists v, a = Some (Some v) /\ v <> lit "<-" /\ v <> lit "="
  | RPanic => False
  end.
Proof. exact resolve_options_spec. Qed.
Print Assumptions C39_rule_options.

Example C39_example : exists o,
  resolve_options (Some (Some (lit "="))) None (Some (Some [lit "f"], None)) None (Some (None, Some [lit "die"])) None = ROk o /\
  In (lit "die") (o_stopping o) /\ In (lit "stop") (o_stopping o) /\ ~ In (lit "quote") (o_implicit o).
Proof. eexists. split; [reflexivity|]. cbn. repeat split; auto 10. intuition discriminate. Qed.
