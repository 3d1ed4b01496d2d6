(** C95: the warnings of a run.  Vocabulary in Spec/WarningSpec.v. *)
From Verif Require Import Model.Text Model.Base Model.Rules Model.Config Model.Cli Model.Output Model.Warnings.
From Verif Require Import Spec.ConfigSpec Spec.OutputSpec Spec.WarningSpec Proofs.TextProofs Proofs.RulesProofs Proofs.WarningProofs Proofs.TerminalProofs.
From Verif Require Properties.ConfigProperties.

(** The warning about the deprecated rule is printed exactly when the user names the rule in a list of
    rules, and once however often it is named. *)
Theorem C95_deprecated_rule : forall a hidden items,
  (In browser_text (warnings a hidden items) <-> mentioned a items (lit "browser")) /\
  length (filter (teqb browser_text) (warnings a hidden items)) <= 1.
Proof.
  intros a hidden items. split.
  - rewrite warnings_in. split.
    + intros [(E & _)|[(n & _ & E)|[(E & _)|(_ & M)]]]; auto; exfalso.
      * revert E. vm_compute. discriminate.
      * apply (f_equal (existsb (N.eqb nl))) in E. revert E. unfold hidden_warning. rewrite !existsb_app. cbn [existsb nl].
        rewrite N.eqb_refl. cbn [orb]. rewrite orb_true_r. vm_compute. discriminate.
      * revert E. vm_compute. discriminate.
    + intros M. auto.
  - unfold warnings. rewrite !filter_app, !app_length.
    pose proof (deprecated_once a items) as L.
    assert (A : filter (teqb browser_text) (if wa_assignment a then [assignment_option] else []) = []) by (destruct (wa_assignment a); vm_compute; reflexivity).
    assert (B : filter (teqb browser_text) (match hidden with Some n => [hidden_warning n] | None => [] end) = []).
    { destruct hidden as [n|]; auto. cbn [filter]. destruct (teqb browser_text (hidden_warning n)) eqn:E; auto. exfalso.
      apply teqb_eq in E. apply (f_equal (existsb (N.eqb nl))) in E. revert E. unfold hidden_warning. rewrite !existsb_app. cbn [existsb nl].
      rewrite N.eqb_refl. cbn [orb]. rewrite orb_true_r. vm_compute. discriminate. }
    assert (C : filter (teqb browser_text) (flat_map (fun i => if ws_legacy i then [assignment_field] else []) items) = []).
    { induction items as [|i r IH]; auto. cbn [flat_map]. rewrite filter_app. destruct (ws_legacy i).
      - replace (filter (teqb browser_text) [assignment_field]) with (@nil text) by (vm_compute; reflexivity). apply IH. apply deprecated_once.
      - apply IH. apply deprecated_once. }
    rewrite A, B, C. cbn [length Nat.add].
    refine (Nat.le_trans _ _ _ _ L). generalize (flat_map deprecated_warning (explicit_names a items)). intros l.
    induction l as [|x l IH]; cbn [filter length]; auto. destruct (teqb browser_text x); cbn [length]; lia.
Qed.
Print Assumptions C95_deprecated_rule.

(** Nothing else is printed than this warning, the one for the option [--assignment], the one for a
    configuration file with the old form of [assignment], and the number of hidden diagnostics. *)
Theorem C95_all_warnings : forall a hidden items w, In w (warnings a hidden items) <->
  (w = option_text /\ wa_assignment a = true) \/
  (exists n, hidden = Some n /\ w = hidden_text n) \/
  (w = field_text /\ exists i, In i items /\ ws_legacy i = true) \/
  (w = browser_text /\ mentioned a items (lit "browser")).
Proof.
  exact warnings_in.
Qed.
Print Assumptions C95_all_warnings.

(** The section is there exactly when there is a warning. *)
Theorem C95_section : forall a hidden items,
  print_warnings (warnings a hidden items) <> [] <-> exists w, In w (warnings a hidden items).
Proof.
  intros a hidden items. rewrite printed_none. destruct (warnings a hidden items) as [|w ws]; split; [now intros []|now intros (w & [])| |discriminate].
  intros _. exists w. now left.
Qed.
Print Assumptions C95_section.

(** It has the title and then the warnings, each on its own line, in order. *)
Theorem C95_printed : forall w ws, exists h, header_of (lit "Warnings") h /\
  print_warnings (w :: ws) = [nl] ++ h ++ [nl] ++ flat_map (fun x => x ++ [nl]) (w :: ws).
Proof. intros w ws. exists (section_header (lit "Warnings")). split; [apply header_shape|]. unfold print_warnings. now rewrite flat_map_concat_map. Qed.
Print Assumptions C95_printed.

(** With spaces around it in a configuration file, the name selects the deprecated rule without any
    warning (on the command line the warning is given). *)
Theorem C95_spaces_refuted : exists entry,
  designates entry R_Browser /\
  warnings (mk_wa [] [] [] false) None [mk_ws (Some [entry]) None None false] = [] /\
  warnings (mk_wa entry [] [] false) None [] = [browser_text].
Proof.
  exists (lit " browser"). split.
  - right. right. vm_compute. reflexivity.
  - split; vm_compute; reflexivity.
Qed.
Print Assumptions C95_spaces_refuted.
Example C95_met :
  warnings (mk_wa (lit "any_is_na, browser") (lit "browser") [] true) (Some 2) [mk_ws None None (Some [lit "browser"]) true] =
    [option_text; hidden_text 2; field_text; browser_text] /\
  warnings (mk_wa (lit "ALL") [] [] false) None [] = [] /\
  print_warnings (warnings (mk_wa (lit "browser") [] [] false) None []) =
    [nl] ++ section_header (lit "Warnings") ++ [nl] ++ browser_text ++ [nl].
Proof. repeat split; vm_compute; reflexivity. Qed.
