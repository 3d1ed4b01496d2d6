(** The command line: C24, C25, C28, C50-C54, C57.  See Spec/CliSpec.v for the vocabulary.

    Everywhere: [matched] is the glob matcher, [run_group] the linter applied to one group of files,
    [order] and [stat_order] the iteration orders of the two hash maps (arbitrary permutations),
    [readable] the files that can still be read when the report is written. *)
From Coq Require Import Permutation Sorting.Sorted.
From Verif Require Import Model.Text Model.Base Model.Rules Model.Fix Model.Driver Model.Cli.
From Verif Require Import Spec.CliSpec Proofs.TextProofs Proofs.CliDiscover Proofs.CliReport Proofs.CliFiles Proofs.CliMain.

(** ** C24 *)
(** Without [--statistics] and [--add-jarl-ignore], and when the walk itself met no error, the exit
    status is the right one; a configuration that cannot be built gives 255.
    Missing: the three situations excluded here, where the claim is false (below). *)
Theorem C24_exit_status_partial matched run_group order stat_order readable a items es :
  (forall gs, Permutation (order gs) gs) ->
  ca_statistics a = false -> ca_add_ignore a = None -> ~ In EntryErr es ->
  let run := check matched run_group order stat_order readable a (ROk items) es in
  match run_all run_group items (order (group_paths items (ok_paths (discover_files matched items es)))) with
  | ROk rs => exists o shown, run = ROk o /\ visible (ca_select a) (ca_extend a) items rs shown /\
      right_status (o_status o) (failed rs \/ In EntryErr es) shown
  | _ => exit_of run = 255
  end.
Proof.
  intros P St Ai Ne run.
  destruct (run_all run_group items (order (group_paths items (ok_paths (discover_files matched items es))))) as [rs| |] eqn:R.
  - destruct (check_report matched run_group order stat_order readable P a items es rs Ai R) as (o & E & K).
    assert (F : forall st shown, right_status st (failed rs) shown -> right_status st (failed rs \/ In EntryErr es) shown).
    { intros st shown. unfold right_status. tauto. }
    destruct K as [-> |(-> & ->)].
    + destruct (report_plain stat_order readable a items rs St) as (shown & V & _ & RS & _).
      exists (report stat_order readable a items rs), shown. auto.
    + exists (quiet Success), []. split; auto. split; [apply visible_nil|]. apply F.
      unfold right_status. simpl. assert (NF : ~ failed []) by (intros (? & ? & [])).
      split; [|split]; split; intros H; try discriminate; try contradiction; auto. now destruct H.
  - unfold run, check. simpl. destruct (ok_paths (discover_files matched items es)) eqn:E; [|now rewrite R].
    exfalso. change (group_paths items []) with (@nil (option dpath * list dpath)) in R.
    pose proof (P []) as Q. apply Permutation_sym, Permutation_nil in Q. rewrite Q in R. discriminate.
  - unfold run, check. simpl. destruct (ok_paths (discover_files matched items es)) eqn:E; [|now rewrite R].
    exfalso. change (group_paths items []) with (@nil (option dpath * list dpath)) in R.
    pose proof (P []) as Q. apply Permutation_sym, Permutation_nil in Q. rewrite Q in R. discriminate.
Qed.
Print Assumptions C24_exit_status_partial.

(** The number itself, from the results of the groups: when every group could be run. *)
Theorem C24_exit_number_partial matched run_group order stat_order readable a items es :
  (forall gs, Permutation (order gs) gs) ->
  ca_statistics a = false -> ca_add_ignore a = None -> ~ In EntryErr es ->
  let groups := group_paths items (ok_paths (discover_files matched items es)) in
  let code := exit_of (check matched run_group order stat_order readable a (ROk items) es) in
  (forall k ps, In (k, ps) groups -> exists l, run_group (group_settings items k) ps = ROk l) ->
  exists rs shown,
    (forall x, In x rs <-> exists k ps l, In (k, ps) groups /\ run_group (group_settings items k) ps = ROk l /\ In x l) /\
    visible (ca_select a) (ca_extend a) items rs shown /\
    (code = 255 <-> failed rs) /\ (code = 1 <-> ~ failed rs /\ shown <> []) /\ (code = 0 <-> ~ failed rs /\ shown = []).
Proof. exact (exit_number matched run_group order stat_order readable a items es). Qed.
Print Assumptions C24_exit_number_partial.
(** When one of them could not. *)
Theorem C24_group_error matched run_group order stat_order readable a items es k ps :
  (forall gs, Permutation (order gs) gs) ->
  In (k, ps) (group_paths items (ok_paths (discover_files matched items es))) ->
  (forall l, run_group (group_settings items k) ps <> ROk l) ->
  exit_of (check matched run_group order stat_order readable a (ROk items) es) = 255.
Proof. exact (group_error matched run_group order stat_order readable a items es k ps). Qed.
Print Assumptions C24_group_error.

(** An invalid configuration file ends the program with code 255 whatever the options. *)
Theorem C24_invalid_configuration matched run_group order stat_order readable a es :
  exit_of (check matched run_group order stat_order readable a RErr es) = 255.
Proof. reflexivity. Qed.
Print Assumptions C24_invalid_configuration.

(** [jarl check --statistics]: a file that cannot be linted is neither mentioned nor reflected. *)
Theorem C24_statistics_refuted : exists a es rs,
  ca_statistics a = true /\ ca_add_ignore a = None /\ ~ In EntryErr es /\
  run_all failing [] (group_paths [] (ok_paths (discover_files nomatch [] es))) = ROk rs /\ failed rs /\
  run failing a es = ROk (quiet Success) /\ exit_of (run failing a es) = 0.
Proof.
  exists (mk_cargs [] [] true None Concise), walk_a, [(file_b, inr ELint)].
  repeat split; try reflexivity.
  - intros [H|[H|[]]]; discriminate.
  - exists file_b, ELint. now left.
Qed.
Print Assumptions C24_statistics_refuted.

(** [jarl check --add-jarl-ignore]: likewise. *)
Theorem C24_add_ignore_refuted : exists a es rs,
  ca_statistics a = false /\ ca_add_ignore a <> None /\ ~ In EntryErr es /\
  run_all failing [] (group_paths [] (ok_paths (discover_files nomatch [] es))) = ROk rs /\ failed rs /\
  exit_of (run failing a es) = 0.
Proof.
  exists (mk_cargs [] [] false (Some (lit "why")) Concise), walk_a, [(file_b, inr ELint)].
  repeat split; try reflexivity; try discriminate.
  - intros [H|[H|[]]]; discriminate.
  - exists file_b, ELint. now left.
Qed.
Print Assumptions C24_add_ignore_refuted.

(** With [--add-jarl-ignore] the code is that of success, or of an error when the reason given holds a
    line break; it says nothing about what was found. *)
Theorem C24_add_ignore_exit matched run_group order stat_order readable a items es rs reason :
  ca_add_ignore a = Some reason ->
  ok_paths (discover_files matched items es) <> [] ->
  run_all run_group items (order (group_paths items (ok_paths (discover_files matched items es)))) = ROk rs ->
  (exit_of (check matched run_group order stat_order readable a (ROk items) es) = 255 <-> In 10%N reason \/ In 13%N reason) /\
  (exit_of (check matched run_group order stat_order readable a (ROk items) es) = 0 <-> ~ (In 10%N reason \/ In 13%N reason)).
Proof.
  intros A N R. unfold check. cbn [rbind].
  destruct (ok_paths (discover_files matched items es)) as [|p ps] eqn:E; [easy|].
  rewrite R. cbn [rbind]. rewrite A.
  assert (B : has_line_break reason = true <-> In 10%N reason \/ In 13%N reason).
  { unfold has_line_break. rewrite existsb_exists. split.
    - intros (c & I & H). apply Bool.orb_true_iff in H as [H|H]; apply N.eqb_eq in H; subst; auto.
    - intros [I|I]; eexists; (split; [exact I|]); apply Bool.orb_true_iff; [left|right]; apply N.eqb_refl. }
  rewrite <- B. destruct (has_line_break reason); cbn; repeat split; intros; try discriminate; try congruence; auto.
Qed.
Print Assumptions C24_add_ignore_exit.
Example C24_add_ignore_exit_met :
  ok_paths (discover_files nomatch [] walk_a) <> [] /\
  (exists rs, run_all failing [] (group_paths [] (ok_paths (discover_files nomatch [] walk_a))) = ROk rs) /\
  exit_of (run failing (mk_cargs [] [] false (Some (lit "why")) Concise) walk_a) = 0 /\
  exit_of (run failing (mk_cargs [] [] false (Some [119%N; 13%N]) Concise) walk_a) = 255.
Proof. repeat split; try discriminate; [eexists|..]; reflexivity. Qed.

(** [jarl check no-such-file.R]: the walk reports an error, the program reports success. *)
Theorem C24_missing_input_refuted : exists es,
  In EntryErr es /\ run linting plain es = ROk (quiet Success) /\ exit_of (run linting plain es) = 0.
Proof. exists [EntryErr]. repeat split. now left. Qed.
Print Assumptions C24_missing_input_refuted.

Example C24_witness : ~ In EntryErr walk_a /\
  exit_of (run linting plain walk_a) = 1 /\ exit_of (run failing plain walk_a) = 255 /\
  exit_of (run (fun _ ps => ROk (map (fun p => (p, inl [])) ps)) plain walk_a) = 0.
Proof. repeat split. intros [H|[H|[]]]; discriminate. Qed.

(** ** C25 *)
(** Every file reached from the inputs is given the settings of the deepest directory above it that
    has a configuration file, and default settings only if there is none.  Hypothesis: the file is
    not inside the user's configuration directory (where the upward walk stops). *)
Theorem C25_nearest_configuration config_at user_dir subdirs inputs items p :
  discover_settings config_at user_dir subdirs inputs = ROk items ->
  reached config_at subdirs inputs p ->
  (forall u, user_dir = Some u -> ~ above u p) ->
  match settings_for items p with
  | Some s => exists d, nearest config_at p d s
  | None => no_config_above config_at p
  end.
Proof. apply nearest_settings. Qed.
Print Assumptions C25_nearest_configuration.

(** Grouping neither loses nor duplicates a discovered file, and each is checked under its own
    settings, whatever the iteration order of the groups; no configuration is split in two groups. *)
Theorem C25_groups_partition items paths groups :
  Permutation groups (group_paths items paths) ->
  Permutation (checked items groups) (map (fun p => (settings_for items p, p)) paths) /\
  NoDup (map fst groups).
Proof.
  intros P. split.
  - change (checked items groups) with (spread (group_settings items) groups).
    rewrite (spread_perm (group_settings items) _ _ P). apply group_paths_spread.
  - apply (Permutation_NoDup (Permutation_map fst (Permutation_sym P))). apply group_paths_nodup.
Qed.
Print Assumptions C25_groups_partition.

(** If no input contains another, no file is discovered twice. *)
Theorem C25_once_partial matched items walk inputs :
  (forall i, In i inputs -> walk_of i (walk i)) ->
  NoDup inputs -> (forall i j, In i inputs -> In j inputs -> above i j -> i = j) ->
  NoDup (ok_paths (discover_files matched items (flat_map walk inputs))).
Proof. intros W N A. apply ok_paths_nodup. now apply walks_nodup. Qed.
Print Assumptions C25_once_partial.

(** [jarl check a a/b.R]: the file is discovered, linted and counted twice. *)
Theorem C25_overlapping_inputs_refuted : exists walk inputs rs,
  (forall i, In i inputs -> walk_of i (walk i)) /\ NoDup inputs /\
  ok_paths (discover_files nomatch [] (flat_map walk inputs)) = [file_b; file_b] /\
  run_all linting [] (group_paths [] [file_b; file_b]) = ROk rs /\ length (all_found rs) = 2.
Proof.
  exists (fun i => if peqb i dir_a then walk_a else [Entry file_b 0 false]), [dir_a; file_b],
    [(file_b, inl [d_any]); (file_b, inl [d_any])].
  repeat split.
  - intros p n b Hp. destruct H as [<-|[<-|[]]]; simpl in Hp.
    + destruct Hp as [[= <- <- <-]|[[= <- <- <-]|[]]]; [exists []|exists [lit "b.R"]]; reflexivity.
    + destruct Hp as [[= <- <- <-]|[]]. exists []; reflexivity.
  - destruct H as [<-|[<-|[]]]; simpl; repeat constructor; simpl; intuition discriminate.
  - repeat constructor; simpl; intuition discriminate.
Qed.
Print Assumptions C25_overlapping_inputs_refuted.

Example C25_witness :
  let subdirs d := if peqb d dir_a then [[lit "a"; lit "p"]] else [] in
  exists items, discover_settings project_and_nested (Some home) subdirs [dir_a] = ROk items /\
    reached project_and_nested subdirs [dir_a] file_c /\ ~ above home file_c /\
    settings_for items file_c = Some st1 /\ settings_for items file_b = Some st0.
Proof.
  exists [(dir_a, st0); ([lit "a"; lit "p"], st1)]. split; [reflexivity|]. split; [|split; [|split; reflexivity]].
  - split; [reflexivity|]. exists dir_a. split; [now left|]. split; [now exists [lit "p"; lit "c.R"]|].
    intros d [r ->] [q E]. unfold dir_a, file_c in *. simpl in E. destruct r as [|x r]; auto. right.
    destruct r as [|y r]; simpl in E.
    + right. injection E as E1 _. left. now rewrite <- E1.
    + left. injection E as E1 E2 E. destruct r; [|discriminate]. now rewrite <- E1, <- E2.
  - intros [r E]. discriminate.
Qed.

(** ** C28 *)
(** [--statistics] shows nothing when nothing is to be shown; otherwise every rule with at least one
    diagnostic once, with exactly its number of diagnostics, starred iff one of them has a safe fix;
    the counts add up, largest first. *)
Theorem C28_statistics_exact matched run_group order stat_order readable a items es rs :
  (forall gs, Permutation (order gs) gs) -> (forall m, Permutation (stat_order m) m) ->
  ca_statistics a = true -> ca_add_ignore a = None ->
  run_all run_group items (order (group_paths items (ok_paths (discover_files matched items es)))) = ROk rs ->
  exists o shown, check matched run_group order stat_order readable a (ROk items) es = ROk o /\
  visible (ca_select a) (ca_extend a) items rs shown /\
  match o_stats o with
  | None => shown = []
  | Some ls =>
      shown <> [] /\ NoDup (map fst ls) /\
      (forall name n b, In (name, (n, b)) ls <->
         n = length (of_rule name shown) /\ 0 < n /\
         (b = true <-> exists d, In d shown /\ d_rule (fd_diag d) = name /\ offers_fix FixSafe (fd_diag d))) /\
      list_sum (map (fun l => fst (snd l)) ls) = length shown /\
      StronglySorted (fun x y => fst (snd y) <= fst (snd x)) ls
  end.
Proof.
  intros P Ps St Ai R.
  destruct (check_report matched run_group order stat_order readable P a items es rs Ai R) as (o & E & K).
  destruct K as [-> |(-> & ->)].
  - destruct (report_stats stat_order readable a items rs St) as (shown & V & _ & Eo).
    exists (report stat_order readable a items rs), shown. split; auto. split; auto. rewrite Eo.
    destruct shown as [|d ds]; auto. split; [discriminate|]. now apply (stats_exact stat_order Ps).
  - exists (quiet Success), []. split; auto. split; [apply visible_nil|reflexivity].
Qed.
Print Assumptions C28_statistics_exact.

Example C28_witness : exists o,
  run (fun _ ps => ROk (map (fun p => (p, inl [d_any; d_unused; d_any])) ps)) (mk_cargs [] [] true None Concise) walk_a = ROk o /\
  o_stats o = Some [(lit "any_is_na", (2, true)); (lit "unused_function", (1, false))].
Proof. eexists. split; reflexivity. Qed.

(** ** C50 *)
(** What is reported: everything found, except that all [unused_function] diagnostics are withheld
    when there are more than the threshold and the rule was not named; in that case the human
    formats say how many.  (The Full format also drops the files it cannot read again.) *)
Theorem C50_only_unused_function_is_withheld matched run_group order stat_order readable a items es rs :
  (forall gs, Permutation (order gs) gs) ->
  ca_statistics a = false -> ca_add_ignore a = None ->
  run_all run_group items (order (group_paths items (ok_paths (discover_files matched items es)))) = ROk rs ->
  ca_format a <> Full \/ (forall p, readable p = true) ->
  exists o, check matched run_group order stat_order readable a (ROk items) es = ROk o /\
  visible (ca_select a) (ca_extend a) items rs (o_diags o) /\
  (forall d, found rs d -> d_rule (fd_diag d) <> lit "unused_function" -> In d (o_diags o)) /\
  (forall c, o_hidden o = Some c <->
     (ca_format a = Full \/ ca_format a = Concise) /\ c = length (of_rule (lit "unused_function") (all_found rs)) /\
     ~ asked_by_name (ca_select a) (ca_extend a) items /\ exists n, threshold_is items n /\ n < c).
Proof.
  intros P St Ai R Rd.
  assert (F : forall shown, visible (ca_select a) (ca_extend a) items rs shown ->
            forall d, found rs d -> d_rule (fd_diag d) <> lit "unused_function" -> In d shown).
  { intros shown V d (ds & H1 & H2) Nu.
    assert (I : In d (all_found rs)).
    { unfold all_found. apply in_flat_map. exists (fd_file d, inl ds). split; auto. apply in_map_iff. exists (fd_diag d). split; auto. now destruct d. }
    destruct V as (n & _ & [(_ & Q)|(_ & _ & Q)]); apply (Permutation_in d (Permutation_sym Q)); auto.
    apply filter_In. split; auto. apply negb_true_iff. now apply teqb_neq. }
  destruct (check_report matched run_group order stat_order readable P a items es rs Ai R) as (o & E & K).
  exists o. split; auto. destruct K as [-> |(-> & ->)].
  - destruct (report_plain stat_order readable a items rs St) as (shown & V & _ & _ & _ & D & _ & _ & H).
    assert (Es : o_diags (report stat_order readable a items rs) = shown).
    { rewrite D. destruct (ca_format a) eqn:Fm; auto. destruct Rd as [Rd|Rd]; [congruence|].
      clear -Rd. induction shown as [|x l IH]; simpl; auto. now rewrite Rd, IH. }
    rewrite Es. split; auto.
  - split; [apply visible_nil|]. split.
    + intros d (ds & [] & _).
    + intros c. simpl. split; [discriminate|]. intros (_ & -> & _ & n & _ & L). simpl in L. lia.
Qed.
Print Assumptions C50_only_unused_function_is_withheld.

(** The threshold is compared with the total over all packages of the run, not per package: two
    packages, each within the threshold of its own configuration, lose their diagnostics. *)
Theorem C50_per_package_refuted : exists items rs,
  items = [([lit "a"], st1); ([lit "b"], st1)] /\
  (forall d s, In (d, s) items ->
     length (filter (fun x => under d (fd_file x)) (of_rule (lit "unused_function") (all_found rs))) <= cs_threshold s) /\
  of_rule (lit "unused_function") (all_found rs) <> [] /\
  o_diags (report (fun m => m) (fun _ => true) plain items rs) = [].
Proof.
  exists [([lit "a"], st1); ([lit "b"], st1)],
    [([lit "a"; lit "f.R"], inl [d_unused]); ([lit "b"; lit "g.R"], inl [d_unused])].
  repeat split; try reflexivity; try discriminate.
  intros d s [[= <- <-]|[[= <- <-]|[]]]; vm_compute; auto.
Qed.
Print Assumptions C50_per_package_refuted.

Example C50_witness :
  o_diags (report (fun m => m) (fun _ => true) plain [([lit "a"], st1)] [(file_b, inl [d_any; d_unused; d_unused])])
    = [mk_fd file_b d_any] /\
  o_hidden (report (fun m => m) (fun _ => true) plain [([lit "a"], st1)] [(file_b, inl [d_any; d_unused; d_unused])]) = Some 2 /\
  length (o_diags (report (fun m => m) (fun _ => true) (mk_cargs [] (lit "any_is_na, unused_function") false None Json)
      [([lit "a"], st1)] [(file_b, inl [d_any; d_unused; d_unused])])) = 3.
Proof. repeat split. Qed.

(** ** C51 *)
(** The report is sorted by file and position, and is the same whatever the order in which the groups
    and files were processed (each file once); so are the exit status, the summary and the counts.
    The errors may come in another order. *)
Theorem C51_report_order stat_order readable a items rs rs' :
  NoDup (map fst rs) -> Permutation rs rs' ->
  let o := report stat_order readable a items rs in
  let o' := report stat_order readable a items rs' in
  StronglySorted report_order (o_diags o) /\
  o_diags o = o_diags o' /\ o_status o = o_status o' /\ o_summary o = o_summary o' /\
  o_stats o = o_stats o' /\ o_hidden o = o_hidden o' /\ Permutation (o_errs o) (o_errs o').
Proof.
  intros N P o o'. split; [|now apply report_perm]. unfold o.
  destruct (ca_statistics a) eqn:St.
  - unfold report. destruct (hide_unused _ _ _ _) as [[h c] fs]. rewrite St.
    destruct (sort_by fd_leb _); simpl; constructor.
  - destruct (report_plain stat_order readable a items rs St) as (shown & _ & S & _ & _ & D & _).
    rewrite D. destruct (ca_format a); auto. clear -S. induction S as [|x l S IH F]; simpl; [constructor|].
    destruct (readable (fd_file x)); auto. constructor; auto. rewrite Forall_forall in *.
    intros y Hy. apply filter_In in Hy as (Hy & _). auto.
Qed.
Print Assumptions C51_report_order.

Example C51_witness :
  o_diags (report (fun m => m) (fun _ => true) plain [] [(file_c, inl [d_unused]); (file_b, inl [d_any; d_unused])])
    = [mk_fd file_b d_unused; mk_fd file_b d_any; mk_fd file_c d_unused].
Proof. reflexivity. Qed.

(** ** C52 *)
(** The summary of the human formats: the number of reported diagnostics, and how many of them have a
    safe, respectively unsafe, automatic fix. *)
Theorem C52_summary_counts stat_order readable a items rs t s u :
  ca_statistics a = false ->
  o_summary (report stat_order readable a items rs) = Some (t, s, u) ->
  exists shown safe unsafe, visible (ca_select a) (ca_extend a) items rs shown /\
    t = length shown /\
    (forall d, safe d = true <-> offers_fix FixSafe (fd_diag d)) /\ s = length (filter safe shown) /\
    (forall d, unsafe d = true <-> offers_fix FixUnsafe (fd_diag d)) /\ u = length (filter unsafe shown).
Proof.
  intros St E. destruct (report_plain stat_order readable a items rs St) as (shown & V & _ & _ & _ & _ & _ & S & _).
  rewrite S in E. exists shown, (fun d => diag_safe_fix (fd_diag d)), (fun d => diag_unsafe_fix (fd_diag d)).
  assert (E' : summary shown = (t, s, u)) by (destruct (ca_format a); congruence).
  unfold summary in E'. injection E' as <- <- <-. repeat split; auto; intros; first [now apply safe_fix_iff|now apply unsafe_fix_iff].
Qed.
Print Assumptions C52_summary_counts.
Example C52_witness :
  o_summary (report (fun m => m) (fun _ => true) plain [] [(file_b, inl [d_any; d_unused])]) = Some (2, 1, 0).
Proof. reflexivity. Qed.

(** ** C53 *)
(** Every failed file is reported, with its error, in every format but [github]. *)
Theorem C53_errors_reported_partial stat_order readable a items rs :
  ca_statistics a = false -> ca_format a <> Github ->
  forall p e, In (p, e) (o_errs (report stat_order readable a items rs)) <-> In (p, inr e) rs.
Proof.
  intros St Fm p e. destruct (report_plain stat_order readable a items rs St) as (shown & _ & _ & _ & _ & _ & Er & _).
  rewrite Er, <- err_files_in. destruct (ca_format a); tauto.
Qed.
Print Assumptions C53_errors_reported_partial.
(** With [--output-format github] a run that ends with code 255 may print nothing at all. *)
Theorem C53_github_refuted : exists a rs,
  ca_statistics a = false /\ ca_format a = Github /\ failed rs /\
  let o := report (fun m => m) (fun _ => true) a [] rs in
  o_status o = Error /\ o_errs o = [] /\ o_diags o = [] /\ o_summary o = None.
Proof.
  exists (mk_cargs [] [] false None Github), [(file_b, inr ELint)]. repeat split. exists file_b, ELint. now left.
Qed.
Print Assumptions C53_github_refuted.
Example C53_witness :
  o_errs (report (fun m => m) (fun _ => true) plain [] [(file_b, inr ERead); (file_c, inl [])]) = [(file_b, ERead)].
Proof. reflexivity. Qed.

(** ** C54 *)
(** The language server uses the documented settings: the nearest configuration, else the one of the
    user's configuration directory, else the defaults. *)
Theorem C54_editor_settings config_at user_dir p items :
  config_at p = NoConfig -> (forall u, user_dir = Some u -> ~ above u p) ->
  discover_settings config_at user_dir (fun _ => []) [p] = ROk items ->
  documented_settings config_at user_dir p (lsp_settings items).
Proof. apply lsp_documented. Qed.
Print Assumptions C54_editor_settings.
(** The command line does so when the user's configuration directory has no configuration file, or
    when the file has a project configuration. *)
Theorem C54_command_line_settings_partial config_at user_dir subdirs inputs items p :
  discover_settings config_at user_dir subdirs inputs = ROk items ->
  reached config_at subdirs inputs p -> (forall u, user_dir = Some u -> ~ above u p) ->
  (forall u, user_dir = Some u -> config_at u = NoConfig) \/ ~ no_config_above config_at p ->
  documented_settings config_at user_dir p (settings_for items p).
Proof.
  intros D R U H. pose proof (nearest_settings _ _ _ _ _ _ D R U) as N. unfold settings_for.
  destruct (group_settings items (group_key items p)) as [s|].
  - destruct N as (d & N). left. exists d, s. auto.
  - right. split; auto. destruct user_dir as [u|]; auto. destruct H as [H|H]; [|contradiction].
    now rewrite (H u eq_refl).
Qed.
Print Assumptions C54_command_line_settings_partial.
(** Otherwise it ignores the user's configuration, although it found and read it. *)
Theorem C54_command_line_settings_refuted : exists config_at u s subdirs inputs items p,
  discover_settings config_at (Some u) subdirs inputs = ROk items /\
  reached config_at subdirs inputs p /\ ~ above u p /\ no_config_above config_at p /\
  config_at u = GoodConfig s /\ In (u, s) items /\ settings_for items p = None /\
  ~ documented_settings config_at (Some u) p (settings_for items p).
Proof.
  exists only_home, home, st1, (fun _ => []), [file_b], [(home, st1)], file_b.
  assert (NC : no_config_above only_home file_b).
  { intros d A. unfold only_home. destruct (peqb d home) eqn:E; auto. apply peqb_eq in E. subst d. destruct A as [r E]. discriminate. }
  assert (S : settings_for [(home, st1)] file_b = None) by reflexivity.
  repeat split; try reflexivity; auto.
  - exists file_b. split; [now left|]. split; [exists []; now rewrite app_nil_r|].
    intros d A1 A2. left. symmetry. apply (above_same file_b d file_b); auto; [apply above_refl|].
    apply Nat.le_antisymm; now apply above_len.
  - intros [r E]. discriminate.
  - now left.
  - rewrite S. intros [(d & s & _ & E)|(_ & E)]; discriminate.
Qed.
Print Assumptions C54_command_line_settings_refuted.
Example C54_witness :
  only_home file_b = NoConfig /\ ~ above home file_b /\
  exists items, discover_settings only_home (Some home) (fun _ => []) [file_b] = ROk items /\ lsp_settings items = Some st1.
Proof. split; [reflexivity|]. split; [intros [r E]; discriminate|]. exists [(home, st1)]. split; reflexivity. Qed.

(** ** C57 *)
(** Exactly which files are checked: those that the walk yields, that are R files or were named on
    the command line, that the patterns applied during the walk do not hide and that the patterns of
    the configuration of the file leave in. *)
Theorem C57_checked_files ov globs config_at user_dir subdirs inputs items cwd no_default entries p :
  matcher_of ov globs ->
  discover_settings config_at user_dir subdirs inputs = ROk items -> plain_patterns items ->
  (forall q n b, In (Entry q n b) entries -> n <= length q) ->
  In p (ok_paths (checked_files ov cwd no_default items entries)) <->
  exists depth, In (Entry p depth false) entries /\ (depth = 0 \/ r_or_rmd_file p) /\
    ~ walk_hides globs cwd no_default items p depth /\ wanted globs items p.
Proof. intros M D P L. apply checked_files_iff; auto. eapply discover_functional; eauto. Qed.
Print Assumptions C57_checked_files.
(** With at most one configuration, which lies above the file, the patterns that decide are those of
    the configuration of the file.
    Missing: several configurations, where this is false (below). *)
Theorem C57_own_patterns_partial ov globs config_at user_dir subdirs inputs items cwd no_default entries p :
  matcher_of ov globs ->
  discover_settings config_at user_dir subdirs inputs = ROk items -> plain_patterns items ->
  (forall q n b, In (Entry q n b) entries -> n <= length q) ->
  items = [] \/ (exists d s, items = [(d, s)] /\ above d p) ->
  In p (ok_paths (checked_files ov cwd no_default items entries)) <->
  expected_file globs cwd no_default items entries p.
Proof.
  intros M D P L I. rewrite (C57_checked_files ov globs config_at user_dir subdirs inputs) by auto.
  unfold expected_file. destruct I as [->|(d & s & -> & A)];
    (split; intros (n & H1 & H2 & H3 & H4); exists n; (split; [exact H1|split; [exact H2|split; [|exact H4]]]); intros K; apply H3);
    [now apply own_none|now apply own_none|now apply own_single|now apply own_single].
Qed.
Print Assumptions C57_own_patterns_partial.
(** The [exclude] patterns of the first configuration also remove files of a nested project whose own
    configuration does not exclude them. *)
Theorem C57_nested_project_refuted : exists ov globs config_at subdirs inputs items entries p,
  matcher_of ov globs /\ discover_settings config_at None subdirs inputs = ROk items /\ plain_patterns items /\
  (forall q n b, In (Entry q n b) entries -> n <= length q) /\
  expected_file globs [] true items entries p /\ ~ In p (ok_paths (checked_files ov [] true items entries)).
Proof.
  exists toy_ov, (fun pat rel dir => toy_glob pat rel dir = true), outer_excludes, sub_p, [[lit "a"]],
    [([lit "a"], with_exclude [lit "old.R"]); ([lit "a"; lit "p"], with_exclude [])], entries_ap, old_r.
  assert (G : forall d s, governs [([lit "a"], with_exclude [lit "old.R"]); ([lit "a"; lit "p"], with_exclude [])] old_r d s ->
    s = with_exclude [] /\ d = [lit "a"; lit "p"]).
  { intros d s ([[= <- <-]|[[= <- <-]|[]]] & _ & L); auto. exfalso.
    specialize (L [lit "a"; lit "p"] (with_exclude []) (or_intror (or_introl eq_refl)) (ex_intro _ [lit "old.R"] eq_refl)). cbn in L. lia. }
  split; [apply toy_matcher|]. split; [reflexivity|]. split; [|split; [|split]].
  - intros d s pats [[= <- <-]|[[= <- <-]|[]]] [E|E]; cbn in E; try discriminate; injection E as <-; repeat constructor; intros r; discriminate.
  - intros q n b [[= <- <- <-]|[[= <- <- <-]|[]]]; cbn; lia.
  - exists 2. split; [now left|]. split; [right; now apply extension_r_iff|]. split.
    + intros [(d & s & pats & K & H & [E|(? & _)])|(N & ? & _)]; try discriminate.
      apply G in K as (-> & ->). cbn in E. injection E as <-. now apply hidden_nil in H.
    + intros d s rel K _. apply G in K as (-> & ->). split; [|discriminate]. intros pats pat [= <-] [].
  - vm_compute. intros [E|[]]. discriminate.
Qed.
Print Assumptions C57_nested_project_refuted.
(** In every configuration but the first, an [exclude] pattern for a directory has no effect: the files
    of an excluded directory are checked. *)
Theorem C57_excluded_directory_refuted : exists ov globs config_at subdirs inputs items entries p,
  matcher_of ov globs /\ discover_settings config_at None subdirs inputs = ROk items /\ plain_patterns items /\
  (forall q n b, In (Entry q n b) entries -> n <= length q) /\
  ~ expected_file globs [] true items entries p /\ In p (ok_paths (checked_files ov [] true items entries)).
Proof.
  exists toy_ov, (fun pat rel dir => toy_glob pat rel dir = true), inner_excludes, sub_p, [[lit "a"]],
    [([lit "a"], with_exclude []); ([lit "a"; lit "p"], with_exclude [lit "gen/"])], entries_ap, gen_r.
  split; [apply toy_matcher|]. split; [reflexivity|]. split; [|split; [|split]].
  - intros d s pats [[= <- <-]|[[= <- <-]|[]]] [E|E]; cbn in E; try discriminate; injection E as <-; repeat constructor; intros r; discriminate.
  - intros q n b [[= <- <- <-]|[[= <- <- <-]|[]]]; cbn; lia.
  - intros (n & H & _ & K & _). apply K. clear K. left. exists [lit "a"; lit "p"], (with_exclude [lit "gen/"]), [lit "gen/"].
    split; [|split; [|now left]].
    + split; [right; now left|]. split; [exists [lit "gen"; lit "x.R"]; reflexivity|].
      intros d' s' [[= <- <-]|[[= <- <-]|[]]] _; cbn; lia.
    + assert (n = 3) as -> by (destruct H as [H|[H|[]]]; [discriminate|now injection H]).
      exists [lit "a"], [lit "p"; lit "gen"; lit "x.R"], [lit "p"; lit "gen"], [lit "x.R"], (lit "gen/"), [lit "gen"].
      repeat split; try discriminate; [now left|left; reflexivity|]. exists true. split; [|reflexivity]. split; auto. discriminate.
  - vm_compute. tauto.
Qed.
Print Assumptions C57_excluded_directory_refuted.
Example C57_witness :
  discover_settings only_outer None sub_p [[lit "a"]] = ROk [([lit "a"], with_include [lit "R/"])] /\
  ok_paths (checked_files toy_ov [] false [([lit "a"], with_include [lit "R/"])]
    [Entry [lit "a"; lit "R"; lit "f.R"] 2 false; Entry [lit "a"; lit "g.R"] 1 false; Entry [lit "a"; lit "R"; lit "cpp11.R"] 2 false])
  = [[lit "a"; lit "R"; lit "f.R"]].
Proof. split; reflexivity. Qed.
