(** The whole command (C24, C28, C50-C53) and concrete runs. *)
From Coq Require Import Permutation Sorting.Sorted.
From Verif Require Import Model.Text Model.Base Model.Rules Model.Fix Model.Driver Model.Cli.
From Verif Require Import Spec.CliSpec Proofs.TextProofs Proofs.RulesProofs Proofs.CliDiscover Proofs.CliReport.

Section Main.
Variable matched : dpath -> list text -> dpath -> omatch.
Variable run_group : option csettings -> list dpath -> res (list fresult).
Variable order : list (option dpath * list dpath) -> list (option dpath * list dpath).
Variable stat_order : list (text * (nat * bool)) -> list (text * (nat * bool)).
Variable readable : dpath -> bool.
Hypothesis order_perm : forall gs, Permutation (order gs) gs.
Hypothesis stat_order_perm : forall m, Permutation (stat_order m) m.

Definition groups_of (items : list item) (es : list entry) :=
  order (group_paths items (ok_paths (discover_files matched items es))).
Definition checks := check matched run_group order stat_order readable.

Lemma check_report a items es rs : ca_add_ignore a = None ->
  run_all run_group items (groups_of items es) = ROk rs ->
  exists o, checks a (ROk items) es = ROk o /\
    (o = report stat_order readable a items rs \/ (rs = [] /\ o = quiet Success)).
Proof.
  intros Ai R. unfold checks, check, groups_of in *. simpl.
  destruct (ok_paths (discover_files matched items es)) as [|p ps] eqn:E.
  - exists (quiet Success). split; auto. right. split; auto.
    simpl in R. pose proof (order_perm []) as P. apply Permutation_sym, Permutation_nil in P.
    change (group_paths items []) with (@nil (option dpath * list dpath)) in R. rewrite P in R. simpl in R. congruence.
  - rewrite R. simpl. rewrite Ai. eauto.
Qed.
Lemma visible_nil select extend items : visible select extend items [] [].
Proof.
  destruct (hide_unused select extend items (diag_files [])) as [[h c] f] eqn:E.
  pose proof (hide_unused_spec select extend items [] h c f E) as (Hc & V & _ & _).
  revert V. assert (K : f = []).
  { unfold hide_unused, diag_files in E. simpl in E. destruct (negb _ && _); congruence. }
  subst f. auto.
Qed.

Lemma report_plain a items rs : ca_statistics a = false ->
  let o := report stat_order readable a items rs in
  exists shown, visible (ca_select a) (ca_extend a) items rs shown /\ StronglySorted report_order shown /\
    right_status (o_status o) (failed rs) shown /\
    o_stats o = None /\
    o_diags o = (match ca_format a with Full => filter (fun d => readable (fd_file d)) shown | _ => shown end) /\
    o_errs o = (match ca_format a with Github => [] | _ => err_files rs end) /\
    o_summary o = (match ca_format a with Full | Concise => Some (summary shown) | _ => None end) /\
    (forall c, o_hidden o = Some c <->
       (ca_format a = Full \/ ca_format a = Concise) /\ c = length (of_rule (lit "unused_function") (all_found rs)) /\
       ~ asked_by_name (ca_select a) (ca_extend a) items /\ exists n, threshold_is items n /\ n < c).
Proof.
  intros St. simpl. unfold report.
  destruct (hide_unused (ca_select a) (ca_extend a) items (diag_files rs)) as [[h c] files] eqn:E.
  pose proof (hide_unused_spec _ _ _ _ _ _ _ E) as (Hc & V & Hh & Hf).
  exists (sort_by fd_leb (flat_map snd files)).
  assert (P : Permutation (flat_map snd files) (sort_by fd_leb (flat_map snd files))) by apply Permutation_sym, sort_by_perm.
  split; [now apply (visible_perm _ _ _ _ (flat_map snd files))|]. split; [apply flat_sorted|].
  rewrite St.
  assert (RS : right_status (match err_files rs with [] => match files with [] => Success | _ => Failure end | _ :: _ => Error end)
                 (failed rs) (sort_by fd_leb (flat_map snd files))).
  { unfold right_status. rewrite <- err_files_iff.
    assert (N : sort_by fd_leb (flat_map snd files) = [] <-> files = []).
    { rewrite Hf. split; intros H.
      - apply Permutation_nil. rewrite H in P. now apply Permutation_sym.
      - rewrite H. reflexivity. }
    destruct (err_files rs) as [|e l].
    - destruct files as [|f fs]; [split; [|split]|split; [|split]]; split; intros H; try discriminate; try congruence.
      + destruct H as (_ & H). exfalso. apply H. now apply N.
      + split; [congruence|now apply N].
      + split; [congruence|]. intros K. apply N in K. discriminate.
      + destruct H as (_ & H). apply N in H. discriminate.
    - split; [|split]; split; intros H; try discriminate; try congruence.
      + destruct H as (H & _). exfalso. apply H. discriminate.
      + destruct H as (H & _). exfalso. apply H. discriminate. }
  assert (HH : forall (b : bool) c', (if b && h then Some c else None) = Some c' <->
      b = true /\ c' = length (of_rule (lit "unused_function") (all_found rs)) /\
      ~ asked_by_name (ca_select a) (ca_extend a) items /\ exists n, threshold_is items n /\ n < c').
  { intros b c'. rewrite <- Hc. destruct b; simpl.
    - destruct h.
      + split; [intros [= <-]; split; auto; split; auto; now apply Hh|]. intros (_ & -> & _). reflexivity.
      + split; [discriminate|]. intros (_ & -> & H). apply Hh in H. discriminate.
    - split; [discriminate|]. intros (? & _). discriminate. }
  destruct (ca_format a); cbn [emit o_status o_diags o_errs o_stats o_summary o_hidden];
    repeat match goal with |- _ /\ _ => split; [first [exact RS|reflexivity]|] end;
    intros c'; rewrite HH; split; intros H; intuition congruence.
Qed.

Lemma report_stats a items rs : ca_statistics a = true ->
  let o := report stat_order readable a items rs in
  exists shown, visible (ca_select a) (ca_extend a) items rs shown /\
    o_status o = match shown with [] => Success | _ => Failure end /\
    o_stats o = match shown with [] => None | _ => Some (stat_lines (stat_order (stat_map shown))) end.
Proof.
  intros St. simpl. unfold report.
  destruct (hide_unused (ca_select a) (ca_extend a) items (diag_files rs)) as [[h c] files] eqn:E.
  pose proof (hide_unused_spec _ _ _ _ _ _ _ E) as (Hc & V & Hh & Hf).
  exists (sort_by fd_leb (flat_map snd files)).
  split; [apply (visible_perm _ _ _ _ (flat_map snd files)); auto; apply Permutation_sym, sort_by_perm|].
  rewrite St. destruct (sort_by fd_leb (flat_map snd files)); auto.
Qed.

Lemma stats_exact shown ls : ls = stat_lines (stat_order (stat_map shown)) ->
  NoDup (map fst ls) /\
  (forall name n b, In (name, (n, b)) ls <->
     n = length (of_rule name shown) /\ 0 < n /\
     (b = true <-> exists d, In d shown /\ d_rule (fd_diag d) = name /\ offers_fix FixSafe (fd_diag d))) /\
  list_sum (map (fun l => fst (snd l)) ls) = length shown /\
  StronglySorted (fun a b => fst (snd b) <= fst (snd a)) ls.
Proof.
  intros ->. assert (P : Permutation (stat_lines (stat_order (stat_map shown))) (stat_map shown)).
  { rewrite stat_lines_perm. apply stat_order_perm. }
  destruct (stat_map_ok shown) as (N & I). split; [|split; [|split]].
  - apply (Permutation_NoDup (Permutation_map fst (Permutation_sym P)) N).
  - intros name n b.
    assert (B : existsb (fun d => diag_safe_fix (fd_diag d)) (of_rule name shown) = true <->
       exists d, In d shown /\ d_rule (fd_diag d) = name /\ offers_fix FixSafe (fd_diag d)).
    { rewrite existsb_exists. unfold of_rule. split.
      - intros (d & H & S). apply filter_In in H as (H & R). apply teqb_eq in R. apply safe_fix_iff in S. eauto.
      - intros (d & H & R & S). exists d. split; [apply filter_In; split; auto; now apply teqb_eq|now apply safe_fix_iff]. }
    split.
    + intros H. apply (Permutation_in _ P) in H. apply I in H as (-> & H & ->). auto.
    + intros (-> & H & Hb). apply (Permutation_in _ (Permutation_sym P)). apply I. repeat split; auto.
      destruct b, (existsb _ (of_rule name shown)); auto; [|symmetry]; intuition congruence.
  - rewrite <- (stat_sum shown). apply list_sum_perm. now apply Permutation_map.
  - apply stat_lines_sorted.
Qed.

Lemma report_perm a items rs rs' : NoDup (map fst rs) -> Permutation rs rs' ->
  let o := report stat_order readable a items rs in
  let o' := report stat_order readable a items rs' in
  o_diags o = o_diags o' /\ o_status o = o_status o' /\ o_summary o = o_summary o' /\
  o_stats o = o_stats o' /\ o_hidden o = o_hidden o' /\ Permutation (o_errs o) (o_errs o').
Proof.
  intros N P. simpl. unfold report.
  pose proof (hide_unused_perm (ca_select a) (ca_extend a) items _ _ (diag_files_perm _ _ P)) as (E & Q).
  pose proof (hide_unused_files (ca_select a) (ca_extend a) items (diag_files rs) (diag_files_keys rs N) (diag_files_file rs)) as (N' & W').
  destruct (hide_unused (ca_select a) (ca_extend a) items (diag_files rs)) as [[h c] files].
  destruct (hide_unused (ca_select a) (ca_extend a) items (diag_files rs')) as [[h' c'] files'].
  simpl in *. injection E as <- <-. rewrite <- (sort_files_perm files files' W' N' Q).
  assert (PE : Permutation (err_files rs) (err_files rs')) by (unfold err_files; now apply Permutation_flat_map).
  destruct (ca_statistics a).
  - destruct (sort_by fd_leb (flat_map snd files)); simpl; repeat split; auto.
  - assert (SE : (match err_files rs with [] => match files with [] => Success | _ => Failure end | _ :: _ => Error end)
               = (match err_files rs' with [] => match files' with [] => Success | _ => Failure end | _ :: _ => Error end)).
    { destruct (err_files rs) as [|e l].
      - apply Permutation_nil in PE. rewrite PE. destruct files as [|f fs].
        + apply Permutation_nil in Q. now rewrite Q.
        + destruct files' as [|f' fs']; auto. apply Permutation_sym, Permutation_nil in Q. discriminate.
      - destruct (err_files rs') as [|e' l']; auto. apply Permutation_sym, Permutation_nil in PE. discriminate. }
    destruct (ca_format a); cbn [emit o_status o_diags o_errs o_stats o_summary o_hidden]; repeat split; auto.
Qed.
End Main.

(** ** Concrete runs *)
Definition nomatch (_ : dpath) (_ : list text) (_ : dpath) : omatch := MNone.
Definition dir_a : dpath := [lit "a"].
Definition file_b : dpath := [lit "a"; lit "b.R"].
Definition file_c : dpath := [lit "a"; lit "p"; lit "c.R"].
Definition st0 : csettings := mk_cs None None None None None 50 0.
Definition st1 : csettings := mk_cs None None None None None 1 1.
Definition home : dpath := [lit "home"; lit "jarl"].
Definition d_any : diag := mk_diag (lit "any_is_na") 3 9 (mk_fix (lit "anyNA(x)") 3 9 false).
Definition d_unused : diag := mk_diag (lit "unused_function") 0 4 (mk_fix [] 0 0 true).
Definition failing (_ : option csettings) (ps : list dpath) : res (list fresult) := ROk (map (fun p => (p, inr ELint)) ps).
Definition linting (_ : option csettings) (ps : list dpath) : res (list fresult) := ROk (map (fun p => (p, inl [d_any])) ps).
Definition walk_a : list entry := [Entry dir_a 0 true; Entry file_b 1 false].
Definition plain := mk_cargs [] [] false None Concise.
Definition run g a es := check nomatch g (fun gs => gs) (fun m => m) (fun _ => true) a (ROk []) es.

Lemma exit_example : exit_of (run linting plain walk_a) = 1 /\ exit_of (run failing plain walk_a) = 255.
Proof. split; reflexivity. Qed.
Lemma statistics_hide_errors : exit_of (run failing (mk_cargs [] [] true None Concise) walk_a) = 0.
Proof. reflexivity. Qed.
Lemma ignore_hide_errors : exit_of (run failing (mk_cargs [] [] false (Some (lit "why")) Concise) walk_a) = 0.
Proof. reflexivity. Qed.
Lemma missing_input : exit_of (run failing plain [EntryErr]) = 0.
Proof. reflexivity. Qed.
Lemma twice : ok_paths (discover_files nomatch [] (walk_a ++ [Entry file_b 0 false])) = [file_b; file_b].
Proof. reflexivity. Qed.
(** The home configuration sets something; the file has no configuration of its own. *)
Definition only_home (d : dpath) : cfile := if peqb d home then GoodConfig st1 else NoConfig.
Definition project_and_nested (d : dpath) : cfile :=
  if peqb d dir_a then GoodConfig st0 else if peqb d [lit "a"; lit "p"] then GoodConfig st1 else NoConfig.

(** ** The number *)
Lemma run_all_total run_group items gs : (forall k ps, In (k, ps) gs -> exists l, run_group (group_settings items k) ps = ROk l) ->
  exists rs, run_all run_group items gs = ROk rs.
Proof.
  induction gs as [|[k ps] gs IH]; intros H; cbn [run_all]; [eauto|].
  destruct (H k ps (or_introl eq_refl)) as (l & ->). destruct IH as (rs & ->); [intros k' ps' I; apply H; now right|]. cbn [rbind]. eauto.
Qed.
Lemma run_all_parts run_group items gs : forall rs, run_all run_group items gs = ROk rs ->
  (forall k ps, In (k, ps) gs -> exists l, run_group (group_settings items k) ps = ROk l) /\
  forall x, In x rs <-> exists k ps l, In (k, ps) gs /\ run_group (group_settings items k) ps = ROk l /\ In x l.
Proof.
  induction gs as [|[k ps] gs IH]; intros rs H; cbn [run_all] in H.
  - injection H as <-. split; [intros ? ? []|]. intros x. split; [intros []|]. intros (? & ? & ? & [] & _).
  - destruct (run_group (group_settings items k) ps) as [l| |] eqn:E; try discriminate. cbn [rbind] in H.
    destruct (run_all run_group items gs) as [l'| |] eqn:E'; try discriminate. cbn [rbind] in H. injection H as <-.
    destruct (IH l' eq_refl) as (G & M). split.
    + intros k0 ps0 [[= <- <-]|I]; eauto.
    + intros x. rewrite in_app_iff, M. split.
      * intros [I|(k0 & ps0 & l0 & I & R & J)]; [exists k, ps, l; split; [now left|auto]|exists k0, ps0, l0; split; [now right|auto]].
      * intros (k0 & ps0 & l0 & [[= <- <-]|I] & R & J); [left; congruence|right; now exists k0, ps0, l0].
Qed.
Lemma exit_number matched run_group order stat_order readable a items es :
  (forall gs, Permutation (order gs) gs) ->
  ca_statistics a = false -> ca_add_ignore a = None -> ~ In EntryErr es ->
  let groups := group_paths items (ok_paths (discover_files matched items es)) in
  let code := exit_of (check matched run_group order stat_order readable a (ROk items) es) in
  (forall k ps, In (k, ps) groups -> exists l, run_group (group_settings items k) ps = ROk l) ->
  exists rs shown,
    (forall x, In x rs <-> exists k ps l, In (k, ps) groups /\ run_group (group_settings items k) ps = ROk l /\ In x l) /\
    visible (ca_select a) (ca_extend a) items rs shown /\
    (code = 255 <-> failed rs) /\ (code = 1 <-> ~ failed rs /\ shown <> []) /\ (code = 0 <-> ~ failed rs /\ shown = []).
Proof.
  intros P St Ai Ne groups code G.
  destruct (run_all_total run_group items (order groups)) as (rs & R).
  { intros k ps I. apply G. apply (Permutation_in _ (P groups) I). }
  destruct (run_all_parts run_group items (order groups) rs R) as (_ & M).
  destruct (check_report matched run_group order stat_order readable P a items es rs Ai R) as (o & E & K).
  assert (F : exists shown, visible (ca_select a) (ca_extend a) items rs shown /\ right_status (o_status o) (failed rs) shown).
  { destruct K as [ -> |( -> & -> )].
    - destruct (report_plain stat_order readable a items rs St) as (shown & V & _ & RS & _). eauto.
    - exists []. split; [apply visible_nil|]. unfold right_status. simpl. assert (NF : ~ failed []) by (intros (? & ? & [])).
      split; [|split]; split; intros H; try discriminate; try contradiction; auto. now destruct H. }
  destruct F as (shown & V & RS). exists rs, shown. split.
  - intros x. rewrite M. split; intros (k & ps & l & I & J); exists k, ps, l; (split; [|exact J]).
    + exact (Permutation_in _ (P groups) I).
    + exact (Permutation_in _ (Permutation_sym (P groups)) I).
  - split; auto. unfold code, exit_of. unfold checks in E. rewrite E. destruct RS as (R1 & R2 & R3).
    split; [refine (iff_trans _ R1)|split; [refine (iff_trans _ R2)|refine (iff_trans _ R3)]];
      destruct (o_status o); cbn; split; intros; congruence.
Qed.
Lemma group_error matched run_group order stat_order readable a items es k ps :
  (forall gs, Permutation (order gs) gs) ->
  In (k, ps) (group_paths items (ok_paths (discover_files matched items es))) ->
  (forall l, run_group (group_settings items k) ps <> ROk l) ->
  exit_of (check matched run_group order stat_order readable a (ROk items) es) = 255.
Proof.
  intros P I N. unfold check. cbn [rbind].
  destruct (ok_paths (discover_files matched items es)) as [|p paths] eqn:E; [destruct I|].
  destruct (run_all run_group items (order (group_paths items (p :: paths)))) as [rs| |] eqn:R; try reflexivity.
  exfalso. destruct (run_all_parts _ _ _ _ R) as (G & _).
  destruct (G k ps (Permutation_in _ (Permutation_sym (P _)) I)) as (l & L). now apply N in L.
Qed.
