(** The actions offered for what is reported. *)
From Verif Require Import Proofs.DescriptionProofs Model.Text Model.Base Model.Rules Model.Fix Model.Driver Model.SuppressEdit Model.Rmd Model.Lsp Model.Actions
  Spec.DirectiveSpec Spec.LspSpec Spec.PackageSpec Spec.SuppressEditSpec Spec.ActionSpec Spec.DescriptionSpec
  Proofs.TextProofs Proofs.RulesProofs Proofs.DirectiveProofs Proofs.SplitProofs Proofs.SuppressEditProofs Proofs.PackageScan
  Proofs.PackageWords Proofs.LspProofs Proofs.LspSync Proofs.LspGlob Proofs.LspDiag Proofs.LspWitness.
From Verif Require Import Spec.DirectiveSpec Spec.ActionSpec Spec.DescriptionSpec.

Lemma blank_no_comma (w : text) : blank w -> ~ In 44%N w.
Proof. intros B I. unfold blank in B. rewrite forallb_forall in B. specialize (B _ I). discriminate. Qed.
Lemma rule_no_comma r : ~ In 44%N (rule_name r).
Proof. destruct r; vm_compute; intuition discriminate. Qed.
Lemma rule_nonempty r : rule_name r <> [].
Proof. destruct r; discriminate. Qed.
Lemma named_iff names r :
  mem (rule_name r) (filter (fun n => match n with [] => false | _ => true end) (map trim (split_on 44%N names))) = true
  <-> named names (rule_name r).
Proof.
  rewrite mem_iff, filter_In, in_map_iff. split.
  - intros ((p & T & I) & _). apply split_components in I. destruct I as (_ & a & b & E & Ha & Hb).
    destruct (trim_spec p) as (x & y & Ep & Hx & Hy). rewrite T in Ep. exists a, x, y, b. rewrite <- Ep. auto.
  - intros (a & x & y & b & E & Hx & Hy & Ha & Hb). split.
    + exists (x ++ rule_name r ++ y). split; [apply trim_unique; auto using rule_tight|]. apply split_components.
      split; [|eauto]. rewrite !in_app_iff. intros [I|[I|I]]; revert I; first [now apply blank_no_comma|apply rule_no_comma].
    + pose proof (rule_nonempty r). destruct (rule_name r); congruence.
Qed.
(** Blanks before the first name do not count. *)
Lemma named_blank w names r : blank w -> named (w ++ names) (rule_name r) <-> named names (rule_name r).
Proof.
  intros B. rewrite <- !named_iff, !mem_iff, !filter_In. pose proof (rule_nonempty r) as NE.
  enough (map trim (split_on 44%N (w ++ names)) = map trim (split_on 44%N names)) as -> by reflexivity.
  clear NE. revert B. induction w as [|c w IH]; intros B; [reflexivity|]. cbn [app]. unfold blank in B. cbn [forallb] in B.
  apply andb_prop in B. destruct B as (B1 & B2). rewrite <- (IH B2). cbn [split_on].
  destruct (N.eqb c 44) eqn:E; [apply N.eqb_eq in E; subst c; discriminate|].
  destruct (split_on 44%N (w ++ names)) as [|p ps] eqn:S; [now apply split_on_nonempty in S|]. cbn [map]. f_equal.
  unfold trim. cbn [trim_start]. now rewrite B1.
Qed.
Definition listed (r : rule) (line : text) : bool :=
  match parse_existing line with Some (Some names) => mem (rule_name r) names | _ => false end.
Lemma find_char_skip w t : blank w -> find_char 58%N (w ++ t) = match find_char 58%N t with Some (a, b) => Some (w ++ a, b) | None => None end.
Proof.
  intros B. induction w as [|c w IH]; cbn [app find_char].
  - now destruct (find_char 58%N t) as [[a b]|].
  - unfold blank in B. cbn [forallb] in B. apply andb_prop in B. destruct B as (B1 & B2).
    destruct (N.eqb c 58) eqn:E; [apply N.eqb_eq in E; subst c; discriminate|]. rewrite (IH B2).
    now destruct (find_char 58%N t) as [[a b]|].
Qed.
Lemma listed_plain r line : listed r line = true <->
  exists rest a b, trim line = lit "# jarl-ignore" ++ rest /\ find_char 58%N rest = Some (a, b) /\ named a (rule_name r).
Proof.
  unfold listed, parse_existing. split.
  - destruct (strip_prefix (lit "# jarl-ignore") (trim line)) as [rest|] eqn:P; [|discriminate]. apply strip_prefix_iff in P.
    destruct (trim_start_spec rest) as (w & E & W). destruct (trim_start rest) as [|c t] eqn:T; [discriminate|].
    destruct (find_char 58%N (c :: t)) as [[names tail]|] eqn:F; [|discriminate].
    destruct (filter _ _) as [|n l] eqn:L; [discriminate|]. intros M. rewrite <- L in M. apply named_iff in M.
    exists rest, (w ++ names), tail. split; [auto|]. split; [|now apply named_blank].
    rewrite E, find_char_skip by exact W. now rewrite F.
  - intros (rest & a & b & P & F & M). rewrite P, strip_prefix_app. destruct (trim_start_spec rest) as (w & E & W).
    rewrite E, find_char_skip in F by exact W.
    destruct (trim_start rest) as [|c t] eqn:T; [discriminate|].
    destruct (find_char 58%N (c :: t)) as [[names tail]|] eqn:G; [|discriminate].
    assert (a = w ++ names) as -> by congruence. apply named_blank in M; [|exact W]. apply named_iff in M.
    destruct (filter _ _) as [|n l]; [discriminate|exact M].
Qed.
Lemma listed_iff r line : listed r line = true <-> names_rule r line.
Proof.
  rewrite listed_plain. split.
  - intros (rest & a & b & P & F & M). apply find_char_some in F. destruct F as (-> & Na).
    destruct (trim_spec line) as (w1 & w2 & E & W1 & W2). rewrite P in E.
    exists w1, a, (b ++ w2). split; [exact W1|]. split; [|auto].
    refine (eq_trans E _). rewrite <- !app_assoc. reflexivity.
  - intros (w & names & rest & W & -> & Na & M).
    destruct (trim_end_spec rest) as (w2 & E & W2).
    exists (names ++ lit ":" ++ trim_end rest), names, (trim_end rest). split; [|split; [now apply find_char_some|exact M]].
    rewrite E at 1.
    replace (w ++ lit "# jarl-ignore" ++ names ++ lit ":" ++ trim_end rest ++ w2)
      with (w ++ (lit "# jarl-ignore" ++ names ++ lit ":" ++ trim_end rest) ++ w2) by (rewrite <- !app_assoc; reflexivity).
    apply trim_unique; auto. split; [intros c l H; injection H as <- _; reflexivity|].
    intros l c H. destruct (rev (trim_end rest)) as [|z y] eqn:R.
    + assert (trim_end rest = []) as R'. { rewrite <- (rev_involutive (trim_end rest)), R. reflexivity. }
      rewrite R' in H. rewrite !app_nil_r, app_assoc in H. apply app_inj_tail in H. destruct H as (_ & <-). reflexivity.
    + assert (trim_end rest = rev y ++ [z]) as R'. { rewrite <- (rev_involutive (trim_end rest)), R. reflexivity. }
      rewrite R' in H. rewrite !app_assoc in H. apply app_inj_tail in H. destruct H as (_ & <-).
      unfold trim_end in R'. destruct (trim_start (rev rest)) as [|z' y'] eqn:S; [now destruct (rev y)|].
      cbn [rev] in R'. apply app_inj_tail in R'. destruct R' as (_ & <-). now apply trim_start_head in S.
Qed.
Lemma names_rule_ws r line w : blank w -> names_rule r (line ++ w) <-> names_rule r line.
Proof.
  intros W. rewrite <- !listed_iff. unfold listed, parse_existing.
  enough (trim (line ++ w) = trim line) as -> by reflexivity.
  destruct (trim_spec line) as (a & b & E & A & B). rewrite E at 1. rewrite <- !app_assoc.
  apply trim_unique; auto using trim_tight. unfold blank in W. now rewrite forallb_app, B, W.
Qed.
(** The line before a line start. *)
Lemma above_parts (pre : text) : at_line_start pre -> pre <> [] -> exists a prev, pre = a ++ prev ++ [nl] /\ ~ In nl prev /\ at_line_start a.
Proof.
  intros [ -> |(x & ->)] NE; [congruence|]. destruct (line_prefix_spec x) as (a & E & Hn & Ha).
  exists a, (line_prefix x). split; [|auto]. rewrite E at 1. now rewrite <- app_assoc.
Qed.
Lemma count_pos (a prev : text) : ~ In nl prev -> count_nl (a ++ prev ++ [nl]) = S (count_nl a).
Proof. intros H. unfold count_nl. rewrite !PackageScan.newlines_app, (PackageScan.newlines_none prev H). cbn. lia. Qed.
Lemma nth_line a prev b : at_line_start a -> ~ In nl prev ->
  nth_error (lines (a ++ prev ++ [nl] ++ b)) (count_nl a) = Some (chomp (prev ++ [nl])).
Proof.
  intros A N. unfold lines. rewrite (split_incl_at a _ A), map_app.
  change (prev ++ [nl] ++ b) with (prev ++ nl :: b). rewrite (split_incl_line' prev b N). cbn [map].
  rewrite nth_error_app2 by (rewrite map_length, split_incl_at_len by auto; unfold count_nl; lia).
  rewrite map_length, split_incl_at_len by auto. unfold count_nl. rewrite Nat.sub_diag. reflexivity.
Qed.
Lemma already_iff (pre rest : text) r : at_line_start pre ->
  already_ignored (pre ++ rest) (rule_name r) (count_nl pre) false = true <->
  exists prev, line_above (pre ++ rest) (blen pre) prev /\ names_rule r prev.
Proof.
  intros P. unfold already_ignored. cbn [negb]. rewrite Bool.andb_true_r.
  destruct pre as [|c pre'] eqn:Epre.
  { split; [discriminate|]. intros (prev & (a & b & E & L & _) & _). rewrite !blen_app in L. cbn in L. lia. }
  rewrite <- Epre in *. destruct (above_parts pre P) as (a & prev & E & N & A); [congruence|]. rewrite E.
  rewrite (count_pos a prev N). replace (0 <? S (count_nl a)) with true by reflexivity. cbn [andb].
  replace (S (count_nl a) - 1) with (count_nl a) by lia.
  replace ((a ++ prev ++ [nl]) ++ rest) with (a ++ prev ++ [nl] ++ rest) by now rewrite <- !app_assoc.
  rewrite (nth_line a prev rest A N).
  destruct (chomp_spec prev (prev ++ [nl]) N (or_introl eq_refl)) as (_ & _ & _ & (w & Ew & Bw) & _).
  fold (listed r (chomp (prev ++ [nl]))). rewrite listed_iff, <- (names_rule_ws r _ w Bw), <- Ew. split.
  - intros H. exists prev. split; auto. exists a, rest. auto.
  - intros (prev' & (a' & b' & E' & L' & N' & A') & H).
    assert (Q : a ++ prev ++ [nl] = a' ++ prev' ++ [nl]).
    { refine (proj1 (app_blen_inj (a ++ prev ++ [nl]) rest (a' ++ prev' ++ [nl]) b' _ _)); auto. rewrite <- !app_assoc. exact E'. }
    rewrite !app_assoc in Q. apply app_inj_tail in Q. destruct Q as (Q & _).
    assert (prev = prev') as ->; auto.
    clear - Q N N' A A'. revert Q. destruct A as [ -> |(x & ->)], A' as [ -> |(x' & ->)]; cbn [app]; intros Q; auto.
    + exfalso. apply N. rewrite Q. rewrite <- app_assoc. apply in_or_app. right. now left.
    + exfalso. apply N'. rewrite <- Q. rewrite <- app_assoc. apply in_or_app. right. now left.
    + rewrite <- !app_assoc in Q. cbn [app] in Q. apply app_eq_app in Q. destruct Q as (l & [(-> & Q)|(-> & Q)]);
        destruct l as [|z l]; cbn [app] in Q; try congruence; injection Q as <- ->; exfalso;
        [apply N'|apply N]; apply in_or_app; right; now left.
Qed.
(** Actions for R files. *)
Lemma ignore_rule_ok content r chain start : boundary content start ->
  (forall ch, chain = Some ch -> Forall (fun a => boundary content (a_start a)) ch) ->
  exists pt, compute_insert_point content chain start = Some pt /\
    ((pt_newline pt = false /\ (exists prev, line_above content (pt_offset pt) prev /\ names_rule r prev) /\
      ignore_rule_action content (rule_name r) chain start = ROk None) \/
     (~ (pt_newline pt = false /\ exists prev, line_above content (pt_offset pt) prev /\ names_rule r prev) /\
      exists te, suppress_action content (rule_name r) chain start = ROk te /\
        ignore_rule_action content (rule_name r) chain start = ROk (Some te))).
Proof.
  intros Hb Hc. destruct (insert_point_placed content chain start Hb Hc) as (pt & E & P & (pre & rest & Es & Ep) & _).
  destruct (suppress_ok UTF8 content (rule_name r) chain start Hb Hc) as (pt' & te & E' & S' & _).
  exists pt. split; auto. unfold ignore_rule_action. rewrite E. unfold suppress_action in S'. rewrite E in S'.
  unfold suppress_action. rewrite E.
  destruct (point_line content pt) as [line| |] eqn:L; try discriminate. cbn [rbind] in S' |- *.
  assert (line = count_nl pre) as ->.
  { unfold point_line in L. rewrite Es, <- Ep, bsplit_app in L. congruence. }
  destruct (pt_newline pt) eqn:F.
  - right. split; [intuition discriminate|]. exists te. split; auto. unfold already_ignored. cbn [negb]. rewrite Bool.andb_false_r. cbn [andb].
    now rewrite S'.
  - destruct (placed_line_start _ _ _ _ P F) as (a & b & X & L' & H).
    assert (pre = a /\ rest = b) as (<- & <-) by (apply app_blen_inj; [congruence|lia]).
    pose proof (already_iff pre rest r H) as A. rewrite <- Es, Ep in A.
    destruct (already_ignored content (rule_name r) (count_nl pre) false).
    + left. split; auto. split; auto. now apply A.
    + right. split; [intros (_ & K); apply A in K; discriminate|]. exists te. split; auto. now rewrite S'.
Qed.
(** The comment jarl writes counts. *)
Lemma own_comment_named r indent reason : blank indent -> names_rule r (indent ++ lit "# jarl-ignore " ++ rule_name r ++ lit ": " ++ reason).
Proof.
  intros B. exists indent, (lit " " ++ rule_name r), (lit " " ++ reason). split; auto. split; [rewrite <- !app_assoc; reflexivity|].
  split.
  - change (lit " ") with [32%N]. intros [I|I]; [discriminate|]. now apply rule_no_colon in I.
  - exists [], (lit " "), [], []. rewrite !app_nil_r. cbn [app]. repeat split; auto.
Qed.

(** Chunks. *)
Lemma find_chunk content start :
  match find (fun c => (r_start c <=? start) && (start <=? r_start c + blen (r_code c))) (extract_r_chunks content) with
  | Some c => chunk_of content start c
  | None => forall c, ~ chunk_of content start c
  end.
Proof.
  unfold chunk_of. generalize (extract_r_chunks content) as cs. induction cs as [|c cs IH]; cbn [find].
  - intros c (l & l' & E & _). now destruct l.
  - destruct ((r_start c <=? start) && (start <=? r_start c + blen (r_code c))) eqn:B.
    + rewrite Bool.andb_true_iff, !Nat.leb_le in B. exists [], cs. repeat split; try tauto; intros c' [].
    + assert (NB : ~ r_start c <= start <= r_start c + blen (r_code c)).
      { intros K. rewrite <- !Nat.leb_le in K. destruct K as (K1 & K2). rewrite K1, K2 in B. discriminate. }
      destruct (find _ cs) as [d|].
      * destruct IH as (l & l' & -> & K & N). exists (c :: l), l'. split; auto. split; auto. intros c' [ <- |I]; auto.
      * intros d (l & l' & E & K & N). destruct l as [|x l]; cbn [app] in E; injection E as -> E; [auto|]. apply (IH d). exists l, l'. split; auto.
        split; auto. intros c' I. apply N. now right.
Qed.
Lemma chunk_of_unique content start c c' : chunk_of content start c -> chunk_of content start c' -> c = c'.
Proof.
  intros (l & l' & E & K & N) (m & m' & E' & K' & N'). rewrite E in E'. clear E. revert m E' N'. induction l as [|x l IH]; intros [|y m] E' N'; cbn [app] in E'.
  - congruence.
  - injection E' as -> _. exfalso. apply (N' y); [now left|auto].
  - injection E' as -> _. exfalso. apply (N c'); [now left|auto].
  - injection E' as -> E'. apply (IH (fun z I => N z (or_intror I)) m); auto. intros z I. apply N'. now right.
Qed.
Lemma ignore_chunk_ok content r start :
  (ignore_chunk_action content r start = ROk None <->
   forall c, chunk_of content start c -> found_in (r_code c) (lit "jarl-ignore-chunk " ++ r) \/ found_in (r_code c) (lit "- " ++ r ++ lit ":")) /\
  (forall te, ignore_chunk_action content r start = ROk (Some te) ->
     exists c, chunk_of content start c /\ chunk_action content r c = ROk te) /\
  exists o, ignore_chunk_action content r start = ROk o.
Proof.
  unfold ignore_chunk_action. pose proof (find_chunk content start) as F.
  destruct (find _ (extract_r_chunks content)) as [c|].
  - destruct (contains (lit "jarl-ignore-chunk " ++ r) (r_code c) || contains (lit "- " ++ r ++ lit ":") (r_code c)) eqn:C.
    + split; [|split; [discriminate|eauto]]. split; auto. intros _ c' K. rewrite (chunk_of_unique _ _ _ _ K F).
      apply Bool.orb_true_iff in C. unfold found_in. rewrite <- !contains_iff. exact C.
    + assert (I : In c (extract_r_chunks content)). { destruct F as (l & l' & E & _). rewrite E. apply in_or_app. right. now left. }
      destruct (chunk_action_ok UTF8 content r c I) as (te & E & _). rewrite E. cbn [rbind]. split; [|split; [|eauto]].
      * split; [discriminate|]. intros K. specialize (K c F). unfold found_in in K. rewrite <- !contains_iff, <- Bool.orb_true_iff in K. congruence.
      * intros te' [= <-]. eauto.
  - split; [|split; [discriminate|eauto]]. split; auto. intros _ c K. now apply F in K.
Qed.
(** ** The list *)
Lemma one_in {A} (f : tedit -> A) o a : In a (one f o) <-> exists te, o = Some te /\ a = f te.
Proof.
  destruct o as [te|]; cbn; split.
  - intros [ <- |[]]. eauto. - intros (t & [= ->] & ->). now left.
  - intros []. - intros (t & [=] & _).
Qed.
Lemma actions_for_in content enc rmd chain cchain d la a : actions_for content enc rmd chain cchain d = ROk la ->
  (In a la <-> offered content enc rmd chain cchain d a).
Proof.
  unfold actions_for. intros H.
  destruct (code_action d content enc) as [x| |] eqn:X; try discriminate. cbn [rbind] in H.
  destruct (if rmd then ignore_rule_action_rmd content (d_rule d) cchain (d_start d) (extract_r_chunks content)
            else ignore_rule_action content (d_rule d) (chain d) (d_start d)) as [y| |] eqn:Y; try discriminate. cbn [rbind] in H.
  destruct (if rmd then ignore_chunk_action content (d_rule d) (d_start d) else ROk None) as [z| |] eqn:Z; try discriminate. cbn [rbind] in H.
  assert (la = one AFix x ++ one AIgnore y ++ one AChunk z) as -> by congruence. clear H.
  rewrite !in_app_iff, !one_in. split.
  - intros [(te & -> & ->)|[(te & -> & ->)|(te & -> & ->)]].
    + now constructor.
    + destruct rmd; [now apply off_rule_rmd|now apply off_rule].
    + destruct rmd; [now apply off_chunk|discriminate].
  - intros [te E|te -> E|te -> E|te -> E].
    + left. exists te. split; congruence.
    + right. left. exists te. split; congruence.
    + right. left. exists te. split; congruence.
    + right. right. exists te. split; congruence.
Qed.
Lemma with_ranges_in content enc ds : forall l, with_ranges content enc ds = ROk l ->
  forall d rg, In (d, rg) l <-> In d ds /\ lsp_range (d_start d) (d_end d) content enc = ROk rg.
Proof.
  induction ds as [|x ds IH]; cbn [with_ranges]; intros l H d rg.
  - assert (l = []) as -> by congruence. cbn. tauto.
  - destruct (lsp_range (d_start x) (d_end x) content enc) as [rx| |] eqn:R; try discriminate. cbn [rbind] in H.
    destruct (with_ranges content enc ds) as [l'| |]; try discriminate. cbn [rbind] in H. assert (l = (x, rx) :: l') as -> by congruence.
    cbn [In]. rewrite (IH l' eq_refl). split.
    + intros [E|(I & E)]; [|auto]. injection E as -> ->. auto.
    + intros ([ -> |I] & E); [left; congruence|auto].
Qed.
Lemma with_ranges_ok content enc ds : (forall d, In d ds -> exists rg, lsp_range (d_start d) (d_end d) content enc = ROk rg) ->
  exists l, with_ranges content enc ds = ROk l.
Proof.
  induction ds as [|x ds IH]; intros H; cbn [with_ranges]; [eauto|].
  destruct (H x (or_introl eq_refl)) as (rg & ->). destruct IH as (l & ->); [intros d I; apply H; now right|]. cbn [rbind]. eauto.
Qed.
Lemma actions_from_in content enc rmd chain cchain requested ds : forall l,
  code_actions_from content enc rmd chain cchain requested ds = ROk l ->
  forall a, In a l <-> exists d rg, In (d, rg) ds /\ ranges_overlap rg requested = true /\ offered content enc rmd chain cchain d a.
Proof.
  induction ds as [|(d, rg) ds IH]; cbn [code_actions_from]; intros l H a.
  - assert (l = []) as -> by congruence. split; [intros []|]. intros (d & rg & [] & _).
  - destruct (if ranges_overlap rg requested then actions_for content enc rmd chain cchain d else ROk []) as [x| |] eqn:X; try discriminate.
    cbn [rbind] in H. destruct (code_actions_from content enc rmd chain cchain requested ds) as [y| |] eqn:Y; try discriminate.
    cbn [rbind] in H. assert (l = x ++ y) as -> by congruence. rewrite in_app_iff, (IH y eq_refl). split.
    + intros [I|(d' & rg' & I & K)]; [|exists d', rg'; split; [now right|auto]].
      destruct (ranges_overlap rg requested) eqn:O; [|assert (x = []) as -> by congruence; now destruct I].
      exists d, rg. split; [now left|]. split; auto. now apply (actions_for_in _ _ _ _ _ _ _ a X).
    + intros (d' & rg' & [E|I] & O & K).
      * injection E as <- <-. left. rewrite O in X. now apply (actions_for_in _ _ _ _ _ _ _ a X).
      * right. eauto.
Qed.
Lemma code_actions_in content enc rmd chain cchain requested ds l :
  code_actions content enc rmd chain cchain requested ds = ROk l ->
  (forall d, In d ds -> exists rg, lsp_range (d_start d) (d_end d) content enc = ROk rg /\ pos_le (fst rg) (snd rg) = true) ->
  pos_le (fst requested) (snd requested) = true ->
  forall a, In a l <-> exists d rg, In d ds /\ lsp_range (d_start d) (d_end d) content enc = ROk rg /\ touch rg requested /\
    offered content enc rmd chain cchain d a.
Proof.
  intros H Hd Hq a. unfold code_actions in H.
  destruct (with_ranges_ok content enc ds) as (rs & E). { intros d I. destruct (Hd d I) as (rg & R & _). eauto. }
  rewrite E in H. rewrite (actions_from_in _ _ _ _ _ _ _ l H a). split.
  - intros (d & rg & I & O & K). apply (with_ranges_in _ _ _ _ E) in I. destruct I as (I & R). exists d, rg. repeat split; auto.
    apply overlap_iff; auto. destruct (Hd d I) as (rg' & R' & P). congruence.
  - intros (d & rg & I & R & T & K). exists d, rg. split; [now apply (with_ranges_in _ _ _ _ E)|]. split; auto.
    apply overlap_iff; auto. destruct (Hd d I) as (rg' & R' & P). congruence.
Qed.
(** R files: a list is always given. *)
Lemma code_actions_total content enc cchain requested ds chain :
  (forall d, In d ds -> exists a m b, content = a ++ m ++ b /\ blen a = d_start d /\ blen (a ++ m) = d_end d) ->
  (forall d, In d ds -> boundary content (f_start (d_fix d)) /\ boundary content (f_end (d_fix d)) /\ f_start (d_fix d) <= f_end (d_fix d)) ->
  (forall d ch, In d ds -> chain d = Some ch -> Forall (fun a => boundary content (a_start a)) ch) ->
  (forall d, In d ds -> exists r, d_rule d = rule_name r) ->
  exists l, code_actions content enc false chain cchain requested ds = ROk l.
Proof.
  intros Hr Hf Hc Hn. unfold code_actions.
  destruct (with_ranges_ok content enc ds) as (rs & E).
  { intros d I. destruct (Hr d I) as (a & m & b & -> & Ea & Em). destruct (lsp_range_ok enc a m b) as (s & e & R & _). rewrite <- Ea, <- Em. eauto. }
  rewrite E. assert (I : forall p, In p rs -> In (fst p) ds). { intros (d, rg) J. now apply (with_ranges_in _ _ _ _ E) in J. }
  clear E. induction rs as [|(d, rg) rs IH]; cbn [code_actions_from]; [eauto|].
  assert (Id := I _ (or_introl eq_refl)). cbn [fst] in Id.
  destruct IH as (l & ->); [intros p J; apply I; now right|].
  destruct (ranges_overlap rg requested); [|cbn [rbind]; eauto].
  unfold actions_for. destruct (Hf d Id) as (F1 & F2 & F3). destruct (Hr d Id) as (a & m & b & Ec & Ea & Em). destruct (Hn d Id) as (r & ->).
  destruct (ignore_rule_ok content r (chain d) (d_start d)) as (pt & _ & [(_ & _ & ->)|(_ & te & _ & ->)]);
    [exists a, (m ++ b); auto|intros ch; now apply Hc| |];
    destruct (code_action_ok d content enc F1 F2 F3) as [(-> & _)|(te' & -> & _)]; cbn [rbind]; eauto.
Qed.
(** Example documents. *)
Definition seq_rmd : text := fence ++ lit "{r}" ++ [nl] ++ lit "#| jarl-ignore-chunk seq2: fine" ++ [nl] ++ lit "for (i in 1:length(x)) f(i)" ++ [nl] ++ fence ++ [nl].
Definition commented_rmd : text := fence ++ lit "{r}" ++ [nl] ++ lit "# jarl-ignore any_is_na:" ++ [nl] ++ lit "any(is.na(x))" ++ [nl] ++ fence ++ [nl].

(** ** Documents *)
Lemma rmd_first content r chain start cs :
  match find (fun c => (r_start c <=? start) && (start <=? r_start c + blen (r_code c))) cs with
  | None => ignore_rule_action_rmd content r chain start cs = ROk None
  | Some c => ignore_rule_action_rmd content r chain start cs = ignore_rule_action_rmd content r chain start [c]
  end.
Proof.
  induction cs as [|c cs IH]; [reflexivity|]. cbn [find ignore_rule_action_rmd].
  destruct ((r_start c <=? start) && (start <=? r_start c + blen (r_code c))) eqn:E; [cbn [ignore_rule_action_rmd]; now rewrite E|exact IH].
Qed.
Lemma rmd_comment_ok content r chain start :
  ((forall c, ~ chunk_of content start c) -> ignore_rule_action_rmd content r chain start (extract_r_chunks content) = ROk None) /\
  (forall c pt line, chunk_of content start c ->
     compute_insert_point (r_code c) (chain c (start - r_start c)) (start - r_start c) = Some pt ->
     point_line (r_code c) pt = ROk line ->
     (ignore_rule_action_rmd content r chain start (extract_r_chunks content) = ROk None <->
      already_ignored content r line (pt_newline pt) = true) /\
     forall te, ignore_rule_action_rmd content r chain start (extract_r_chunks content) = ROk (Some te) <->
       already_ignored content r line (pt_newline pt) = false /\
       suppress_edit content r (Point (r_start c + pt_offset pt) (pt_indent pt) (pt_newline pt)) line = ROk te).
Proof.
  pose proof (find_chunk content start) as F. pose proof (rmd_first content r chain start (extract_r_chunks content)) as G.
  destruct (find _ (extract_r_chunks content)) as [c|].
  - split; [intros N; now apply N in F|]. intros c' pt line K P L.
    assert (In' : c' = c) by exact (chunk_of_unique _ _ _ _ K F). subst c'. rewrite G. cbn [ignore_rule_action_rmd].
    destruct F as (l & l' & _ & (A & B) & _). rewrite (proj2 (Nat.leb_le _ _) A), (proj2 (Nat.leb_le _ _) B). cbn [andb].
    rewrite P, L. cbn [rbind]. destruct (already_ignored content r line (pt_newline pt)).
    + split; [now split|]. intros te. split; [discriminate|]. intros (? & _). discriminate.
    + split.
      * split; [|discriminate]. destruct (suppress_edit content r _ line); discriminate.
      * intros te. destruct (suppress_edit content r (Point (r_start c + pt_offset pt) (pt_indent pt) (pt_newline pt)) line) as [x| |] eqn:E; cbn [rbind].
        -- split; [intros [= ->]; auto|intros (_ & [= ->]); auto].
        -- split; [discriminate|]. intros (_ & [=]).
        -- split; [discriminate|]. intros (_ & [=]).
  - split; [intros _; exact G|]. intros c pt line K. now apply F in K.
Qed.

Lemma code_actions_unplaced content enc rmd chain cchain requested ds :
  (forall d, In d ds -> lsp_range (d_start d) (d_end d) content enc <> RPanic) ->
  (exists d, In d ds /\ lsp_range (d_start d) (d_end d) content enc = RErr) ->
  code_actions content enc rmd chain cchain requested ds = ROk [].
Proof.
  intros NP H. unfold code_actions. replace (with_ranges content enc ds) with (@RErr (list (diag * (pos * pos)))); auto. symmetry.
  induction ds as [|d ds IH]; [now destruct H as (d & [] & _)|]. cbn [with_ranges].
  destruct (lsp_range (d_start d) (d_end d) content enc) as [rg| |] eqn:E; cbn [rbind]; auto.
  - rewrite IH; auto.
    + intros x I. apply NP. now right.
    + destruct H as (x & [ -> |I] & Hx); [congruence|eauto].
  - exfalso. apply (NP d); [now left|exact E].
Qed.
Lemma already_nth content r line newline :
  already_ignored content (rule_name r) line newline = true <->
  newline = false /\ exists n prev ls, line = S n /\ text_lines content ls /\ nth_error ls n = Some prev /\ names_rule r prev.
Proof.
  unfold already_ignored. destruct newline; cbn [negb]; rewrite ?Bool.andb_true_r, ?Bool.andb_false_r.
  - split; [discriminate|]. intros ([=] & _).
  - destruct line as [|n]; [split; [discriminate|]; intros (_ & m & prev & ls & [=] & _)|].
    replace (S n - 1) with n by lia. change (0 <? S n) with true. cbn [andb]. split.
    + intros H. split; auto. destruct (nth_error (lines content) n) as [prev|] eqn:E; [|discriminate].
      exists n, prev, (lines content). split; auto. split; [now apply text_lines_iff|]. split; auto. now apply listed_iff.
    + intros (_ & m & prev & ls & [= <-] & T & E & K). apply text_lines_lines in T. subst ls. rewrite E. now apply listed_iff.
Qed.
Lemma rmd_comment_spec content r chain start c pt line : chunk_of content start c ->
  compute_insert_point (r_code c) (chain c (start - r_start c)) (start - r_start c) = Some pt ->
  point_line (r_code c) pt = ROk line ->
  let there := pt_newline pt = false /\ exists n prev ls, line = S n /\ text_lines content ls /\ nth_error ls n = Some prev /\ names_rule r prev in
  (ignore_rule_action_rmd content (rule_name r) chain start (extract_r_chunks content) = ROk None <-> there) /\
  forall te, ignore_rule_action_rmd content (rule_name r) chain start (extract_r_chunks content) = ROk (Some te) <->
    ~ there /\ suppress_edit content (rule_name r) (Point (r_start c + pt_offset pt) (pt_indent pt) (pt_newline pt)) line = ROk te.
Proof.
  intros K P L there. destruct (proj2 (rmd_comment_ok content (rule_name r) chain start) c pt line K P L) as (A & B).
  pose proof (already_nth content r line (pt_newline pt)) as I. fold there in I. split; [now rewrite A|].
  intros te. rewrite B, <- I. now rewrite Bool.not_true_iff_false.
Qed.
