From Coq Require Import Sorted Permutation.
From Verif Require Import Model.Text Model.Base Model.Rules Model.Directive Model.SuppressEdit
  Spec.DirectiveSpec Spec.SuppressEditSpec Proofs.TextProofs Proofs.RulesProofs Proofs.SplitProofs Proofs.DirectiveProofs.

(** ** Applying the edits *)
Lemma bsplit_prefix (a x : text) : forall n, n <= blen a ->
  bsplit n (a ++ x) = match bsplit n a with Some (p, q) => Some (p, q ++ x) | None => None end.
Proof.
  intros n Hn. destruct (bsplit n a) as [[p q]|] eqn:B.
  - apply bsplit_iff in B. destruct B as (-> & <-). rewrite <- app_assoc. apply bsplit_app.
  - destruct (bsplit n (a ++ x)) as [[p q]|] eqn:B'; auto. apply bsplit_iff in B'. destruct B' as (E & <-).
    exfalso. assert (exists y, a = p ++ y) as (y & ->).
    { clear B. revert p E Hn. induction a as [|c a IH]; intros p E Hn.
      - destruct p as [|c p]; [now exists []|]. cbn in *. pose proof (u8len_pos c). lia.
      - destruct p as [|c' p]; [now exists (c :: a)|]. cbn in E. injection E as <- E. destruct (IH p E) as (y & ->).
        { cbn in Hn. lia. } now exists y. }
    rewrite bsplit_app in B. discriminate.
Qed.
Definition block (reason : text) (g : merged) : nat * text :=
  (g_offset g, format_suppression_comments (g_rules g) reason (g_indent g) (g_newline g)).
Lemma apply_prefix reason gs : forall (a x : text), Forall (fun g => g_offset g <= blen a) gs ->
  StronglySorted (fun g h => g_offset h < g_offset g) gs ->
  apply_merged reason gs (a ++ x) = option_map (fun a' => a' ++ x) (apply_merged reason gs a).
Proof.
  induction gs as [|g gs IH]; intros a x H S; cbn [apply_merged option_map]; auto.
  inversion H as [|? ? Hg Hgs]; subst. inversion S as [|? ? S1 S2]; subst.
  unfold insert_str. rewrite bsplit_prefix by auto. destruct (bsplit (g_offset g) a) as [[p q]|] eqn:B; auto.
  apply bsplit_iff in B. destruct B as (-> & B).
  replace (p ++ format_suppression_comments (g_rules g) reason (g_indent g) (g_newline g) ++ q ++ x)
    with ((p ++ format_suppression_comments (g_rules g) reason (g_indent g) (g_newline g) ++ q) ++ x) by now rewrite <- !app_assoc.
  apply IH; auto. eapply Forall_impl; [|exact S2]. intros h Hh. rewrite !blen_app. cbn in Hh. lia.
Qed.
Lemma woven_snoc base bs a a' off blk (b : text) : woven base bs a a' -> off = base + blen a ->
  woven base (bs ++ [(off, blk)]) (a ++ b) (a' ++ blk ++ b).
Proof.
  induction 1 as [base t|base o1 blk1 bs a b0 out E W IH]; intros ->; cbn [app].
  - apply woven_cons; auto. constructor.
  - rewrite <- !app_assoc. apply woven_cons; auto. apply IH. rewrite blen_app. lia.
Qed.
Lemma apply_woven reason gs : forall t out, StronglySorted (fun g h => g_offset h < g_offset g) gs ->
  apply_merged reason gs t = Some out -> woven 0 (rev (map (block reason) gs)) t out.
Proof.
  induction gs as [|g gs IH]; intros t out S H; cbn [apply_merged map rev] in *.
  - injection H as <-. constructor.
  - inversion S as [|? ? S1 S2]; subst. unfold insert_str in H.
    destruct (bsplit (g_offset g) t) as [[a b]|] eqn:B; [|discriminate]. apply bsplit_iff in B. destruct B as (-> & B).
    rewrite apply_prefix in H; auto.
    2:{ eapply Forall_impl; [|exact S2]. intros h Hh. cbn in Hh. lia. }
    destruct (apply_merged reason gs a) as [a'|] eqn:A; [|discriminate]. cbn [option_map] in H. injection H as <-.
    apply woven_snoc; auto.
Qed.
Lemma apply_defined reason gs : forall t, StronglySorted (fun g h => g_offset h < g_offset g) gs ->
  Forall (fun g => boundary t (g_offset g)) gs -> exists out, apply_merged reason gs t = Some out.
Proof.
  induction gs as [|g gs IH]; intros t S H; cbn [apply_merged]; eauto.
  inversion S as [|? ? S1 S2]; subst. inversion H as [|? ? (a & b & -> & E) H2]; subst.
  unfold insert_str. rewrite <- E, bsplit_app. rewrite apply_prefix; auto.
  2:{ eapply Forall_impl; [|exact S2]. intros h Hh. cbn in Hh. lia. }
  destruct (IH a S1) as (a' & ->); [|cbn; eauto].
  apply Forall_forall. intros h Hh. rewrite Forall_forall in S2, H2. specialize (S2 h Hh). destruct (H2 h Hh) as (p & q & E1 & E2).
  cbn in S2. assert (B : bsplit (g_offset h) (a ++ b) = Some (p, q)) by (apply bsplit_iff; auto).
  rewrite bsplit_prefix in B by lia. destruct (bsplit (g_offset h) a) as [[p' q']|] eqn:B'; [|discriminate].
  apply bsplit_iff in B'. destruct B'. exists p', q'. auto.
Qed.

(** ** Merging *)
Lemma insert_perm e l : Permutation (insert_edit e l) (e :: l).
Proof.
  induction l as [|x l IH]; cbn; auto. destruct (e_offset e <=? e_offset x); auto.
  rewrite IH. apply perm_swap.
Qed.
Lemma sort_perm l : Permutation (sort_edits l) l.
Proof. induction l as [|e l IH]; cbn; auto. rewrite insert_perm. now constructor. Qed.
Lemma insert_sorted e l : StronglySorted (fun a b => e_offset a <= e_offset b) l ->
  StronglySorted (fun a b => e_offset a <= e_offset b) (insert_edit e l).
Proof.
  induction 1 as [|x l S IH F]; cbn; [repeat constructor|].
  destruct (e_offset e <=? e_offset x) eqn:L.
  - apply Nat.leb_le in L. constructor; [constructor; auto|]. constructor; auto.
    eapply Forall_impl; [|exact F]. intros; cbn in *; lia.
  - apply Nat.leb_gt in L. constructor; auto. rewrite insert_perm. constructor; [lia|auto].
Qed.
Lemma sort_sorted l : StronglySorted (fun a b => e_offset a <= e_offset b) (sort_edits l).
Proof. induction l as [|e l IH]; cbn; [constructor|]. now apply insert_sorted. Qed.

(** What the merged edits [gs] must contain after the edits [es]. *)
Record minv (es : list edit) (gs : list merged) : Prop := {
  M_sorted : StronglySorted (fun g h => g_offset h < g_offset g) gs;
  M_rules : forall o r, (exists g, In g gs /\ g_offset g = o /\ In r (g_rules g)) <-> exists e, In e es /\ e_offset e = o /\ e_rule e = r;
  M_nodup : Forall (fun g => NoDup (g_rules g) /\ g_rules g <> []) gs;
  M_from : Forall (fun g => exists e, In e es /\ e_offset e = g_offset g /\ e_indent e = g_indent g /\ e_newline e = g_newline g) gs }.
Lemma nodup_snoc {A} (l : list A) x : NoDup l -> ~ In x l -> NoDup (l ++ [x]).
Proof.
  intros H Hx. apply (Permutation_NoDup (l := x :: l)); [apply Permutation_cons_append|]. now constructor.
Qed.
Lemma merge_inv es : forall done acc, minv done acc ->
  StronglySorted (fun a b => e_offset a <= e_offset b) es ->
  Forall (fun e => Forall (fun g => g_offset g <= e_offset e) acc) es ->
  minv (done ++ es) (fold_left merge_step es acc).
Proof.
  induction es as [|e es IH]; intros done acc I S F; cbn [fold_left]; [now rewrite app_nil_r|].
  inversion S as [|? ? S1 S2]; subst. inversion F as [|? ? F1 F2]; subst.
  replace (done ++ e :: es) with ((done ++ [e]) ++ es) by now rewrite <- app_assoc.
  destruct I as [I1 I2 I3 I4].
  assert (I4' : Forall (fun g => exists e0, In e0 (done ++ [e]) /\ e_offset e0 = g_offset g /\ e_indent e0 = g_indent g /\ e_newline e0 = g_newline g) acc).
  { eapply Forall_impl; [|exact I4]. intros g (e0 & H0 & H1). exists e0. split; auto. apply in_or_app. auto. }
  apply IH; auto.
  - unfold merge_step. destruct acc as [|g acc].
    + split; cbn.
      * repeat constructor.
      * intros o r. split.
        -- intros (g & [<-|[]] & <- & [<-|[]]). exists e. split; auto. apply in_or_app. right. now left.
        -- intros (e0 & H0 & <- & <-). apply in_app_or in H0. destruct H0 as [H0|[<-|[]]].
           ++ exfalso. destruct (proj2 (I2 (e_offset e0) (e_rule e0))) as (g & [] & _). eauto.
           ++ eexists. split; [left; reflexivity|]. cbn. auto.
      * repeat constructor; [auto|discriminate].
      * repeat constructor. exists e. split; [apply in_or_app; right; now left|]. auto.
    + inversion I1 as [|? ? J1 J2]; subst. inversion F1 as [|? ? K1 K2]; subst.
      inversion I3 as [|? ? (N1 & N2) N3]; subst. inversion I4' as [|? ? P1 P2]; subst.
      destruct (g_offset g =? e_offset e) eqn:E.
      * apply Nat.eqb_eq in E. destruct (mem (e_rule e) (g_rules g)) eqn:Mm.
        -- apply mem_iff in Mm. split; auto. intros o r. rewrite I2. split.
           ++ intros (e0 & H0 & H1). exists e0. split; auto. apply in_or_app; auto.
           ++ intros (e0 & H0 & <- & <-). apply in_app_or in H0. destruct H0 as [H0|[<-|[]]]; [eauto|].
              apply I2. exists g. split; [now left|]. auto.
        -- apply mem_false in Mm. split.
           ++ constructor; auto.
           ++ intros o r. split.
              ** intros (g' & [<-|H] & <- & Hr).
                 --- cbn in Hr |- *. apply in_app_or in Hr. destruct Hr as [Hr|[<-|[]]].
                     +++ destruct (proj1 (I2 (g_offset g) r)) as (e0 & H0 & H1); [exists g; split; [now left|auto]|].
                         exists e0. split; auto. apply in_or_app; auto.
                     +++ exists e. split; [apply in_or_app; right; now left|]. auto.
                 --- destruct (proj1 (I2 (g_offset g') r)) as (e0 & H0 & H1); [exists g'; split; [now right|auto]|].
                     exists e0. split; auto. apply in_or_app; auto.
              ** intros (e0 & H0 & <- & <-). apply in_app_or in H0. destruct H0 as [H0|[<-|[]]].
                 --- destruct (proj2 (I2 (e_offset e0) (e_rule e0))) as (g' & [<-|H] & H1 & H2); [eauto| |].
                     +++ eexists. split; [left; reflexivity|]. cbn. split; auto. apply in_or_app; auto.
                     +++ exists g'. split; [now right|auto].
                 --- eexists. split; [left; reflexivity|]. cbn. split; auto. apply in_or_app. right. now left.
           ++ constructor; auto. cbn. split; [now apply nodup_snoc|]. destruct (g_rules g); discriminate.
           ++ constructor; auto.
      * apply Nat.eqb_neq in E. split.
        -- constructor; auto. constructor; cbn; [lia|]. eapply Forall_impl; [|exact J2]. intros h Hh. cbn in *. lia.
        -- intros o r. split.
           ++ intros (g' & [<-|H] & <- & Hr).
              ** cbn in Hr |- *. destruct Hr as [<-|[]]. exists e. split; [apply in_or_app; right; now left|]. auto.
              ** destruct (proj1 (I2 (g_offset g') r)) as (e0 & H0 & H1); [exists g'; auto|].
                 exists e0. split; auto. apply in_or_app; auto.
           ++ intros (e0 & H0 & <- & <-). apply in_app_or in H0. destruct H0 as [H0|[<-|[]]].
              ** destruct (proj2 (I2 (e_offset e0) (e_rule e0))) as (g' & H & H1); [eauto|]. exists g'. split; [now right|auto].
              ** eexists. split; [left; reflexivity|]. cbn. auto.
        -- constructor; auto. cbn. split; [repeat constructor; auto|discriminate].
        -- constructor; auto. exists e. split; [apply in_or_app; right; now left|]. auto.
  - apply Forall_forall. intros x Hx. rewrite Forall_forall in S2, F2. specialize (S2 x Hx). specialize (F2 x Hx). cbn in S2.
    unfold merge_step. destruct acc as [|g acc]; [repeat constructor; auto|].
    inversion F2; subst. destruct (g_offset g =? e_offset e) eqn:E.
    + destruct (mem (e_rule e) (g_rules g)); auto.
    + constructor; auto.
Qed.
Lemma merge_ok es : minv es (merge_edits es).
Proof.
  assert (I0 : minv [] []).
  { split; try constructor. 
    - intros (g & [] & _).
    - intros (g & [] & _). }
  pose proof (merge_inv (sort_edits es) [] [] I0 (sort_sorted es)) as H. cbn [app] in H.
  destruct H as [H1 H2 H3 H4]; [apply Forall_forall; intros; constructor|].
  fold (merge_edits es) in *. split; auto.
  - intros o r. rewrite H2. split; intros (e & He & H); exists e; split; auto; eapply Permutation_in; try exact He; [apply sort_perm|symmetry; apply sort_perm].
  - eapply Forall_impl; [|exact H4]. intros g (e & He & H). exists e. split; auto. eapply Permutation_in; [apply sort_perm|exact He].
Qed.

Theorem add_comments_exact reason es t out : add_comments reason es t = Some out ->
  exists gs, woven 0 (map (block reason) gs) t out /\
    StronglySorted (fun g h => g_offset g < g_offset h) gs /\
    (forall o r, (exists g, In g gs /\ g_offset g = o /\ In r (g_rules g)) <-> exists e, In e es /\ e_offset e = o /\ e_rule e = r) /\
    Forall (fun g => NoDup (g_rules g) /\ exists e, In e es /\ e_offset e = g_offset g /\ e_indent e = g_indent g /\ e_newline e = g_newline g) gs.
Proof.
  intros H. destruct (merge_ok es) as [M1 M2 M3 M4]. exists (rev (merge_edits es)).
  split; [|split; [|split]].
  - rewrite map_rev. now apply apply_woven.
  - clear - M1. induction M1 as [|g l S IH F]; cbn; [constructor|].
    assert (A : forall (l1 : list merged) x, StronglySorted (fun g h => g_offset g < g_offset h) l1 -> Forall (fun h => g_offset h < g_offset x) l1 ->
       StronglySorted (fun g h => g_offset g < g_offset h) (l1 ++ [x])).
    { clear. induction l1 as [|y l1 IH]; cbn; intros x S F; [repeat constructor|].
      inversion S; subst. inversion F; subst. constructor; auto. apply Forall_app. auto. }
    apply A; auto. apply Forall_rev. exact F.
  - intros o r. rewrite <- M2. split; intros (g & Hg & H1); exists g; split; auto; [now apply in_rev|now apply -> in_rev].
  - apply Forall_rev. rewrite Forall_forall in *. intros g Hg. split; [now apply M3|now apply M4].
Qed.
Theorem add_comments_total reason es t : Forall (fun e => boundary t (e_offset e)) es ->
  exists out, add_comments reason es t = Some out.
Proof.
  intros H. destruct (merge_ok es) as [M1 M2 M3 M4]. apply apply_defined; auto.
  rewrite Forall_forall in *. intros g Hg. destruct (M4 g Hg) as (e & He & <- & _). now apply H.
Qed.

(** ** The comments inserted are directives *)
Theorem comment_roundtrip r reason : ~ blank reason ->
  parse_comment_directive (lit "# jarl-ignore " ++ rule_name r ++ lit ": " ++ reason) = Some (PValid (Dir KIgnore r)).
Proof.
  intros H. apply parse_valid. exists (rule_name r ++ lit ": " ++ reason). split.
  - exists [], (lit "# "). split; [reflexivity|]. split; [left; left; reflexivity|]. reflexivity.
  - exists [], [], (lit " " ++ reason). split; [reflexivity|]. split; [reflexivity|]. split; [|reflexivity].
    intros B. apply H. unfold blank in *. cbn in B. exact B.
Qed.
Theorem blank_reason_refuted : exists r reason, ~ In nl reason /\ reason <> [] /\
  parse_comment_directive (lit "# jarl-ignore " ++ rule_name r ++ lit ": " ++ reason) = Some PMissing.
Proof. exists R_AnyIsNa, (lit " "). split; [vm_compute; intuition discriminate|]. split; [discriminate|]. vm_compute. reflexivity. Qed.

(** Each inserted line is the indentation followed by one directive. *)
Lemma rule_name_no_nl r : ~ In nl (rule_name r).
Proof.
  assert (forallb (fun r => forallb (fun c => negb (N.eqb c nl)) (rule_name r)) all_rules = true) as H by (vm_compute; reflexivity).
  rewrite forallb_forall in H. specialize (H r (all_rules_complete r)). rewrite forallb_forall in H.
  intros Hin. apply H in Hin. rewrite N.eqb_refl in Hin. discriminate.
Qed.
Lemma split_incl_line (l : text) r : ~ In nl l -> split_incl (l ++ nl :: r) = (l ++ [nl]) :: split_incl r.
Proof.
  induction l as [|c l IH]; cbn [app split_incl]; intros H.
  - reflexivity.
  - destruct (N.eqb c nl) eqn:E; [apply N.eqb_eq in E; exfalso; apply H; now left|].
    rewrite IH by (intros X; apply H; now right). reflexivity.
Qed.
Theorem format_lines rules reason indent : ~ In nl reason -> ~ In nl indent ->
  split_incl (format_suppression_comments (map rule_name rules) reason indent false)
  = map (fun r => indent ++ lit "# jarl-ignore " ++ rule_name r ++ lit ": " ++ reason ++ [nl]) rules.
Proof.
  intros Hr Hi. unfold format_suppression_comments. cbn [app]. rewrite app_nil_r.
  induction rules as [|r rules IH]; cbn [map concat]; auto.
  unfold comment_line at 1.
  assert (E : (indent ++ lit "# jarl-ignore " ++ rule_name r ++ lit ": " ++ reason ++ [nl]) ++ concat (map (fun r0 => comment_line r0 reason indent) (map rule_name rules))
     = (indent ++ lit "# jarl-ignore " ++ rule_name r ++ lit ": " ++ reason) ++ nl :: concat (map (fun r0 => comment_line r0 reason indent) (map rule_name rules))).
  { now rewrite <- !app_assoc. }
  rewrite E. rewrite split_incl_line.
  - rewrite IH. f_equal. now rewrite <- !app_assoc.
  - intros H. repeat (apply in_app_or in H; destruct H as [H|H]); auto.
    + vm_compute in H. intuition discriminate.
    + now apply rule_name_no_nl in H.
    + vm_compute in H. intuition discriminate.
Qed.

(** ** Insertion points *)
Lemma line_prefix_spec (before : text) : exists a, before = a ++ line_prefix before /\ ~ In nl (line_prefix before) /\
  (a = [] \/ exists a', a = a' ++ [nl]).
Proof.
  unfold line_prefix. destruct (find_char nl (rev before)) as [[x y]|] eqn:F.
  - apply find_char_some in F. destruct F as (F & Hx). apply (f_equal (@rev N)) in F. rewrite rev_involutive, rev_app_distr in F.
    cbn [rev] in F. exists (rev y ++ [nl]). split; [exact F|]. split; [now rewrite <- in_rev|]. right. eauto.
  - apply find_char_none in F. exists []. rewrite rev_involutive. split; auto. split; auto. now rewrite <- in_rev in F.
Qed.
(** Where a comment line goes: the start of the line of [p]. *)
Lemma line_start_ok src p : boundary src p -> exists pt l, line_start_point src p = Some pt /\ pt_newline pt = false /\
  on_line src p l /\ pt_offset pt + blen l = p /\ boundary src (pt_offset pt) /\
  blank (pt_indent pt) /\ ~ In nl (pt_indent pt) /\
  (forallb is_ws l = true -> exists r, pt_indent pt = l ++ r).
Proof.
  intros (a & b & -> & <-). unfold line_start_point, find_line_start_and_indent. rewrite bsplit_app.
  destruct (line_prefix_spec a) as (x & E & Hn & Hx). set (l := line_prefix a) in *.
  assert (L : blen a - blen l = blen x) by (rewrite E at 1; rewrite blen_app; lia).
  assert (B : bsplit (blen a - blen l) (a ++ b) = Some (x, l ++ b)).
  { apply bsplit_iff. split; [|auto]. rewrite E at 1. now rewrite <- app_assoc. }
  rewrite B. eexists _, l. split; [reflexivity|]. cbn [pt_newline pt_offset pt_indent]. split; auto.
  split; [|split; [|split; [|split; [|split]]]].
  - exists x, b. rewrite E at 1. rewrite <- app_assoc. split; auto. split; [now rewrite <- E|]. auto.
  - rewrite L. rewrite <- blen_app, <- E. reflexivity.
  - apply bsplit_iff in B. destruct B as (B1 & B2). exists x, (l ++ b). auto.
  - generalize (l ++ b). unfold blank. clear. intros t; induction t as [|c t IH]; cbn; auto.
    destruct (is_ws c && negb (N.eqb c nl)) eqn:E; cbn; auto. apply andb_prop in E. now rewrite (proj1 E).
  - generalize (l ++ b). clear. intros t; induction t as [|c t IH]; cbn; auto.
    destruct (is_ws c && negb (N.eqb c nl)) eqn:E; cbn; auto. intros [->|H]; auto. apply andb_prop in E. destruct E as (_ & E).
    rewrite N.eqb_refl in E. discriminate.
  - intros W. clear - Hn W. revert Hn W. generalize l. clear l. intros l. induction l as [|c l IH]; cbn; [eauto|].
    intros Hn H. apply andb_prop in H. destruct H as (H1 & H2). rewrite H1.
    destruct (N.eqb c nl) eqn:E; [apply N.eqb_eq in E; exfalso; apply Hn; auto|]. cbn.
    destruct IH as (r & ->); auto. eauto.
Qed.
Lemma inline_ok src p : boundary src p -> exists pt, inline_point src p = Some pt /\ pt_newline pt = true /\ pt_offset pt = p /\
  exists n, pt_indent pt = repeat 32%N n.
Proof.
  intros (a & b & -> & <-). unfold inline_point, compute_inline_indent. rewrite bsplit_app. eexists. split; [reflexivity|].
  cbn. eauto.
Qed.
Lemma own_line_ok src p : boundary src p -> exists b, is_on_own_line src p = Some b /\
  (b = true <-> forall l, on_line src p l -> blank l).
Proof.
  intros (a & b & -> & <-). unfold is_on_own_line. destruct (line_prefix_spec a) as (x & E & Hn & Hx).
  assert (U : forall l, on_line (a ++ b) (blen a) l -> l = line_prefix a).
  { intros l (a1 & b1 & E1 & L1 & N1 & H1).
    assert (S1 : bsplit (blen a) (a ++ b) = Some (a1 ++ l, b1)) by (apply bsplit_iff; split; [now rewrite <- app_assoc|auto]).
    rewrite bsplit_app in S1. injection S1 as S1 _. clear - S1 E Hn Hx N1 H1. rewrite E in S1.
    assert (G : forall (u v x a1 : text), x ++ u = a1 ++ v -> ~ In nl u -> ~ In nl v -> (x = [] \/ exists a', x = a' ++ [nl]) ->
      (a1 = [] \/ exists a', a1 = a' ++ [nl]) -> v = u).
    { clear. intros u v x a1 E Hu Hv Hx Ha.
      assert (F : find_char nl (rev (x ++ u)) = find_char nl (rev (a1 ++ v))) by now rewrite E.
      rewrite !rev_app_distr in F.
      assert (Q : forall (w y : text), ~ In nl w -> (y = [] \/ exists y', y = y' ++ [nl]) ->
        match find_char nl (rev w ++ rev y) with Some (p, _) => p | None => rev w ++ rev y end = rev w).
      { intros w y Hw [->|(y' & ->)].
        - cbn [rev]. rewrite app_nil_r. rewrite (proj2 (find_char_none _ _)); auto. now rewrite <- in_rev.
        - rewrite rev_app_distr. cbn [rev app]. rewrite (proj2 (find_char_some nl _ (rev w) (rev y'))); auto. split; auto. now rewrite <- in_rev. }
      pose proof (Q u x Hu Hx) as Q1. pose proof (Q v a1 Hv Ha) as Q2. rewrite F in Q1.
      rewrite <- !rev_app_distr, <- E, !rev_app_distr in Q2. rewrite F in Q2. rewrite Q1 in Q2.
      apply (f_equal (@rev N)) in Q2. now rewrite !rev_involutive in Q2. }
    symmetry. eapply G; eauto. }
  assert (O : on_line (a ++ b) (blen a) (line_prefix a)).
  { exists x, b. rewrite E at 1. rewrite <- app_assoc. split; auto. split; [now rewrite <- E|]. auto. }
  destruct (blen a =? 0) eqn:Z.
  - apply Nat.eqb_eq in Z. exists true. split; auto. split; auto. intros _ l Hl. apply U in Hl. subst l.
    destruct a as [|c a]; [reflexivity|]. cbn in Z. pose proof (u8len_pos c). lia.
  - rewrite bsplit_app. eexists. split; [reflexivity|]. unfold blank. split.
    + intros H l Hl. apply U in Hl. now subst l.
    + intros H. now apply H.
Qed.

Lemma insert_point_ok src diag_start all chain : forall last first_own,
  boundary src diag_start -> incl chain all -> Forall (fun a => boundary src (a_start a)) all ->
  (forall p, last = Some p -> In p (map a_start all)) ->
  (forall p, first_own = Some p -> In p (map a_start all) /\ is_on_own_line src p = Some true) ->
  exists pt, insert_point src chain last first_own diag_start = Some pt /\ placed src (map a_start all) diag_start pt /\
    boundary src (pt_offset pt) /\ blank (pt_indent pt) /\ ~ In nl (pt_indent pt).
Proof.
  intros last first_own Hd Hi Hb. revert last first_own.
  assert (BP : forall p, In p (map a_start all) -> boundary src p).
  { intros p H. apply in_map_iff in H. destruct H as (a & <- & H). rewrite Forall_forall in Hb. auto. }
  assert (SP : forall n, blank (repeat 32%N n) /\ ~ In nl (repeat 32%N n)).
  { intros n. split; [unfold blank; induction n; cbn; auto|]. intros H. apply repeat_spec in H. discriminate. }
  assert (Above : forall p, In p (map a_start all) -> is_on_own_line src p = Some true ->
    exists pt, line_start_point src p = Some pt /\ placed src (map a_start all) diag_start pt /\ boundary src (pt_offset pt) /\ blank (pt_indent pt) /\ ~ In nl (pt_indent pt)).
  { intros p Hp Ho. destruct (line_start_ok src p (BP p Hp)) as (pt & l & H1 & H2 & H3 & H4 & H5 & H6 & H7 & _).
    destruct (own_line_ok src p (BP p Hp)) as (b & H8 & H9). rewrite Ho in H8. injection H8 as <-.
    exists pt. split; auto. split; auto. eapply pl_above; eauto. now apply H9. }
  assert (Inl : forall p, In p (map a_start all) -> 
    exists pt, inline_point src p = Some pt /\ placed src (map a_start all) diag_start pt /\ boundary src (pt_offset pt) /\ blank (pt_indent pt) /\ ~ In nl (pt_indent pt)).
  { intros p Hp. destruct (inline_ok src p (BP p Hp)) as (pt & H1 & H2 & H3 & n & H4). exists pt. split; auto.
    rewrite H4. split; [eapply pl_inline; eauto|]. split; [rewrite H3; auto|]. apply SP. }
  induction chain as [|a chain IH]; intros last first_own Hl Hf; cbn [insert_point].
  - destruct first_own as [p|].
    + destruct (Hf p eq_refl). now apply Above.
    + destruct last as [p|]; [apply Inl; auto|].
      destruct (line_start_ok src diag_start Hd) as (pt & l & H1 & H2 & H3 & H4 & H5 & H6 & H7 & _).
      exists pt. split; auto. split; auto. eapply pl_fallback; eauto.
  - assert (Ha : In (a_start a) (map a_start all)) by (apply in_map; apply Hi; now left).
    assert (Hi' : incl chain all) by (intros x Hx; apply Hi; now right).
    destruct (a_meaningful a); [|now apply IH].
    destruct (own_line_ok src (a_start a) (BP _ Ha)) as (own & Eo & _). rewrite Eo.
    destruct (a_control a).
    + destruct last as [p|].
      * destruct (own_line_ok src p (BP _ (Hl p eq_refl))) as (own' & Eo' & _). rewrite Eo'. destruct own'.
        -- apply Above; auto.
        -- apply Inl; auto.
      * destruct own; [now apply Above|]. apply IH; auto.
    + apply IH; auto.
      * intros p [= <-]; auto.
      * intros p. destruct first_own as [q|]; auto. destruct own; [|discriminate]. intros [= <-]; auto.
Qed.
Theorem insert_point_placed src chain diag_start : boundary src diag_start ->
  (forall ch, chain = Some ch -> Forall (fun a => boundary src (a_start a)) ch) ->
  exists pt, compute_insert_point src chain diag_start = Some pt /\
    placed src (match chain with Some ch => map a_start ch | None => [] end) diag_start pt /\
    boundary src (pt_offset pt) /\ blank (pt_indent pt) /\ ~ In nl (pt_indent pt).
Proof.
  intros Hd Hc. unfold compute_insert_point. destruct chain as [ch|].
  - apply insert_point_ok; auto; try apply incl_refl; discriminate.
  - destruct (line_start_ok src diag_start Hd) as (pt & l & H1 & H2 & H3 & H4 & H5 & H6 & H7 & _).
    exists pt. split; auto. split; auto. eapply pl_fallback; eauto.
Qed.

(** [T] after a string that spans lines: the comment goes into the string. *)
Definition wsrc1 := lit "x <- """ ++ lit "a" ++ [nl] ++ lit "b""; ".
Definition wsrc := wsrc1 ++ lit "T" ++ [nl].
Theorem string_refuted : exists src a b chain pt a' b',
  src = a ++ b /\ ~ in_string (lex_after a) /\
  Forall (fun x => boundary src (a_start x)) chain /\
  compute_insert_point src (Some chain) (blen a) = Some pt /\
  src = a' ++ b' /\ blen a' = pt_offset pt /\ in_string (lex_after a').
Proof.
  exists wsrc, wsrc1, (lit "T" ++ [nl]), [Anc false false (blen wsrc1); Anc false false 0; Anc false false 0]. eexists.
  exists (lit "x <- """ ++ lit "a" ++ [nl]), (lit "b""; " ++ lit "T" ++ [nl]).
  split; [reflexivity|]. split; [vm_compute; tauto|].
  split; [repeat constructor; [exists wsrc1, (lit "T" ++ [nl])|exists [], wsrc|exists [], wsrc]; split; reflexivity|].
  split; [vm_compute; reflexivity|]. split; [reflexivity|]. split; [reflexivity|]. vm_compute. exact I.
Qed.
