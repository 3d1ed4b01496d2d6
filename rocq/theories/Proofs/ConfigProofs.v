From Verif Require Import Model.Text Model.Base Model.Rules Model.Description Model.Config Model.Fix Model.Driver
  Spec.ConfigSpec Proofs.TextProofs Proofs.RulesProofs.

Lemma in_names r (l : list rule) : In (rule_name r) (map rule_name l) <-> In r l.
Proof.
  rewrite in_map_iff. split.
  - intros (x & E & H). apply rule_name_inj in E. now subst.
  - intros H. now exists r.
Qed.
Lemma group_iff t : mem t (map category_name all_categories) = true <-> exists c, t = category_name c.
Proof.
  rewrite mem_iff, in_map_iff. split.
  - intros (c & E & _). exists c. congruence.
  - intros (c & ->). exists c. split; auto using category_complete.
Qed.

Lemma expand_one_spec e r : In (rule_name r) (expand_one e) <-> designates e r.
Proof.
  unfold expand_one, designates.
  destruct (teqb (trim e) (lit "ALL")) eqn:EA.
  { apply teqb_eq in EA. split; auto. intros _. rewrite in_names. apply all_rules_complete. }
  apply teqb_neq in EA.
  destruct (mem (trim e) _) eqn:EG.
  - apply group_iff in EG as (c & EG).
    assert (EC : category_of_name (trim e) = Some c) by now apply category_of_name_iff.
    rewrite EC, in_names, filter_In, has_category_iff. split.
    + intros (_ & H). right. left. eauto.
    + intros [H|[(c' & H & H')|H]]; [contradiction| |].
      * split; [apply all_rules_complete|]. rewrite EG in H. apply category_name_inj in H. now subst.
      * rewrite EG in H. symmetry in H. now apply rule_name_not_group in H.
  - cbn. split.
    + intros [H|[]]. right. right. auto.
    + intros [H|[(c & H & _)|H]]; [contradiction| |auto].
      assert (X : mem (trim e) (map category_name all_categories) = true) by (apply group_iff; eauto). congruence.
Qed.

Lemma expand_valid e : existsb invalid_name (expand_one e) = false <-> exists r, designates e r.
Proof.
  assert (V : forall r, invalid_name (rule_name r) = false).
  { intros r. unfold invalid_name. rewrite rule_name_trim. destruct (rule_name r) eqn:E; [now apply rule_name_nonempty in E|].
    rewrite <- E. apply negb_false_iff, mem_iff, in_names, all_rules_complete. }
  split.
  - intros H. unfold expand_one in H.
    destruct (teqb (trim e) (lit "ALL")) eqn:EA.
    { exists R_AnyIsNa. left. now apply teqb_eq. }
    destruct (mem (trim e) _) eqn:EG.
    { apply group_iff in EG as (c & EG). destruct (category_inhabited c) as (r & Hr). exists r. right. left. eauto. }
    cbn in H. rewrite orb_false_r in H. unfold invalid_name in H.
    destruct (trim (trim e)) eqn:ET; [discriminate|]. rewrite <- ET in H. apply negb_false_iff, mem_iff, in_map_iff in H as (r & H & _).
    assert (ET' : trim (trim e) = trim e) by (apply trim_id, trim_tight).
    rewrite ET' in H. exists r. right. right. auto.
  - intros (r & H). apply not_true_is_false. intros HT. apply existsb_exists in HT as (n & Hn & Hi).
    assert (Hx : exists r', n = rule_name r'); [|destruct Hx as (r' & ->); now rewrite V in Hi].
    destruct H as [H|[(c & H & Hc)|H]]; unfold expand_one in Hn.
    + rewrite H in Hn. cbv zeta in Hn. rewrite teqb_refl in Hn. apply in_map_iff in Hn as (x & <- & _). eauto.
    + destruct (teqb _ _); [apply in_map_iff in Hn as (x & <- & _); eauto|].
      destruct (mem _ _) eqn:EG.
      * destruct (category_of_name _); [apply in_map_iff in Hn as (x & <- & _); eauto|destruct Hn].
      * assert (X : mem (trim e) (map category_name all_categories) = true) by (apply group_iff; eauto). congruence.
    + destruct (teqb _ _); [apply in_map_iff in Hn as (x & <- & _); eauto|].
      destruct (mem _ _) eqn:EG.
      * destruct (category_of_name _); [apply in_map_iff in Hn as (x & <- & _); eauto|destruct Hn].
      * destruct Hn as [<-|[]]. eauto.
Qed.

Lemma expand_spec l r : In (rule_name r) (replace_group_rules l) <-> lists l r.
Proof.
  unfold replace_group_rules, lists. rewrite in_flat_map. split; intros (e & H & H'); exists e; split; auto; now apply expand_one_spec.
Qed.
Lemma has_invalid_spec l : has_invalid (replace_group_rules l) = false <-> known l.
Proof.
  unfold has_invalid, replace_group_rules, known. induction l as [|e l IH]; cbn.
  - split; auto. intros _ x [].
  - rewrite existsb_app, orb_false_iff, expand_valid, IH. split.
    + intros (H1 & H2) x [<-|Hx]; auto.
    + intros H. split; [apply H; auto|]. intros x Hx. apply H; auto.
Qed.

Lemma resolve_ok l : known l -> exists ns, resolve l = ROk ns /\ forall r, In (rule_name r) ns <-> lists l r.
Proof.
  intros H. unfold resolve. apply has_invalid_spec in H. rewrite H. eexists. split; [reflexivity|].
  intros r. rewrite in_names, filter_In, mem_iff, expand_spec. split; [tauto|]. split; auto using all_rules_complete.
Qed.
Lemma resolve_inv l ns : resolve l = ROk ns -> known l /\ forall r, In (rule_name r) ns <-> lists l r.
Proof.
  intros H. assert (K : known l).
  { apply has_invalid_spec. unfold resolve in H. destruct (has_invalid _); congruence. }
  split; auto. destruct (resolve_ok l K) as (ns' & E & H'). rewrite H in E. now injection E as ->.
Qed.
Lemma resolve_opt_ok o : known_opt o -> exists ns, resolve_opt o = ROk ns.
Proof.
  destruct o; cbn; [|eauto]. intros H. destruct (resolve_ok l H) as (ns & -> & _). cbn. eauto.
Qed.
Lemma resolve_opt_inv o ns : resolve_opt o = ROk ns ->
  known_opt o /\
  match o, ns with
  | None, None => True
  | Some l, Some n => forall r, In (rule_name r) n <-> lists l r
  | _, _ => False
  end.
Proof.
  destruct o; cbn.
  - destruct (resolve l) eqn:E; cbn; try discriminate. intros [= <-]. apply resolve_inv in E. exact E.
  - intros [= <-]. auto.
Qed.

Lemma rbind_inv {A B} (r : res A) (f : A -> res B) b : rbind r f = ROk b -> exists a, r = ROk a /\ f a = ROk b.
Proof. destruct r; cbn; try discriminate. eauto. Qed.

Ltac rb H := apply rbind_inv in H; let a := fresh "x" in let E := fresh "E" in destruct H as (a & E & H).

Lemma listed_or o ns r : 
  match o, ns with None, None => True | Some l, Some n => forall r, In (rule_name r) n <-> lists l r | _, _ => False end ->
  In (rule_name r) (or_empty ns) <-> listed o r.
Proof. destruct o, ns; cbn; try tauto. intros H. apply H. Qed.

(** The structure of a successful configuration. *)
Lemma build_inv a t descs cfg : build_config a t descs = ROk cfg ->
  all_known a t /\
  determine_minimum_r_version (a_min_r a) descs = ROk (c_version cfg) /\
  assignment_ok (a_assignment a) = true /\
  c_fix cfg = a_fix a /\ c_unsafe cfg = a_unsafe a /\
  c_rules_to_apply cfg = rules_to_apply a (c_rules cfg) /\
  (forall r, In r (c_rules cfg) <-> (selected a t r \/ extended a t r) /\ ~ ignored a t r /\ version_allows (c_version cfg) r) /\
  (forall r, In (rule_name r) (c_unfixable cfg) <-> listed (toml_field s_unfixable t) r) /\
  match toml_field s_fixable t, c_fixable cfg with
  | None, None => True
  | Some l, Some n => forall r, In (rule_name r) n <-> lists l r
  | _, _ => False
  end /\
  (exists p, c_rules cfg = filter p all_rules).
Proof.
  unfold build_config. intros H. rb H. rename x into v, E into EV.
  rb H. rename x into cli, E into EC. rb H. rename x into tml, E into ET. cbv zeta in H.
  rb H. rename x into fu, E into EF. destruct (assignment_ok _) eqn:EA; [|discriminate].
  injection H as <-.
  unfold parse_rules_cli in EC. rb EC. rename x into cs, E into E1. rb EC. rename x into ce, E into E2.
  rb EC. rename x into ci, E into E3. injection EC as <-.
  assert (TT : exists ts te ti, tml = mk_sel ts te (or_empty ti) /\
     resolve_opt (toml_field s_select t) = ROk ts /\ resolve_opt (toml_field s_extend t) = ROk te /\
     resolve_opt (toml_field s_ignore t) = ROk ti).
  { destruct t as [st|]; cbn in ET |- *.
    - rb ET. rb ET. rb ET. injection ET as <-. eauto 8.
    - injection ET as <-. exists None, None, None. auto. }
  destruct TT as (ts & te & ti & -> & E4 & E5 & E6).
  assert (FF : exists u, snd fu = or_empty u /\ resolve_opt (toml_field s_fixable t) = ROk (fst fu) /\
     resolve_opt (toml_field s_unfixable t) = ROk u).
  { destruct t as [st|]; cbn in EF |- *.
    - rb EF. rb EF. injection EF as <-. cbn. eauto 8.
    - injection EF as <-. exists None. auto. }
  destruct FF as (u & Eu & E7 & E8). clear ET EF.
  apply resolve_opt_inv in E1 as (K1 & R1), E2 as (K2 & R2), E3 as (K3 & R3), E4 as (K4 & R4),
    E5 as (K5 & R5), E6 as (K6 & R6), E7 as (K7 & R7), E8 as (K8 & R8).
  change cli_list with cli_entries in *.
  split; [unfold all_known; tauto|]. cbn [c_version c_fix c_unsafe c_rules_to_apply c_rules c_unfixable c_fixable].
  do 5 (split; [auto|]). split; [|split; [|split; [auto|]]].
  - intros r.
    assert (VF : forall l, In r (filter_rules_by_version l v) <-> In r l /\ version_allows v r).
    { intros l. unfold filter_rules_by_version, version_allows. destruct v as [p|]; rewrite filter_In.
      - destruct (rule_min_version r) as [m|]; [|tauto].
        assert (VL : version_leb m p = true <-> version_le m p).
        { destruct m as [[m1 m2] m3], p as [[p1 p2] p3]; unfold version_leb, version_le.
          rewrite !orb_true_iff, !andb_true_iff, !orb_true_iff, !andb_true_iff, !Nat.ltb_lt, !Nat.eqb_eq, Nat.leb_le. tauto. }
        rewrite VL. split; intros (H1 & H2); split; auto; [eauto|]. destruct H2 as (p' & [= <-] & H2). auto.
      - destruct (rule_min_version r) as [m|]; [|tauto]. split; intros (H1 & H2); [discriminate|].
        destruct H2 as (? & [=] & _). }
    rewrite VF. rewrite <- and_assoc. apply and_iff_compat_r.
    unfold reconcile_rules. cbn [sel_selected sel_extended sel_ignored]. rewrite filter_In, mem_iff, filter_In, negb_true_iff, mem_false, !in_app_iff.
    rewrite (listed_or _ ci r R3), (listed_or _ ti r R6). fold (ignored a t r).
    assert (S1 : In (rule_name r) (match cs with Some s => s | None => match ts with Some s => s | None => default_names end end) <-> selected a t r).
    { unfold selected, first_given. clear -R1 R4. revert R1 R4.
      destruct (cli_entries (a_select a)), cs; intros R1 R4; try tauto; [apply R1|]. revert R4.
      destruct (toml_field s_select t), ts; intros R4; try tauto; [apply R4|].
      unfold default_names. rewrite in_names, filter_In. split; [tauto|]. split; auto using all_rules_complete. }
    assert (S2 : In (rule_name r) (match ce with Some s => s | None => match te with Some s => s | None => [] end end) <-> extended a t r).
    { unfold extended, first_given. clear -R2 R5. revert R2 R5.
      destruct (cli_entries (a_extend a)), ce; intros R2 R5; try tauto; [apply R2|]. revert R5.
      destruct (toml_field s_extend t), te; intros R5; try tauto; [apply R5]. }
    rewrite S1, S2. split; [tauto|]. intros H. split; [apply all_rules_complete|tauto].
  - intros r. rewrite Eu. now apply listed_or.
  - unfold filter_rules_by_version, reconcile_rules.
    assert (FFE : forall p q (l : list rule), filter p (filter q l) = filter (fun x => q x && p x)%bool l).
    { intros p q l. induction l as [|x l IH]; cbn; auto. destruct (q x); cbn; [|apply IH]. destruct (p x); cbn; now rewrite IH. }
    destruct v; rewrite FFE; eauto.
Qed.

Lemma build_ok a t descs v :
  all_known a t -> determine_minimum_r_version (a_min_r a) descs = ROk v -> assignment_ok (a_assignment a) = true ->
  exists cfg, build_config a t descs = ROk cfg /\ c_version cfg = v.
Proof.
  intros (K1 & K2 & K3 & K4 & K5 & K6 & K7 & K8) EV EA. unfold build_config. rewrite EV. cbn [rbind].
  change cli_entries with cli_list in *.
  unfold parse_rules_cli.
  apply resolve_opt_ok in K1 as (n1 & ->), K2 as (n2 & ->), K3 as (n3 & ->). cbn [rbind].
  destruct t as [st|]; cbn in K4, K5, K6, K7, K8; cbn [parse_rules_toml parse_fixable_toml rbind].
  - apply resolve_opt_ok in K4 as (n4 & ->), K5 as (n5 & ->), K6 as (n6 & ->), K7 as (n7 & ->), K8 as (n8 & ->).
    cbn [rbind]. rewrite EA. eexists. split; reflexivity.
  - rewrite EA. eexists. split; reflexivity.
Qed.

(** Unknown names are rejected. *)
Lemma build_unknown a t descs v : determine_minimum_r_version (a_min_r a) descs = ROk v ->
  ~ all_known a t -> build_config a t descs = RErr.
Proof.
  intros EV H. destruct (build_config a t descs) eqn:E; auto.
  - apply build_inv in E. tauto.
  - exfalso. unfold build_config in E. rewrite EV in E. cbn [rbind] in E.
    assert (NP : forall o, resolve_opt o <> RPanic).
    { intros [l|]; cbn; [|discriminate]. unfold resolve. destruct (has_invalid _); discriminate. }
    unfold parse_rules_cli in E.
    repeat match type of E with
    | context [resolve_opt ?o] => let X := fresh in destruct (resolve_opt o) eqn:X; cbn [rbind parse_rules_toml parse_fixable_toml] in E;
       try discriminate; try (now apply NP in X)
    | context [match t with _ => _ end] => destruct t; cbn [rbind parse_rules_toml parse_fixable_toml] in E
    | context [parse_rules_toml t] => destruct t; cbn [rbind parse_rules_toml parse_fixable_toml] in E
    | context [assignment_ok ?o] => destruct (assignment_ok o); discriminate
    end.
Qed.

Lemma filter_ext_in' {A} (p q : A -> bool) l : (forall x, In x (filter p l) <-> In x (filter q l)) -> filter p l = filter q l.
Proof.
  intros H. apply filter_ext_in. intros x Hx. specialize (H x). rewrite !filter_In in H.
  destruct (p x), (q x); auto; exfalso; intuition congruence.
Qed.

(** The configuration only depends on which rules each list designates. *)
Definition same_list (x y : option (list text)) : Prop :=
  match x, y with
  | None, None => True
  | Some l, Some m => forall r, lists l r <-> lists m r
  | _, _ => False
  end.

Lemma build_extensional a a' t t' descs cfg cfg' :
  build_config a t descs = ROk cfg -> build_config a' t' descs = ROk cfg' ->
  same_list (cli_entries (a_select a)) (cli_entries (a_select a')) ->
  same_list (cli_entries (a_extend a)) (cli_entries (a_extend a')) ->
  same_list (cli_entries (a_ignore a)) (cli_entries (a_ignore a')) ->
  same_list (toml_field s_select t) (toml_field s_select t') ->
  same_list (toml_field s_extend t) (toml_field s_extend t') ->
  same_list (toml_field s_ignore t) (toml_field s_ignore t') ->
  a_min_r a = a_min_r a' -> c_rules cfg = c_rules cfg'.
Proof.
  intros H H' S1 S2 S3 S4 S5 S6 EM. apply build_inv in H, H'.
  destruct H as (_ & V & _ & _ & _ & _ & R & _ & _ & p & P), H' as (_ & V' & _ & _ & _ & _ & R' & _ & _ & p' & P').
  rewrite EM, V' in V. injection V as V.
  rewrite P, P'. apply filter_ext_in'. rewrite <- P, <- P'. intros r. rewrite R, R', V.
  assert (B1 : selected a t r <-> selected a' t' r).
  { unfold selected, first_given. clear -S1 S4. revert S1 S4.
    destruct (cli_entries (a_select a)), (cli_entries (a_select a')); cbn; intros S1; try tauto; [intros _; apply S1|].
    destruct (toml_field s_select t), (toml_field s_select t'); cbn; intros S4; try tauto; apply S4. }
  assert (B2 : extended a t r <-> extended a' t' r).
  { unfold extended, first_given. clear -S2 S5. revert S2 S5.
    destruct (cli_entries (a_extend a)), (cli_entries (a_extend a')); cbn; intros S2; try tauto; [intros _; apply S2|].
    destruct (toml_field s_extend t), (toml_field s_extend t'); cbn; intros S5; try tauto; apply S5. }
  assert (B3 : ignored a t r <-> ignored a' t' r).
  { unfold ignored. clear -S3 S6. revert S3 S6.
    destruct (cli_entries (a_ignore a)), (cli_entries (a_ignore a')); cbn; intros S3; try tauto;
    destruct (toml_field s_ignore t), (toml_field s_ignore t'); cbn; intros S6; try tauto;
    try rewrite S3; try rewrite S6; tauto. }
  rewrite B1, B2, B3. tauto.
Qed.

Lemma rules_nodup a t descs cfg : build_config a t descs = ROk cfg -> NoDup (c_rules cfg).
Proof.
  intros H. apply build_inv in H. destruct H as (_ & _ & _ & _ & _ & _ & _ & _ & _ & p & ->).
  apply NoDup_filter, all_rules_nodup.
Qed.

(** C17 *)
Lemma safe_only a t descs cfg : build_config a t descs = ROk cfg ->
  a_fix a = true -> a_unsafe a = false -> a_fix_only a = false ->
  forall r, In r (c_rules_to_apply cfg) <-> In r (c_rules cfg) /\ rule_fix r <> FixUnsafe.
Proof.
  intros H F U O r. apply build_inv in H. destruct H as (_ & _ & _ & _ & _ & A & _). rewrite A.
  unfold rules_to_apply. rewrite F, U, O, filter_In. unfold has_no_fix, has_safe_fix.
  destruct (rule_fix r); cbn; split; intros (H1 & H2); split; auto; congruence.
Qed.
Lemma lint_runs_all a t descs cfg : build_config a t descs = ROk cfg ->
  a_fix_only a = false -> (a_fix a = false \/ a_unsafe a = true) -> c_rules_to_apply cfg = c_rules cfg.
Proof.
  intros H O FU. apply build_inv in H. destruct H as (_ & _ & _ & _ & _ & A & _). rewrite A.
  unfold rules_to_apply. rewrite O.
  assert (X : forall l, filter (fun r => has_no_fix r || has_safe_fix r || has_unsafe_fix r) l = l).
  { intros l. induction l as [|r l IH]; cbn; auto. rewrite IH. unfold has_no_fix, has_safe_fix, has_unsafe_fix.
    destruct (rule_fix r); auto. }
  destruct FU as [-> | ->]; [destruct (a_unsafe a)|destruct (a_fix a)]; auto.
Qed.

(** C18 *)
Lemma filter_fix_shape c d : d_rule (filter_fix c d) = d_rule d /\ d_start (filter_fix c d) = d_start d /\
  d_end (filter_fix c d) = d_end d /\ (d_fix (filter_fix c d) = d_fix d \/ d_fix (filter_fix c d) = empty_fix).
Proof.
  unfold filter_fix. 
  repeat match goal with |- context [if ?b then _ else _] => destruct b end;
  destruct (c_fixable c); repeat match goal with |- context [if ?b then _ else _] => destruct b end; cbn; auto.
Qed.
Lemma filter_fix_keeps c d :
  offers_fix (filter_fix c d) <->
  offers_fix d /\ f_skip (d_fix d) = false /\
  ~ In (d_rule d) (map rule_name (filter has_no_fix (c_rules_to_apply c))) /\
  ~ In (d_rule d) (c_unfixable c) /\
  (forall s, c_fixable c = Some s -> In (d_rule d) s).
Proof.
  unfold filter_fix. rewrite <- !mem_false.
  set (m1 := mem (d_rule d) _). set (m2 := mem (d_rule d) (c_unfixable c)).
  assert (NE : forall d, ~ offers_fix (drop_fix d)) by (intros d0 H; apply H; reflexivity).
  assert (ES : f_skip (d_fix (drop_fix d)) = true) by reflexivity.
  assert (NS : f_skip (d_fix d) = false -> offers_fix d).
  { intros H1 H2. rewrite H2 in H1. discriminate. }
  destruct m1 eqn:E1.
  { split; [|intuition congruence]. intros H. exfalso. revert H.
    change (d_rule (drop_fix d)) with (d_rule d). fold m2.
    destruct m2, (c_fixable c) as [s|]; cbn; try (destruct (mem (d_rule d) s)); cbn; intros H; apply H; reflexivity. }
  fold m2. destruct m2 eqn:E2.
  { split; [|intuition congruence]. intros H. exfalso. revert H.
    destruct (c_fixable c) as [s|]; cbn; try (destruct (mem (d_rule d) s)); cbn; intros H; apply H; reflexivity. }
  destruct (c_fixable c) as [s|].
  - destruct (mem (d_rule d) s) eqn:E3.
    + apply mem_iff in E3. destruct (f_skip (d_fix d)) eqn:ESK.
      * split; [intros H; exfalso; now apply NE in H|intuition congruence].
      * split; [|tauto]. intros H. repeat split; auto. intros ? [= <-]. exact E3.
    + apply mem_false in E3. cbn. split; [intros H; exfalso; apply H; reflexivity|].
      intros (_ & _ & _ & _ & H). now specialize (H s eq_refl).
  - destruct (f_skip (d_fix d)) eqn:ESK.
    + split; [intros H; exfalso; now apply NE in H|intuition congruence].
    + split; [|tauto]. intros H. repeat split; auto. discriminate.
Qed.

(** C19 *)
Lemma version_le_trans a b c : version_le a b -> version_le b c -> version_le a c.
Proof. destruct a as [[a1 a2] a3], b as [[b1 b2] b3], c as [[c1 c2] c3]. unfold version_le. lia. Qed.
Lemma version_monotone a a' t descs descs' cfg cfg' :
  build_config a t descs = ROk cfg -> build_config a' t descs' = ROk cfg' ->
  a_select a = a_select a' -> a_extend a = a_extend a' -> a_ignore a = a_ignore a' ->
  match c_version cfg, c_version cfg' with
  | None, _ => True | Some _, None => False | Some v, Some v' => version_le v v' end ->
  forall r, In r (c_rules cfg) -> In r (c_rules cfg').
Proof.
  intros H H' E1 E2 E3 V r Hr. apply build_inv in H, H'.
  destruct H as (_ & _ & _ & _ & _ & _ & R & _), H' as (_ & _ & _ & _ & _ & _ & R' & _).
  apply R' . apply R in Hr as (H1 & H2 & H3).
  unfold selected, extended, ignored in *. rewrite <- E1, <- E2, <- E3. split; [auto|split; [auto|]].
  unfold version_allows in *. destruct (rule_min_version r) as [m|]; auto. destruct H3 as (p & Ep & H3).
  rewrite Ep in V. destruct (c_version cfg') as [p'|]; [|tauto]. exists p'. split; auto. now apply version_le_trans with p.
Qed.
