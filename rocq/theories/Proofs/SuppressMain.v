From Coq Require Import Sorted.
From Verif Require Import Model.Text Model.Base Model.Rules Model.Directive Model.Driver Model.Suppress
  Spec.DirectiveSpec Spec.SuppressSpec Proofs.TextProofs Proofs.RulesProofs Proofs.DirectiveProofs
  Proofs.SuppressProofs Proofs.SuppressFilter.

Section Main.
Variables (src : text) (n : node) (m : manager).
Hypothesis Hs : in_source src n.
Hypothesis Hm : from_node n src = Some m.
Let vs := visits src n true 0.
Let D : describes vs m := from_node_describes src n m Hs Hm.

Theorem filter_exact ds m' out : filter_diagnostics m ds = (m', out) ->
  exists keep, (forall d, keep d = true <-> ~ covered vs d) /\ out = filter keep ds.
Proof.
  intros H. apply (filter_diag_spec vs m D) in H. destruct H as (_ & -> & _).
  eexists. split; [|reflexivity]. intros d. rewrite <- (match_none vs m D).
  destruct (first_match m d); cbn; split; congruence.
Qed.

Lemma used_iff ds m' out c : filter_diagnostics m ds = (m', out) ->
  (is_used m' c = true <-> exists d, In d ds /\ first_match m d = Some c).
Proof.
  intros H. apply (filter_diag_spec vs m D) in H. destruct H as (_ & _ & Hu). rewrite <- Hu.
  unfold is_used. rewrite existsb_exists. split.
  - intros (x & Hx & E). unfold range_eqb in E. apply andb_prop in E. destruct E as (E1 & E2).
    apply Nat.eqb_eq in E1, E2. destruct x, c. cbn in *. now subst.
  - intros Hx. exists c. split; auto. unfold range_eqb. now rewrite !Nat.eqb_refl.
Qed.
Lemma unused_iff ds m' out c : filter_diagnostics m ds = (m', out) ->
  (In c (get_unused m') <-> in_effect m c /\ forall d, In d ds -> first_match m d <> Some c).
Proof.
  intros H. rewrite get_unused_entries, filter_In, negb_true_iff.
  assert (E : entries m' = entries m).
  { apply (filter_diag_spec vs m D) in H. destruct H as ((E1 & E2 & E3 & E4 & _) & _). unfold entries. now rewrite E1, E2, E3, E4. }
  rewrite E. assert (In c (map fst (entries m)) <-> in_effect m c) as ->.
  { unfold entries, in_effect. rewrite !map_app, !in_app_iff, !map_map. reflexivity. }
  pose proof (used_iff ds m' out c H) as U. split; intros (Hin & Hu); split; auto.
  - intros d Hd Hf. assert (is_used m' c = true) by (apply U; eauto). congruence.
  - destruct (is_used m' c) eqn:I; auto. destruct (proj1 U eq_refl) as (d & Hd & Hf). exfalso. now apply (Hu d).
Qed.

Lemma entries_priority d : 
  Forall2 (fun e p => fst e = fst p /\ (entry_covers d e = true <-> snd p d)) (entries m) (priority m).
Proof.
  assert (W : forall l, Forall2 (fun (e : range * (rule -> range -> bool)) (p : range * (diag -> Prop)) => fst e = fst p /\ (entry_covers d e = true <-> snd p d))
     (map wide_entry l) (map (fun s => (w_comment s, wide_covers s)) l)).
  { induction l as [|s l IH]; cbn [map]; constructor; auto. split; auto. unfold entry_covers, wide_entry, wide_covers; cbn [snd].
    destruct (from_name (d_rule d)) as [r|] eqn:F.
    - apply from_name_iff in F. rewrite F, rule_eqb_eq. split; [congruence|]. intros H. now apply rule_name_inj in H.
    - rewrite from_name_none in F. split; [discriminate|]. intros H. now apply F in H. }
  assert (R : forall l, Forall2 (fun (e : range * (rule -> range -> bool)) (p : range * (diag -> Prop)) => fst e = fst p /\ (entry_covers d e = true <-> snd p d))
     (map range_entry l) (map (fun s => (s_comment s, range_covers s)) l)).
  { induction l as [|s l IH]; cbn [map]; constructor; auto. split; auto. unfold entry_covers, range_entry, range_covers; cbn [snd].
    destruct (from_name (d_rule d)) as [r|] eqn:F.
    - apply from_name_iff in F. rewrite F, andb_true_iff, rule_eqb_eq, contains_range_iff.
      split; intros (H & H'); split; auto; [congruence|]. now apply rule_name_inj in H.
    - rewrite from_name_none in F. split; [discriminate|]. intros (H & _). now apply F in H. }
  unfold entries, priority. repeat apply Forall2_app; auto.
Qed.
Lemma credited_iff d c : first_match m d = Some c <-> credited m d c.
Proof.
  rewrite first_match_entries. unfold credited. pose proof (entries_priority d) as F.
  remember (entries m) as es eqn:Ee. remember (priority m) as ps eqn:Ep. clear Ee Ep.
  induction F as [|e p es ps (H1 & H2) _ IH]; cbn [find].
  - split; [discriminate|]. intros (l1 & P & l2 & H & _). destruct l1; discriminate.
  - destruct (entry_covers d e) eqn:C; cbn [option_map].
    + split.
      * intros [= <-]. exists [], (snd p), ps. rewrite H1. destruct p; cbn in *. intuition.
      * intros (l1 & P & l2 & H & HP & HF). destruct l1 as [|q l1].
        -- injection H as -> _. now rewrite H1.
        -- injection H as <- _. inversion HF; subst. tauto.
    + rewrite IH. split.
      * intros (l1 & P & l2 & -> & HP & HF). exists (p :: l1), P, l2. split; auto. split; auto. constructor; auto.
        rewrite <- H2. discriminate.
      * intros (l1 & P & l2 & H & HP & HF). destruct l1 as [|q l1].
        -- injection H as -> _. cbn in H2. apply H2 in HP. discriminate.
        -- injection H as <- ->. inversion HF; subst. exists l1, P, l2. auto.
Qed.

Theorem outdated_exact ds m' out c : filter_diagnostics m ds = (m', out) ->
  (In c (get_unused m') <-> in_effect m c /\ forall d, In d ds -> ~ credited m d c).
Proof.
  intros H. rewrite (unused_iff ds m' out c H). split; intros (H1 & H2); split; auto; intros d Hd Hc; apply (H2 d Hd); now apply credited_iff.
Qed.
(** A suppression that covers nothing is reported. *)
Theorem outdated_useless ds m' out c : filter_diagnostics m ds = (m', out) -> in_effect m c ->
  (forall d v, In d ds -> v_range v = c -> ~ covers vs d v) -> In c (get_unused m').
Proof.
  intros H Hc Hn. apply (unused_iff _ _ _ _ H). split; auto. intros d Hd Hf.
  rewrite first_match_entries in Hf. destruct (find (entry_covers d) (entries m)) as [e|] eqn:F; [|discriminate].
  injection Hf as <-. apply find_some in F. destruct F as (Hin & He).
  destruct (entry_sound vs m D _ _ Hin He) as (v & Hv & Hr). now apply (Hn d v Hd).
Qed.
(** The only suppression of some diagnostic is not reported. *)
Theorem outdated_needed ds m' out d v : filter_diagnostics m ds = (m', out) -> In d ds ->
  covers vs d v -> (forall v', covers vs d v' -> v_range v' = v_range v) -> ~ In (v_range v) (get_unused m').
Proof.
  intros H Hd Hv Hu Hin. apply (unused_iff _ _ _ _ H) in Hin. destruct Hin as (_ & Hn). apply (Hn d Hd).
  assert (Hc : covered vs d) by now exists v.
  destruct (first_match m d) as [c|] eqn:F; [|apply (match_none vs m D) in F; tauto].
  f_equal. rewrite first_match_entries in F. destruct (find (entry_covers d) (entries m)) as [e|] eqn:F'; [|discriminate].
  injection F as <-. apply find_some in F'. destruct F' as (Hi & He).
  destruct (entry_sound vs m D _ _ Hi He) as (v' & Hv' & <-). auto.
Qed.
(** Removing everything reported as outdated changes nothing. *)
Lemma range_eqb_eq a b : range_eqb a b = true <-> a = b.
Proof. unfold range_eqb. rewrite andb_true_iff, !Nat.eqb_eq. destruct a, b; cbn. intuition congruence. Qed.
Lemma without_entries cs : entries (without cs m) = filter (fun e => negb (existsb (range_eqb (fst e)) cs)) (entries m).
Proof.
  unfold entries, without; cbn [m_files m_chunks m_regions m_nodes].
  assert (W : forall l, map wide_entry (filter (fun s => negb (existsb (range_eqb (w_comment s)) cs)) l) = filter (fun e : range * (rule -> range -> bool) => negb (existsb (range_eqb (fst e)) cs)) (map wide_entry l)).
  { induction l as [|s l IH]; cbn; auto. destruct (existsb (range_eqb (w_comment s)) cs); cbn; rewrite IH; auto. }
  assert (R : forall l, map range_entry (filter (fun s => negb (existsb (range_eqb (s_comment s)) cs)) l) = filter (fun e : range * (rule -> range -> bool) => negb (existsb (range_eqb (fst e)) cs)) (map range_entry l)).
  { induction l as [|s l IH]; cbn; auto. destruct (existsb (range_eqb (s_comment s)) cs); cbn; rewrite IH; auto. }
  rewrite !filter_app, !W, !R. reflexivity.
Qed.
Lemma find_filter {A} (f g : A -> bool) l : (forall x, find f l = Some x -> g x = true) -> find f (filter g l) = find f l.
Proof.
  induction l as [|a l IH]; cbn; auto. intros H. destruct (f a) eqn:F.
  - rewrite (H a eq_refl). cbn. now rewrite F.
  - destruct (g a); cbn; [rewrite F|]; auto.
Qed.
Theorem outdated_removable ds m' out : filter_diagnostics m ds = (m', out) ->
  snd (filter_diagnostics (without (get_unused m') m) ds) = out.
Proof.
  intros H. set (cs := get_unused m').
  assert (E : forall d, In d ds -> first_match (without cs m) d = first_match m d).
  { intros d Hd. rewrite !first_match_entries, without_entries. f_equal. apply find_filter. intros e He.
    apply negb_true_iff. destruct (existsb (range_eqb (fst e)) cs) eqn:X; auto. exfalso.
    apply existsb_exists in X. destruct X as (c & Hc & Ec). apply range_eqb_eq in Ec. subst c.
    apply (unused_iff _ _ _ _ H) in Hc. destruct Hc as (_ & Hn). apply (Hn d Hd).
    rewrite first_match_entries, He. reflexivity. }
  destruct (filter_diag_spec vs m D _ _ _ H) as (_ & Ho & _).
  unfold filter_diagnostics. change (m_any (without cs m)) with (m_any m). unfold filter_diagnostics in H.
  destruct (m_any m).
  - destruct (filter_loop (without cs m) ds) as [m2 out2] eqn:L. apply filter_loop_spec in L. destruct L as (_ & -> & _).
    cbn [snd]. rewrite Ho. apply filter_ext_in. intros d Hd. now rewrite E.
  - injection H as _ <-. reflexivity.
Qed.

(** ** Regions *)
Theorem regions_exact x : In x (m_regions m) <->
  exists r s e, region vs r s e /\ x = RSup (region_range s e) r (v_range s).
Proof. apply (D_regions _ _ D). Qed.
Lemma opened_iff l r level s : opened l r level s <-> open (r, level) l s.
Proof.
  unfold opened, open. split.
  - intros (l1 & l2 & -> & H & <- & Hn). exists l1, l2. rewrite none_iff. rewrite says_br_start in H. auto.
  - intros (l1 & l2 & -> & H & Hn). pose proof (is_start_level _ _ H) as L. cbn in L. subst level.
    exists l1, l2. rewrite says_br_start. rewrite none_iff in Hn. auto.
Qed.
Theorem unmatched_start_exact c : In c (m_unmatched_start m) <->
  exists r level s, opened vs r level s /\ v_range s = c.
Proof.
  rewrite (D_unstart _ _ D). split.
  - intros ((r & lv) & s & Ho & <-). exists r, lv, s. rewrite opened_iff. auto.
  - intros (r & lv & s & Ho & <-). exists (r, lv), s. rewrite <- opened_iff. auto.
Qed.
Theorem unmatched_end_exact c : In c (m_unmatched_end m) <->
  exists r e l1 l2, vs = l1 ++ e :: l2 /\ says e KEnd r /\ v_range e = c /\ forall s, ~ opened l1 r (v_level e) s.
Proof.
  rewrite (D_unend _ _ D). split.
  - intros ((r & lv) & e & (l1 & l2 & E & He & Hn) & <-). pose proof (is_end_level _ _ He) as L. cbn in L. subst lv.
    exists r, e, l1, l2. rewrite says_br_end. split; auto. split; auto. split; auto. intros s. rewrite opened_iff. auto.
  - intros (r & e & l1 & l2 & E & He & <- & Hn). exists (r, v_level e), e. split; auto. exists l1, l2.
    rewrite <- says_br_end. split; auto. split; auto. intros s. rewrite <- opened_iff. auto.
Qed.
Theorem regions_oriented r s e : region vs r s e -> fst (region_range s e) <= snd (region_range s e).
Proof. apply (D_le _ _ D). Qed.

(** ** Every directive is accounted for *)
Lemma br_dec k v : {is_br k v} + {~ is_br k v}.
Proof.
  unfold is_br, is_start, is_end. destruct (o_br v) as [[b k']|].
  - destruct (key_dec k' k) as [->|N].
    + left. destruct b; auto.
    + right. intros [H|H]; congruence.
  - right. intros [H|H]; congruence.
Qed.
Lemma first_br k l : none_of k l \/ exists l1 v l2, l = l1 ++ v :: l2 /\ none_of k l1 /\ is_br k v.
Proof.
  induction l as [|v l IH]; [left; constructor|]. destruct (br_dec k v) as [B|B].
  - right. exists [], v, l. split; auto. split; auto. constructor.
  - destruct IH as [IH|(l1 & w & l2 & -> & H1 & H2)].
    + left. constructor; auto.
    + right. exists (v :: l1), w, l2. split; auto. split; auto. constructor; auto.
Qed.
Lemma open_dec k l : (exists s, open k l s) \/ (forall s, ~ open k l s).
Proof.
  induction l as [|v l IH] using rev_ind.
  - right. intros s (l1 & l2 & H & _). destruct l1; discriminate.
  - destruct (br_dec k v) as [B|B].
    + unfold is_br, is_start, is_end in B. destruct (o_br v) as [[[] k']|] eqn:O.
      * destruct (key_dec k' k) as [->|N].
        -- left. exists v. apply open_snoc. left. auto.
        -- exfalso. destruct B; congruence.
      * right. intros s H. apply open_snoc in H. destruct H as [(_ & H)|(_ & H)]; [unfold is_start in H; congruence|].
        apply H. right. unfold is_end. destruct B; congruence.
      * exfalso. destruct B; congruence.
    + destruct IH as [IH|IH].
      * left. destruct IH as (s & Hs'). exists s. apply open_snoc. auto.
      * right. intros s H. apply open_snoc in H. destruct H as [(_ & H)|(H & _)]; [apply B; now left|now apply IH in H].
Qed.

Theorem accounted v : In v vs -> directive_comment v -> ~ overwritten vs v ->
  reported m (v_range v) \/ in_effect m (v_range v) \/ closes vs v \/ heads_items v.
Proof.
  intros Hv Hd Hno. unfold directive_comment in Hd. destruct (v_role v) as [top| |full|] eqn:R.
  - destruct Hd as (p & P). destruct p as [[kd r]| | |].
    + assert (Hsay : says v kd r) by (split; eauto). destruct kd.
      * right. left. unfold in_effect. rewrite (D_nodes _ _ D). right. right. right. apply in_map_iff.
        exists (RSup (v_node v) r (v_range v)). split; auto. apply in_o_node. eauto.
      * left. unfold reported. rewrite (D_invalid _ _ D). right. left. apply in_flat_map. exists v. split; auto.
        unfold o_invalid_chunk, vparse. rewrite R, P. now left.
      * destruct top.
        -- right. left. unfold in_effect. rewrite (D_files _ _ D). left. apply in_map_iff.
           exists (Wide r (v_range v)). split; auto. apply in_o_file. eauto 8.
        -- left. unfold reported. rewrite (D_mfile _ _ D). do 5 right. left. apply in_flat_map. exists v. split; auto.
           unfold o_misplaced_file, vparse. rewrite R, P. now left.
      * destruct (in_split _ _ Hv) as (l1 & l2 & E). destruct (first_br (r, v_level v) l2) as [N|(l3 & w & l4 & -> & N & B)].
        -- left. unfold reported. do 2 right. left. apply unmatched_start_exact. exists r, (v_level v), v. split; auto.
           exists l1, l2. rewrite <- none_iff. auto.
        -- destruct B as [B|B].
           ++ exfalso. apply Hno. exists r, l1, l3, w, l4. pose proof (is_start_level _ _ B) as L. cbn in L.
              rewrite <- none_iff. rewrite says_br_start, <- says_br_start, (says_br_start w), <- L. auto.
           ++ right. left. unfold in_effect. right. right. left. apply in_map_iff.
              exists (RSup (region_range v w) r (v_range v)). split; auto. apply regions_exact.
              exists r, v, w. split; auto. apply region_iff. exists l1, l3, l4. rewrite <- says_br_start. auto.
      * destruct (in_split _ _ Hv) as (l1 & l2 & E). destruct (open_dec (r, v_level v) l1) as [(s & l3 & l4 & -> & H1 & H2)|N].
        -- right. right. left. exists r, s. pose proof (is_start_level _ _ H1) as L. cbn in L. apply region_iff.
           exists l3, l4, l2. rewrite <- app_assoc in E. rewrite <- L. rewrite <- says_br_end. auto.
        -- left. unfold reported. do 3 right. left. apply unmatched_end_exact. exists r, v, l1, l2. split; auto.
           split; auto. split; auto. intros s. now rewrite opened_iff.
    + left. unfold reported. rewrite (D_blanket _ _ D). left. apply in_flat_map. exists v. split; auto.
      unfold o_blanket, vparse. rewrite R, P. now left.
    + left. unfold reported. rewrite (D_unexplained _ _ D). do 4 right. left. apply in_flat_map. exists v. split; auto.
      unfold o_unexplained, vparse. rewrite R, P. now left.
    + left. unfold reported. rewrite (D_misnamed _ _ D). do 7 right. apply in_flat_map. exists v. split; auto.
      unfold o_misnamed, vparse. rewrite R, P. now left.
  - destruct Hd as (p & P). left. unfold reported. rewrite (D_misplaced _ _ D). do 6 right. left. apply in_flat_map.
    exists v. split; auto. unfold o_misplaced, vparse. rewrite R, P. now left.
  - destruct full; [right; right; right; exact R|]. left. unfold reported. rewrite (D_blanket _ _ D). left. apply in_flat_map.
    exists v. split; auto. unfold o_blanket. rewrite R. now left.
  - destruct (parse_array_item (c_text (v_comment v))) as [p|] eqn:P.
    + destruct (item_results _ _ P) as [E|[E|(r & E)]]; subst p.
      * left. unfold reported. rewrite (D_unexplained _ _ D). do 4 right. left. apply in_flat_map. exists v. split; auto.
        unfold o_unexplained, vitem. rewrite R, P. now left.
      * left. unfold reported. rewrite (D_misnamed _ _ D). do 7 right. apply in_flat_map. exists v. split; auto.
        unfold o_misnamed, vitem. rewrite R, P. now left.
      * right. left. unfold in_effect. rewrite (D_chunks _ _ D). right. left. apply in_map_iff.
        exists (Wide r (v_range v)). split; auto. apply in_o_chunk. eauto 8.
    + exfalso.
      assert (A : forall src n top level v, In v (visits src n top level) -> v_role v = Item -> is_item (v_comment v) = true).
      { clear. intros src n. induction n as [r b l t d ch IH] using node_rect'. intros top level v H Hr. rewrite visits_eq in H.
        apply in_app_or in H. destruct H as [H|H].
        - apply in_map_iff in H. destruct H as ((c & ro) & <- & H). cbn in Hr |- *. subst ro.
          apply in_app_or in H. destruct H as [H|H].
          + revert H. generalize false. induction l as [|c0 l IHl]; cbn; [tauto|]. intros ia.
            destruct (ia && is_item c0) eqn:E.
            * intros [[= <-]|H]; eauto. apply andb_prop in E. tauto.
            * destruct (is_array_header (c_text c0)); intros [[=]|H]; eauto.
          + apply in_app_or in H. destruct H as [H|H]; apply in_map_iff in H; destruct H as (c' & [= _ H] & _); try destruct (end_of_line src c'); discriminate.
        - revert top H. induction ch as [|c ch IHc]; cbn [visits_list]; intros top H; [destruct H|].
          inversion IH; subst. apply in_app_or in H. destruct H as [H|H]; eauto. }
      specialize (A _ _ _ _ _ Hv R). unfold is_item in A. rewrite P in A. discriminate.
Qed.
End Main.
