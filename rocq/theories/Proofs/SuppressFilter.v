From Verif Require Import Model.Text Model.Base Model.Rules Model.Directive Model.Driver Model.Suppress
  Spec.DirectiveSpec Spec.SuppressSpec Proofs.TextProofs Proofs.RulesProofs Proofs.DirectiveProofs Proofs.SuppressProofs.

Lemma use_match c m d : first_match (use c m) d = first_match m d.
Proof. reflexivity. Qed.
Definition is_none {A} (x : option A) := match x with None => true | Some _ => false end.
(** All fields but the used comments. *)
Definition same (m m' : manager) : Prop :=
  m_regions m' = m_regions m /\ m_files m' = m_files m /\ m_chunks m' = m_chunks m /\
  m_nodes m' = m_nodes m /\ m_any m' = m_any m.
Lemma same_match m m' d : same m m' -> first_match m' d = first_match m d.
Proof. intros (H1 & H2 & H3 & H4 & _). unfold first_match. now rewrite H1, H2, H3, H4. Qed.
Lemma filter_loop_spec ds : forall m m' out, filter_loop m ds = (m', out) ->
  same m m' /\ out = filter (fun d => is_none (first_match m d)) ds /\
  forall c, In c (m_used m') <-> In c (m_used m) \/ exists d, In d ds /\ first_match m d = Some c.
Proof.
  induction ds as [|d ds IH]; intros m m' out H; cbn [filter_loop filter] in *.
  - injection H as <- <-. split; [unfold same; auto 6|]. split; auto. intros c. split; auto. intros [H|(x & [] & _)]; auto.
  - destruct (first_match m d) as [c0|] eqn:F.
    + apply IH in H. destruct H as (S1 & -> & Hu). split; [exact S1|]. split; [reflexivity|].
      intros c. rewrite Hu. cbn [use m_used In]. split.
      * intros [[<-|H]|(x & Hx & Hm)]; eauto.
      * intros [H|(x & [<-|Hx] & Hm)]; eauto. left. left. congruence.
    + destruct (filter_loop m ds) as [m1 out1] eqn:L. injection H as <- <-. apply IH in L.
      destruct L as (S1 & -> & Hu). split; [exact S1|]. split; [reflexivity|]. intros c. rewrite Hu. cbn [In]. split.
      * intros [H|(x & Hx & Hm)]; eauto.
      * intros [H|(x & [<-|Hx] & Hm)]; eauto. congruence.
Qed.

Lemma find_none_iff {A} (f : A -> bool) l : find f l = None <-> forall x, In x l -> f x = false.
Proof.
  split; [apply find_none|]. induction l as [|a l IH]; cbn; auto. intros H.
  rewrite (H a) by auto. apply IH. auto.
Qed.

Lemma contains_range_iff a b : contains_range a b = true <-> inside b a.
Proof. unfold contains_range, inside. rewrite andb_true_iff, !Nat.leb_le. tauto. Qed.

(** Suppressions in the order in which they are tried. *)
Definition wide_entry (s : wide_sup) := (w_comment s, fun (r : rule) (d : range) => rule_eqb (w_rule s) r).
Definition range_entry (s : range_sup) := (s_comment s, fun (r : rule) (d : range) => rule_eqb (s_rule s) r && contains_range (s_range s) d).
Definition entries (m : manager) : list (range * (rule -> range -> bool)) :=
  map wide_entry (m_files m) ++ map wide_entry (m_chunks m) ++ map range_entry (m_regions m) ++ map range_entry (m_nodes m).
Definition entry_covers (d : diag) (e : range * (rule -> range -> bool)) : bool :=
  match from_name (d_rule d) with Some r => snd e r (d_range d) | None => false end.

Lemma find_app_l {A} (f : A -> bool) a b : find f (a ++ b) = match find f a with Some x => Some x | None => find f b end.
Proof. induction a as [|x a IH]; cbn; auto. destruct (f x); auto. Qed.
Lemma find_map_l {A B} (g : A -> B) (f : B -> bool) a : find f (map g a) = option_map g (find (fun x => f (g x)) a).
Proof. induction a as [|x a IH]; cbn; auto. destruct (f (g x)); auto. Qed.

Lemma first_match_entries m d : first_match m d = option_map fst (find (entry_covers d) (entries m)).
Proof.
  unfold first_match, entry_covers, entries. destruct (from_name (d_rule d)) as [r|].
  - rewrite !find_app_l, !find_map_l. cbn [wide_entry range_entry snd].
    destruct (find _ (m_files m)); [reflexivity|]. cbn [option_map].
    destruct (find _ (m_chunks m)); [reflexivity|]. cbn [option_map].
    destruct (find _ (m_regions m)); [reflexivity|]. cbn [option_map].
    destruct (find _ (m_nodes m)); reflexivity.
  - rewrite (proj2 (find_none_iff _ _)); auto.
Qed.
Lemma get_unused_entries m : get_unused m = filter (fun c => negb (is_used m c)) (map fst (entries m)).
Proof. unfold get_unused, entries. rewrite !map_app, !map_map. reflexivity. Qed.

(** An entry of the manager comes from a visit, and covers what that visit covers. *)
Section Desc.
Variables (vs : list visit) (m : manager).
Hypothesis D : describes vs m.

Lemma in_o_file x : In x (flat_map o_file vs) <-> exists v r, In v vs /\ v_role v = Plain true /\ says v KFile r /\ x = Wide r (v_range v).
Proof.
  rewrite in_flat_map. split.
  - intros (v & Hv & Hx). unfold o_file in Hx. destruct (v_role v) as [[]| | |] eqn:R; try easy.
    unfold vparse in Hx. destruct (parse_comment_directive _) as [[[[] r]| | |]|] eqn:P; try easy. destruct Hx as [<-|[]].
    exists v, r. unfold says. eauto 7.
  - intros (v & r & Hv & R & (_ & P) & ->). exists v. split; auto. unfold o_file, vparse. rewrite R, P. now left.
Qed.
Lemma in_o_chunk x : In x (flat_map o_chunk vs) <-> exists v r, In v vs /\ v_role v = Item /\
  parse_array_item (c_text (v_comment v)) = Some (PValid (Dir KChunk r)) /\ x = Wide r (v_range v).
Proof.
  rewrite in_flat_map. split.
  - intros (v & Hv & Hx). unfold o_chunk, vitem in Hx. destruct (v_role v) as [[]| | |] eqn:R; try easy.
    destruct (parse_array_item _) as [[[kd r]| | |]|] eqn:P; try easy. destruct Hx as [<-|[]].
    destruct (item_results _ _ P) as [E|[E|(r' & E)]]; try discriminate. injection E as -> ->. exists v, r'. auto.
  - intros (v & r & Hv & R & P & ->). exists v. split; auto. unfold o_chunk, vitem. rewrite R, P. now left.
Qed.
Lemma in_o_node x : In x (flat_map o_node vs) <-> exists v r, In v vs /\ says v KIgnore r /\ x = RSup (v_node v) r (v_range v).
Proof.
  rewrite in_flat_map. split.
  - intros (v & Hv & Hx). unfold o_node, vparse in Hx. destruct (v_role v) as [top| | |] eqn:R; try easy.
    destruct (parse_comment_directive _) as [[[[] r]| | |]|] eqn:P; try easy. destruct Hx as [<-|[]].
    exists v, r. unfold says. eauto 7.
  - intros (v & r & Hv & ((top & R) & P) & ->). exists v. split; auto. unfold o_node, vparse. rewrite R, P. now left.
Qed.

Lemma entry_sound d e : In e (entries m) -> entry_covers d e = true -> exists v, covers vs d v /\ v_range v = fst e.
Proof.
  unfold entry_covers. destruct (from_name (d_rule d)) as [r|] eqn:F; [|discriminate]. apply from_name_iff in F.
  unfold entries. rewrite !in_app_iff. rewrite (D_files _ _ D), (D_chunks _ _ D), (D_nodes _ _ D). rewrite !in_map_iff.
  intros [(x & <- & Hx)|[(x & <- & Hx)|[(x & <- & Hx)|(x & <- & Hx)]]] H.
  - apply in_o_file in Hx. destruct Hx as (v & r' & Hv & R & Hs & ->). cbn in H. apply rule_eqb_eq in H. subst r'.
    exists v. split; auto. eapply by_file; eauto.
  - apply in_o_chunk in Hx. destruct Hx as (v & r' & Hv & R & Hs & ->). cbn in H. apply rule_eqb_eq in H. subst r'.
    exists v. split; auto. eapply by_chunk; eauto.
  - apply (D_regions _ _ D) in Hx. destruct Hx as (r' & s & e & Hr & ->). cbn in H. apply andb_prop in H. destruct H as (H & Hc).
    apply rule_eqb_eq in H. subst r'. apply contains_range_iff in Hc. exists s. split; auto. eapply by_region; eauto.
  - apply in_o_node in Hx. destruct Hx as (v & r' & Hv & Hs & ->). cbn in H. apply andb_prop in H. destruct H as (H & Hc).
    apply rule_eqb_eq in H. subst r'. apply contains_range_iff in Hc. exists v. split; auto. eapply by_node; eauto.
Qed.
Lemma entry_complete d v : covers vs d v -> exists e, In e (entries m) /\ entry_covers d e = true /\ fst e = v_range v.
Proof.
  unfold entries, entry_covers. rewrite (D_files _ _ D), (D_chunks _ _ D), (D_nodes _ _ D).
  intros [v0 r Hv Hd R Hs|v0 r Hv Hd R P|s e r Hd Hr Hi|v0 r Hv Hd Hs Hi]; apply from_name_iff in Hd; rewrite Hd.
  - exists (wide_entry (Wide r (v_range v0))). rewrite in_app_iff. split; [left|]; [apply in_map, in_o_file; eauto 8|].
    cbn. split; auto. now apply rule_eqb_eq.
  - exists (wide_entry (Wide r (v_range v0))). rewrite !in_app_iff. split; [right; left|]; [apply in_map, in_o_chunk; eauto 8|].
    cbn. split; auto. now apply rule_eqb_eq.
  - exists (range_entry (RSup (region_range s e) r (v_range s))). rewrite !in_app_iff.
    split; [right; right; left|]; [apply in_map, (D_regions _ _ D); eauto 8|].
    cbn. split; auto. apply andb_true_iff. split; [now apply rule_eqb_eq|]. now apply contains_range_iff.
  - exists (range_entry (RSup (v_node v0) r (v_range v0))). rewrite !in_app_iff.
    split; [right; right; right|]; [apply in_map, in_o_node; eauto 8|].
    cbn. split; auto. apply andb_true_iff. split; [now apply rule_eqb_eq|]. now apply contains_range_iff.
Qed.
Lemma match_none d : first_match m d = None <-> ~ covered vs d.
Proof.
  rewrite first_match_entries. split.
  - intros H (v & Hv). apply entry_complete in Hv. destruct Hv as (e & Hin & He & _).
    destruct (find (entry_covers d) (entries m)) eqn:F; [discriminate|].
    rewrite (find_none _ _ F e Hin) in He. discriminate.
  - intros H. destruct (find (entry_covers d) (entries m)) as [e|] eqn:F; auto. exfalso. apply H.
    apply find_some in F. destruct F as (Hin & He). destruct (entry_sound _ _ Hin He) as (v & Hv & _). now exists v.
Qed.
Lemma not_any d : m_any m = false -> first_match m d = None.
Proof.
  intros H. apply (D_any _ _ D) in H. apply match_none. intros (v & Hv).
  assert (E : exists v, In v vs /\ o_valid v = true).
  { destruct Hv as [v r Hv _ R (_ & P)|v r Hv _ R P|s e r _ (l1 & l2 & l3 & -> & ((top & R) & P) & _) _|v r Hv _ ((top & R) & P) _].
    - exists v. split; auto. unfold o_valid, vparse. now rewrite R, P.
    - exists v. split; auto. unfold o_valid, vitem. now rewrite R, P.
    - exists s. split; [apply in_or_app; right; now left|]. unfold o_valid, vparse. now rewrite R, P.
    - exists v. split; auto. unfold o_valid, vparse. now rewrite R, P. }
  destruct E as (w & Hw & Ho). assert (existsb o_valid vs = true) by (apply existsb_exists; eauto). congruence.
Qed.

Lemma filter_all {A} (f : A -> bool) l : (forall x, In x l -> f x = true) -> filter f l = l.
Proof. induction l as [|a l IH]; cbn; auto. intros H. rewrite (H a) by auto. f_equal. apply IH. auto. Qed.

Lemma filter_diag_spec ds m' out : filter_diagnostics m ds = (m', out) ->
  same m m' /\ out = filter (fun d => is_none (first_match m d)) ds /\
  forall c, In c (m_used m') <-> exists d, In d ds /\ first_match m d = Some c.
Proof.
  unfold filter_diagnostics. destruct (m_any m) eqn:A; intros H.
  - apply filter_loop_spec in H. destruct H as (S1 & Ho & Hu). split; auto. split; auto. intros c. rewrite Hu.
    rewrite (D_used _ _ D). cbn. tauto.
  - injection H as <- <-. split; [unfold same; auto 6|]. split.
    + symmetry. apply filter_all. intros d _. now rewrite not_any.
    + intros c. rewrite (D_used _ _ D). cbn. split; [tauto|]. intros (d & _ & H). rewrite not_any in H by auto. discriminate.
Qed.
End Desc.
