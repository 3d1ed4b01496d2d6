(** Synchronisation. *)
From Verif Require Import Model.Text Model.Base Model.SuppressEdit Model.Lsp Spec.LspSpec
  Proofs.TextProofs Proofs.SplitProofs Proofs.LspProofs.

Lemma app_blen_inj (a b a' b' : text) : a ++ b = a' ++ b' -> blen a = blen a' -> a = a' /\ b = b'.
Proof.
  intros E L. pose proof (bsplit_app a b) as H1. rewrite E, L, bsplit_app in H1. injection H1 as -> ->. auto.
Qed.
Lemma breplace_exact (a m b new : text) s e : s = blen a -> e = blen (a ++ m) ->
  breplace s e new (a ++ m ++ b) = Some (a ++ new ++ b).
Proof.
  intros -> ->. apply breplace_iff. exists a, m, b. rewrite blen_app. auto.
Qed.
Lemma replace_one (a m b new : text) r s e : s = blen a -> e = blen (a ++ m) ->
  replace_all ((s, e, new) :: r) (a ++ m ++ b) = replace_all r (a ++ new ++ b).
Proof.
  intros -> ->. cbn [replace_all]. rewrite !blen_app.
  replace (blen a + (blen m + blen b) <? blen a) with false by (symmetry; apply Nat.ltb_ge; lia).
  replace (blen a + (blen m + blen b) <? blen a + blen m) with false by (symmetry; apply Nat.ltb_ge; lia).
  replace (blen a + blen m <? blen a) with false by (symmetry; apply Nat.ltb_ge; lia). cbn [orb].
  rewrite breplace_exact; auto. rewrite blen_app. reflexivity.
Qed.
(** The prefixes denoted by a position are comparable by length. *)
Lemma denotes_prefix enc t pre p : denotes enc t pre p -> exists r, t = pre ++ r.
Proof. intros [H|(q & H & _)]; destruct H as (a & l & r & -> & _); eauto. Qed.

(** One change. *)
Lemma one_change (t : text) v v' enc c t' : enc <> UTF8 -> cg_range c <> None ->
  (apply_changes (new_doc t v) [c] v' enc = (new_doc t' v', SOk) <-> change_result enc t c t').
Proof.
  intros He Hr. destruct c as [[(s, e)|] new]; [|easy]. clear Hr. unfold apply_changes, change_result. cbn [resolve_changes cg_range cg_text].
  split.
  - destruct (position_to_offset (new_doc t v) s enc) as [so| |] eqn:S; cbn [rbind]; try discriminate.
    destruct (position_to_offset (new_doc t v) e enc) as [eo| |] eqn:E; cbn [rbind]; try discriminate.
    destruct (position_to_offset_sound _ _ _ _ _ He S) as (a & <- & Da). destruct (position_to_offset_sound _ _ _ _ _ He E) as (x & <- & Dx).
    cbn [sort_desc fold_right insert_desc replace_all new_doc dc_content].
    destruct (_ || _); [discriminate|]. destruct (blen x <? blen a) eqn:L; [discriminate|]. apply Nat.ltb_ge in L.
    destruct (breplace (blen a) (blen x) new t) as [t0|] eqn:B; [|discriminate]. intros [= <-].
    apply breplace_iff in B. destruct B as (a' & m & b & -> & Ea & Em & ->).
    destruct (denotes_prefix _ _ _ _ Da) as (r & R). destruct (denotes_prefix _ _ _ _ Dx) as (r' & R').
    assert (a = a' /\ r = m ++ b) as (<- & ->) by (eapply app_blen_inj; eauto).
    assert (x = a ++ m).
    { rewrite app_assoc in R'. eapply app_blen_inj in R'; [|rewrite blen_app; lia]. destruct R' as (R' & _). auto. }
    subst x. exists a, m, b. auto.
  - intros (a & m & b & -> & Da & Dx & ->).
    rewrite (position_to_offset_past _ _ _ _ _ He Da). rewrite (position_to_offset_past _ _ _ _ _ He Dx). cbn [rbind].
    cbn [sort_desc fold_right insert_desc new_doc dc_content]. rewrite replace_one by auto. reflexivity.
Qed.

(** Rejected changes. *)
Lemma rejected_resolve (d : doc) cs v enc st : resolve_changes d enc cs = RErr -> apply_changes d cs v enc = (d, st) -> st = SErr.
Proof. unfold apply_changes. intros ->. congruence. Qed.
Lemma one_change_rejected (t : text) v v' enc c d' st : enc <> UTF8 ->
  apply_changes (new_doc t v) [c] v' enc = (d', st) -> st <> SOk -> d' = new_doc t v /\ st = SErr.
Proof.
  intros He H N. destruct c as [[(s, e)|] new]; unfold apply_changes in H; cbn [resolve_changes cg_range cg_text] in H.
  2:{ injection H as <- <-. auto. }
  destruct (position_to_offset (new_doc t v) s enc) as [so| |] eqn:S; cbn [rbind] in H.
  2:{ injection H as <- <-. auto. } 2:{ now apply position_to_offset_no_panic in S. }
  destruct (position_to_offset (new_doc t v) e enc) as [eo| |] eqn:E; cbn [rbind] in H.
  2:{ injection H as <- <-. auto. } 2:{ now apply position_to_offset_no_panic in E. }
  destruct (position_to_offset_sound _ _ _ _ _ He S) as (a & <- & Da). destruct (position_to_offset_sound _ _ _ _ _ He E) as (x & <- & Dx).
  cbn [sort_desc fold_right insert_desc replace_all new_doc dc_content] in H.
  destruct (_ || _); [injection H as <- <-; auto|]. destruct (blen x <? blen a) eqn:L; [injection H as <- <-; auto|]. apply Nat.ltb_ge in L.
  destruct (denotes_prefix _ _ _ _ Da) as (r & R). destruct (denotes_prefix _ _ _ _ Dx) as (r' & R'). exfalso.
  rewrite R in R'. assert (exists m, x = a ++ m) as (m & ->).
  { destruct (prefixes_comparable _ _ _ _ R') as [X|(z & ->)]; auto. rewrite blen_app in L.
    assert (z = []) as -> by (apply blen_0; lia). exists []. now rewrite !app_nil_r. }
  rewrite <- app_assoc in R'. apply app_inv_head in R'. subst r t.
  rewrite breplace_exact in H by auto. injection H as <- <-. congruence.
Qed.

(** Several changes, the last part of the text first. *)
Lemma resolve_app d enc a b la lb : resolve_changes d enc a = ROk la -> resolve_changes d enc b = ROk lb ->
  resolve_changes d enc (a ++ b) = ROk (la ++ lb).
Proof.
  revert la. induction a as [|c a IH]; intros la Ha Hb; cbn in *.
  - injection Ha as <-. auto.
  - destruct (cg_range c) as [(s, e)|]; [|discriminate].
    destruct (position_to_offset d s enc); cbn in *; try discriminate. destruct (position_to_offset d e enc); cbn in *; try discriminate.
    destruct (resolve_changes d enc a) as [l| |]; cbn in *; try discriminate. injection Ha as <-. rewrite (IH _ eq_refl Hb). reflexivity.
Qed.
Fixpoint offsets (pre : text) (l : list segment) : list (nat * nat * text) :=
  match l with [] => [] | (g, m, n) :: r => (blen (pre ++ g), blen (pre ++ g ++ m), n) :: offsets (pre ++ g ++ m) r end.
Lemma resolve_ranged enc t v pre l cs : ranged enc t pre l cs -> resolve_changes (new_doc t v) enc (rev cs) = ROk (rev (offsets pre l)).
Proof.
  induction 1 as [|pre g m n r s e cs Hs He H IH]; auto. cbn [rev offsets]. apply resolve_app; auto.
  cbn [resolve_changes cg_range cg_text]. rewrite (position_to_offset_ok _ _ _ _ _ Hs), (position_to_offset_ok _ _ _ _ _ He). reflexivity.
Qed.
Lemma sort_desc_id l : (forall a x b y c, l = a ++ x :: b ++ y :: c -> fst (fst y) <= fst (fst x)) -> sort_desc l = l.
Proof.
  induction l as [|x l IH]; intros H; auto. cbn [sort_desc fold_right]. fold (sort_desc l). rewrite IH.
  - destruct l as [|y l]; auto. cbn. replace (fst (fst y) <=? fst (fst x)) with true; auto. symmetry. apply Nat.leb_le. apply (H [] x [] y l). reflexivity.
  - intros a x0 b y c E. apply (H (x :: a) x0 b y c). now rewrite E.
Qed.
Lemma offsets_above pre l x : In x (offsets pre l) -> blen pre <= fst (fst x).
Proof.
  revert pre. induction l as [|[[g m] n] r IH]; intros pre; cbn; [intros []|]. intros [ <- |H].
  - cbn. rewrite blen_app. lia.
  - apply IH in H. rewrite blen_app in H. lia.
Qed.
Lemma offsets_desc pre l : sort_desc (rev (offsets pre l)) = rev (offsets pre l).
Proof.
  apply sort_desc_id. revert pre. induction l as [|[[g m] n] r IH]; intros pre a x b y c E; cbn [offsets rev] in E.
  - now destruct a.
  - destruct c as [|z c _] using rev_ind.
    + assert (E' : rev (offsets (pre ++ g ++ m) r) ++ [(blen (pre ++ g), blen (pre ++ g ++ m), n)] = (a ++ x :: b) ++ [y]) by (rewrite E, <- app_assoc; reflexivity).
      apply app_inj_tail in E'. destruct E' as (E1 & <-). cbn [fst].
      assert (H : In x (offsets (pre ++ g ++ m) r)) by (apply in_rev; rewrite E1; apply in_or_app; right; now left).
      apply offsets_above in H. rewrite !blen_app in *. lia.
    + assert (E' : rev (offsets (pre ++ g ++ m) r) ++ [(blen (pre ++ g), blen (pre ++ g ++ m), n)] = (a ++ x :: b ++ y :: c) ++ [z]).
      { rewrite E, <- app_assoc. cbn. rewrite <- app_assoc. reflexivity. }
      apply app_inj_tail in E'. destruct E' as (E1 & _). eapply IH; eauto.
Qed.
Lemma replace_all_app l l' t t' : replace_all l t = (t', SOk) -> replace_all (l ++ l') t = replace_all l' t'.
Proof.
  revert t. induction l as [|[[s e] n] l IH]; intros t H; cbn [replace_all app] in *.
  - congruence.
  - destruct (_ || _); [discriminate|]. destruct (_ <? _); [discriminate|]. destruct (breplace _ _ _ _); [|discriminate]. auto.
Qed.
Lemma replace_ranged pre l tail : replace_all (rev (offsets pre l)) (pre ++ text_before l tail) = (pre ++ text_after l tail, SOk).
Proof.
  revert pre. induction l as [|[[g m] n] r IH]; intros pre; cbn [offsets rev text_before text_after]; auto.
  specialize (IH (pre ++ g ++ m)). erewrite replace_all_app.
  2:{ rewrite !app_assoc in *. exact IH. }
  replace (((pre ++ g) ++ m) ++ text_after r tail) with ((pre ++ g) ++ m ++ text_after r tail) by (rewrite !app_assoc; reflexivity).
  rewrite replace_one; [|reflexivity|now rewrite !app_assoc]. cbn. now rewrite !app_assoc.
Qed.
Lemma changes_result_app enc t a t1 b t2 : changes_result enc t a t1 -> changes_result enc t1 b t2 -> changes_result enc t (a ++ b) t2.
Proof. induction 1; cbn; auto. intros. econstructor; eauto. Qed.
Lemma after_prefix_local enc pre r r' p : after_prefix enc (pre ++ r) pre p -> after_prefix enc (pre ++ r') pre p.
Proof. intros (a & l & rest & E & -> & Ha & Hl & ->). exists a, l, r'. auto. Qed.
Lemma serial_ranged enc pre l tail cs : ranged enc (pre ++ text_before l tail) pre l cs ->
  changes_result enc (pre ++ text_before l tail) (rev cs) (pre ++ text_after l tail).
Proof.
  revert pre cs. induction l as [|[[g m] n] r IH]; intros pre cs H; inversion H as [|pre' g' m' n' r' s e cs' Hs He H' E1 E2 E3]; subst; cbn [rev text_before text_after].
  - constructor.
  - eapply changes_result_app.
    + cbn [text_before] in H'. rewrite !app_assoc in *. apply (IH _ _ H').
    + econstructor; [|constructor]. cbn [change_result cg_range cg_text]. exists (pre ++ g), m, (text_after r tail).
      split; [now rewrite !app_assoc|]. split; [|split].
      * left. cbn [text_before] in Hs. rewrite <- !app_assoc. rewrite !app_assoc in Hs.
        replace (((pre ++ g) ++ m) ++ text_before r tail) with ((pre ++ g) ++ m ++ text_before r tail) in Hs by (rewrite !app_assoc; reflexivity).
        rewrite !app_assoc. replace (((pre ++ g) ++ m) ++ text_after r tail) with ((pre ++ g) ++ m ++ text_after r tail) by (rewrite !app_assoc; reflexivity).
        eapply after_prefix_local; exact Hs.
      * left. cbn [text_before] in He. rewrite !app_assoc in *. eapply after_prefix_local; exact He.
      * now rewrite !app_assoc.
Qed.
Lemma backward_changes enc t v v' l tail cs : t = text_before l tail -> ranged enc t [] l cs ->
  apply_changes (new_doc t v) (rev cs) v' enc = (new_doc (text_after l tail) v', SOk) /\
  changes_result enc t (rev cs) (text_after l tail).
Proof.
  intros -> H. split.
  - unfold apply_changes. rewrite (resolve_ranged _ _ _ _ _ _ H), offsets_desc. cbn [new_doc dc_content].
    pose proof (replace_ranged [] l tail) as E. cbn [app] in E. rewrite E. reflexivity.
  - apply (serial_ranged enc [] l tail cs H).
Qed.
(** A change without a range is refused. *)
Lemma full_change (d : doc) new v enc : apply_changes d [Change None new] v enc = (d, SErr).
Proof. reflexivity. Qed.

(** ** Sessions *)
Lemma concerns_dec u e : concerns u e \/ ~ concerns u e.
Proof. destruct e as [x ? ?|x ? ?|x|x]; cbn; destruct (teqb x u) eqn:E; [left; now apply teqb_eq|right; intros H; apply teqb_eq in H; congruence| | | | | |]; try (left; now apply teqb_eq); right; intros H; apply teqb_eq in H; congruence. Qed.
Lemma teqb_refl u : teqb u u = true.
Proof. now apply teqb_eq. Qed.
Lemma teqb_neq a b : a <> b -> teqb a b = false.
Proof. intros N. destruct (teqb a b) eqn:E; auto. apply teqb_eq in E. congruence. Qed.
Lemma set_same s u d : set_doc s u d u = d.
Proof. unfold set_doc. now rewrite teqb_refl. Qed.
Lemma set_other s u d x : x <> u -> set_doc s u d x = s x.
Proof. intros N. unfold set_doc. now rewrite teqb_neq. Qed.
Lemma handle_other enc s e u : ~ concerns u e -> fst (handle enc s e) u = s u.
Proof.
  destruct e as [x t v|x cs v|x|x]; cbn; intros N.
  - apply set_other. congruence.
  - destruct (s x); auto. destruct (apply_changes _ _ _ _). apply set_other. congruence.
  - destruct (s x); auto. apply set_other. congruence.
  - auto.
Qed.
Lemma run_other enc es : forall s u, (forall e, In e es -> ~ concerns u e) -> run_events enc s es u = s u.
Proof.
  induction es as [|e es IH]; intros s u H; auto. cbn. rewrite IH by (intros; apply H; now right). apply handle_other. apply H. now left.
Qed.
Lemma run_app enc s a b : run_events enc s (a ++ b) = run_events enc (run_events enc s a) b.
Proof. revert s. induction a; cbn; auto. Qed.
(** Known documents: the last opening or closing decides. *)
Lemma stays_known enc es : forall s u, s u <> None -> (forall e, In e es -> ~ closes u e) -> run_events enc s es u <> None.
Proof.
  induction es as [|e es IH]; intros s u H N; auto. cbn. apply IH; [|intros; apply N; now right].
  specialize (N e (or_introl eq_refl)). destruct e as [x t v|x cs v|x|x]; cbn in *.
  - destruct (concerns_dec u (DidOpen x t v)) as [C|C]; cbn in C; [subst; now rewrite set_same|rewrite set_other; auto].
  - destruct (s x) eqn:E; auto. destruct (apply_changes _ _ _ _). cbn.
    destruct (concerns_dec u (DidClose x)) as [C|C]; cbn in C; [subst; now rewrite set_same|rewrite set_other; auto].
  - destruct (s x) eqn:E; auto. cbn. rewrite set_other; auto.
  - auto.
Qed.
Lemma stays_unknown enc es : forall s u, s u = None -> (forall e, In e es -> ~ opens u e) -> run_events enc s es u = None.
Proof.
  induction es as [|e es IH]; intros s u H N; auto. cbn. apply IH; [|intros; apply N; now right].
  specialize (N e (or_introl eq_refl)). destruct e as [x t v|x cs v|x|x]; cbn in *.
  - rewrite set_other; auto.
  - destruct (s x) eqn:E; auto. destruct (apply_changes _ _ _ _). cbn. rewrite set_other; auto. congruence.
  - destruct (s x) eqn:E; auto. cbn. rewrite set_other; auto. congruence.
  - auto.
Qed.
(** A position denotes one place. *)
Lemma line_heads (a b a' b' : text) : a ++ b = a' ++ b' -> newlines a = newlines a' ->
  (a = [] \/ exists x, a = x ++ [nl]) -> (a' = [] \/ exists x, a' = x ++ [nl]) -> a = a'.
Proof.
  assert (K : forall x z : text, newlines (x ++ z) = newlines x -> (x ++ z = [] \/ exists y, x ++ z = y ++ [nl]) -> z = []).
  { intros x z E H. destruct z as [|c z _] using rev_ind; auto. exfalso. rewrite app_assoc in H. destruct H as [H|(y & H)]; [now destruct (x ++ z)|].
    apply app_inj_tail in H. destruct H as (_ & ->). rewrite !newlines_app in E. change (newlines [nl]) with 1 in E. lia. }
  intros E N Ha Ha'. destruct (prefixes_comparable _ _ _ _ E) as [(z & ->)|(z & ->)].
  - rewrite (K a z); auto. now rewrite app_nil_r.
  - rewrite (K a' z); auto. now rewrite app_nil_r.
Qed.
Lemma units_pos enc t : t <> [] -> 0 < units enc t.
Proof. destruct t as [|c t]; [easy|]. intros _. cbn. pose proof (u8len_pos c). pose proof (u16_pos c). unfold u16len, utf16_units in *. destruct enc; lia. Qed.
Lemma denotes_fun enc t pre pre' p : denotes enc t pre p -> denotes enc t pre' p -> pre = pre'.
Proof.
  assert (K : forall pre pre' q q' n, after_prefix enc t pre (n, q) -> after_prefix enc t pre' (n, q') ->
    (q = q' -> pre = pre') /\ (q < q' -> ~ (t = pre \/ exists r, t = pre ++ nl :: r))).
  { clear. intros pre pre' q q' n (a & l & r & E & -> & Ha & Hl & X) (a' & l' & r' & E' & -> & Ha' & Hl' & X'). injection X as -> ->. injection X' as X' ->.
    rewrite !newlines_line in X' by auto. rewrite E in E'.
    assert (a = a') as <- by (eapply line_heads; eauto; now rewrite <- !app_assoc in E'; eauto).
    rewrite <- !app_assoc in E'. apply app_inv_head in E'. destruct (prefixes_comparable _ _ _ _ E') as [(z & ->)|(z & ->)].
    - split.
      + rewrite units_app. intros Q. destruct z as [|c z]; [now rewrite app_nil_r|]. pose proof (units_pos enc (c :: z) ltac:(discriminate)). lia.
      + intros Q B. rewrite <- app_assoc in E'. apply app_inv_head in E'. subst r.
        destruct z as [|c z]; [rewrite app_nil_r in Q; lia|]. rewrite E in B. destruct B as [B|(r & B)].
        * rewrite <- (app_nil_r (a ++ l)) in B at 2. apply app_inv_head in B. discriminate.
        * apply app_inv_head in B. injection B as -> _. apply Hl'. apply in_or_app. right. now left.
    - split.
      + rewrite units_app. intros Q. destruct z as [|c z]; [now rewrite app_nil_r|]. pose proof (units_pos enc (c :: z) ltac:(discriminate)). lia.
      + rewrite units_app. lia. }
  destruct p as (n, ch). intros [H|(q & H & Hq & B)] [H'|(q' & H' & Hq' & B')]; cbn [fst snd] in *.
  - now apply (K _ _ _ _ _ H H').
  - exfalso. eapply (proj2 (K _ _ _ _ _ H' H)); eauto.
  - exfalso. eapply (proj2 (K _ _ _ _ _ H H')); eauto.
  - destruct (Nat.lt_total q q') as [L|[ -> |L]].
    + exfalso. eapply (proj2 (K _ _ _ _ _ H H')); eauto.
    + now apply (K _ _ _ _ _ H H').
    + exfalso. eapply (proj2 (K _ _ _ _ _ H' H)); eauto.
Qed.
Lemma change_result_fun enc t c x y : change_result enc t c x -> change_result enc t c y -> x = y.
Proof.
  destruct c as [[(s, e)|] new]; cbn; [|congruence].
  intros (a & m & b & -> & Da & Dm & ->) (a' & m' & b' & E & Da' & Dm' & ->).
  pose proof (denotes_fun _ _ _ _ _ Da Da'). subst a'. pose proof (denotes_fun _ _ _ _ _ Dm Dm') as X. apply app_inv_head in X. subst m'.
  rewrite !app_assoc in E. apply app_inv_head in E. now subst b'.
Qed.
Lemma changes_result_fun enc t cs x : changes_result enc t cs x -> forall y, changes_result enc t cs y -> x = y.
Proof.
  induction 1 as [|t c t1 cs t2 C H IH]; intros y Hy; inversion Hy as [|? ? t1' ? ? C' H']; subst; auto.
  apply IH. now rewrite (change_result_fun _ _ _ _ _ C C').
Qed.
Lemma exact_change (t : text) v v' c t' : exact_range UTF8 t c -> change_result UTF8 t c t' ->
  apply_changes (new_doc t v) [c] v' UTF8 = (new_doc t' v', SOk).
Proof.
  destruct c as [[(s, e)|] new]; cbn; [|easy]. intros [H|((a & Ha) & b & Hb)]; [easy|].
  intros (a' & m & r & -> & Da & Dm & ->).
  rewrite (denotes_fun _ _ _ _ _ (or_introl Ha) Da) in Ha. rewrite (denotes_fun _ _ _ _ _ (or_introl Hb) Dm) in Hb.
  unfold apply_changes. cbn [resolve_changes cg_range cg_text]. rewrite (position_to_offset_ok _ _ _ _ _ Ha), (position_to_offset_ok _ _ _ _ _ Hb). cbn [rbind].
  cbn [sort_desc fold_right insert_desc new_doc dc_content]. rewrite replace_one by auto. reflexivity.
Qed.
Lemma orderly_change (t : text) v v' enc cs t' : orderly enc t cs -> changes_result enc t cs t' ->
  apply_changes (new_doc t v) cs v' enc = (new_doc t' v', SOk).
Proof.
  intros [(c & -> & X)|(l & tail & cs' & E & R & ->)] H.
  - inversion H as [|? ? ? ? ? C1 C2]; subst. inversion C2; subst. destruct enc; [now apply exact_change| |];
      apply one_change; auto; try discriminate; unfold exact_range in X; now destruct (cg_range c).
  - destruct (backward_changes enc t v v' l tail cs' E R) as (A & S). rewrite A. now rewrite (changes_result_fun _ _ _ _ S _ H).
Qed.
(** The server's copy follows the editor's text. *)
Lemma mirror enc u es s t v t' : s u = Some (new_doc t v) -> orderly_history enc u t es t' ->
  exists v', run_events enc s es u = Some (new_doc t' v').
Proof.
  intros Hs H. revert s v Hs. induction H as [t|t e es t' N H IH|t es t' H IH|t cs w t1 es t' O C H IH|t t1 w es t' H IH]; intros s v Hs; cbn [run_events].
  - eauto.
  - eapply IH. rewrite handle_other; eauto.
  - cbn. eapply IH; eauto.
  - cbn [handle]. rewrite Hs, (orderly_change _ _ _ _ _ _ O C). cbn [fst]. eapply IH; apply set_same.
  - cbn [handle fst]. eapply IH; apply set_same.
Qed.
