(** Positions. *)
From Verif Require Import Model.Text Model.Base Model.SuppressEdit Model.Lsp Spec.LspSpec Spec.SuppressEditSpec
  Proofs.TextProofs Proofs.SplitProofs Proofs.SuppressEditProofs.

Definition units_prefix : forall enc t, prefix_units enc t = units enc t.
Proof.
  intros [] t; cbn [prefix_units]; induction t as [|c t IH]; cbn; auto.
Qed.
Lemma units_app enc a b : units enc (a ++ b) = units enc a + units enc b.
Proof. induction a as [|c a IH]; cbn; auto. rewrite IH. lia. Qed.
Lemma newlines_app a b : newlines (a ++ b) = newlines a + newlines b.
Proof. induction a as [|c a IH]; cbn; auto. rewrite IH. lia. Qed.
Lemma newlines_none t : ~ In nl t -> newlines t = 0.
Proof.
  induction t as [|c t IH]; cbn; auto. intros H. destruct (N.eqb c nl) eqn:E; [apply N.eqb_eq in E; exfalso; apply H; auto|].
  apply IH. auto.
Qed.
Lemma count_newlines t : count_nl t = newlines t.
Proof.
  unfold count_nl. induction t as [|c t IH]; auto. cbn [filter newlines]. rewrite (N.eqb_sym nl c). destruct (N.eqb c nl); cbn [length plus]; auto.
Qed.

(** The last line of a prefix is determined. *)
Lemma last_line (pre : text) : exists a l, pre = a ++ l /\ (a = [] \/ exists a', a = a' ++ [nl]) /\ ~ In nl l.
Proof. destruct (line_prefix_spec pre) as (a & H1 & H2 & H3). eauto. Qed.
Lemma last_line_unique (a l a' l' : text) : a ++ l = a' ++ l' -> (a = [] \/ exists x, a = x ++ [nl]) -> (a' = [] \/ exists x, a' = x ++ [nl]) ->
  ~ In nl l -> ~ In nl l' -> a = a' /\ l = l'.
Proof.
  intros E Ha Ha' Hl Hl'. revert l' E Hl'. induction l as [|c l IH] using rev_ind; intros l' E Hl'.
  - rewrite app_nil_r in E. destruct l' as [|c' l' _] using rev_ind; [rewrite app_nil_r in E; auto|].
    exfalso. rewrite app_assoc in E. destruct Ha as [ -> |(x & ->)]; [now destruct ((a' ++ l') : list N)|].
    apply app_inj_tail in E. destruct E as (_ & <-). apply Hl'. apply in_or_app. right. now left.
  - destruct l' as [|c' l' _] using rev_ind.
    + exfalso. rewrite app_nil_r, app_assoc in E. destruct Ha' as [ -> |(x & ->)]; [now destruct ((a ++ l) : list N)|].
      apply app_inj_tail in E. destruct E as (_ & ->). apply Hl. apply in_or_app. right. now left.
    + rewrite !app_assoc in E. apply app_inj_tail in E. destruct E as (E & <-).
      destruct (IH (fun H => Hl (in_or_app _ _ _ (or_introl H))) l' E (fun H => Hl' (in_or_app _ _ _ (or_introl H)))) as (-> & ->). auto.
Qed.
Lemma after_prefix_fun enc t pre p q : after_prefix enc t pre p -> after_prefix enc t pre q -> p = q.
Proof.
  intros (a & l & rest & _ & E & Ha & Hl & ->) (a' & l' & rest' & _ & E' & Ha' & Hl' & ->).
  rewrite E in E'. destruct (last_line_unique _ _ _ _ E' Ha Ha' Hl Hl') as (_ & ->). reflexivity.
Qed.
Lemma after_prefix_total enc pre rest : exists p, after_prefix enc (pre ++ rest) pre p.
Proof. destruct (last_line pre) as (a & l & E & Ha & Hl). exists (newlines pre, units enc l). exists a, l, rest. auto. Qed.

(** ** Line starts *)
Lemma starts_from_shift t off : line_starts_from off t = map (plus off) (line_starts_from 0 t).
Proof.
  revert off. induction t as [|c t IH]; intros off; cbn; auto.
  destruct (N.eqb c nl); cbn.
  - rewrite (IH (off + 1)), (IH 1), map_map. f_equal. apply map_ext. intros; lia.
  - rewrite (IH (off + u8len c)), (IH (u8len c)), map_map. apply map_ext. intros; lia.
Qed.
Lemma starts_app a b off : line_starts_from off (a ++ b) = line_starts_from off a ++ line_starts_from (off + blen a) b.
Proof.
  revert off. induction a as [|c a IH]; intros off; cbn; [now rewrite Nat.add_0_r|].
  destruct (N.eqb c nl) eqn:E.
  - apply N.eqb_eq in E. subst c. rewrite IH. cbn. do 3 f_equal. change (u8len nl) with 1. lia.
  - rewrite IH. do 2 f_equal. lia.
Qed.
Lemma starts_length t off : length (line_starts_from off t) = newlines t.
Proof. revert off. induction t as [|c t IH]; intros off; cbn; auto. destruct (N.eqb c nl); cbn; auto. Qed.
Lemma starts_none t off : ~ In nl t -> line_starts_from off t = [].
Proof. intros H. apply length_zero_iff_nil. rewrite starts_length. now apply newlines_none. Qed.
Lemma starts_bounds t off s : In s (line_starts_from off t) -> off < s <= off + blen t.
Proof.
  revert off. induction t as [|c t IH]; intros off; cbn; [intros []|]. pose proof (u8len_pos c).
  destruct (N.eqb c nl) eqn:E.
  - intros [<-|H1]; [|apply IH in H1]; apply N.eqb_eq in E; subst c; change (u8len nl) with 1 in *; lia.
  - intros H1. apply IH in H1. lia.
Qed.

(** A document whose table is up to date. *)
Definition synced (d : doc) : Prop := dc_starts d = compute_line_starts (dc_content d).

(** The start of the line after the prefix [a] (empty or ending in a newline). *)
Lemma nth_start a b : (a = [] \/ exists x, a = x ++ [nl]) ->
  nth_error (compute_line_starts (a ++ b)) (newlines a) = Some (blen a).
Proof.
  unfold compute_line_starts. intros [->|(x & ->)]; [reflexivity|].
  rewrite newlines_app. change (newlines [nl]) with 1. rewrite Nat.add_1_r. cbn [nth_error].
  rewrite starts_app, starts_app. cbn [line_starts_from plus]. change (N.eqb nl nl) with true. cbv iota.
  rewrite <- app_assoc. rewrite nth_error_app2; rewrite starts_length; [|lia]. rewrite Nat.sub_diag. cbn.
  rewrite blen_app. reflexivity.
Qed.
Lemma nth_next a l b : (a = [] \/ exists x, a = x ++ [nl]) -> ~ In nl l ->
  nth_error (compute_line_starts (a ++ l ++ b)) (newlines a + 1) =
    match b with c :: r => if N.eqb c nl then Some (blen (a ++ l) + 1) else nth_error (compute_line_starts (a ++ l ++ b)) (newlines a + 1) | [] => None end.
Proof.
  intros Ha Hl. destruct b as [|c r].
  - apply nth_error_None. cbn. rewrite starts_length, !newlines_app, (newlines_none l) by auto. cbn. lia.
  - destruct (N.eqb c nl) eqn:E; auto. apply N.eqb_eq in E. subst c.
    change (a ++ l ++ nl :: r) with (a ++ l ++ [nl] ++ r). rewrite !app_assoc.
    pose proof (nth_start ((a ++ l) ++ [nl]) r (or_intror (ex_intro _ (a ++ l) eq_refl))) as H.
    rewrite !newlines_app, (newlines_none l) in H by auto. change (newlines [nl]) with 1 in H. rewrite Nat.add_0_r in H.
    rewrite H. f_equal. rewrite blen_app. reflexivity.
Qed.
(** The bounds of line number [newlines a]. *)
Lemma line_split (t : text) : exists l b, t = l ++ b /\ ~ In nl l /\ (b = [] \/ exists r, b = nl :: r).
Proof.
  destruct (find_char nl t) as [[l r]|] eqn:F.
  - apply find_char_some in F. destruct F as (-> & H). exists l, (nl :: r). eauto.
  - apply find_char_none in F. exists t, []. rewrite app_nil_r. auto.
Qed.
Lemma bounds_of a l b v : (a = [] \/ exists x, a = x ++ [nl]) -> ~ In nl l -> (b = [] \/ exists r, b = nl :: r) ->
  line_bounds (new_doc (a ++ l ++ b) v) (newlines a) = Some (blen a, blen (a ++ l)) /\
  bslice (blen a) (blen (a ++ l)) (a ++ l ++ b) = Some l.
Proof.
  intros Ha Hl Hb. split.
  - unfold line_bounds, new_doc. cbn [dc_starts dc_content]. rewrite nth_start by auto. rewrite nth_next by auto.
    destruct Hb as [->|(r & ->)].
    + rewrite app_nil_r. reflexivity.
    + rewrite N.eqb_refl. do 2 f_equal. lia.
  - apply bslice_iff. exists a, b. rewrite blen_app. auto.
Qed.

(** ** From offsets to positions *)
Lemma filter_all {A} (f : A -> bool) l : (forall x, In x l -> f x = true) -> filter f l = l.
Proof. induction l as [|x l IH]; cbn; intros H; auto. rewrite H by auto. f_equal. auto. Qed.
Lemma filter_none {A} (f : A -> bool) l : (forall x, In x l -> f x = false) -> filter f l = [].
Proof. induction l as [|x l IH]; cbn; intros H; auto. rewrite H by auto. auto. Qed.
Lemma line_of_offset (pre rest : text) :
  length (filter (fun s => s <=? blen pre) (compute_line_starts (pre ++ rest))) - 1 = newlines pre.
Proof.
  unfold compute_line_starts. cbn [filter Nat.leb]. rewrite starts_app, filter_app.
  rewrite (filter_all _ (line_starts_from 0 pre)).
  2:{ intros x H. apply starts_bounds in H. apply Nat.leb_le. lia. }
  rewrite (filter_none _ (line_starts_from (0 + blen pre) rest)).
  2:{ intros x H. apply starts_bounds in H. apply Nat.leb_gt. lia. }
  rewrite app_nil_r. cbn [length]. rewrite starts_length. lia.
Qed.
Lemma newlines_line a l : ~ In nl l -> newlines (a ++ l) = newlines a.
Proof. intros H. rewrite newlines_app, (newlines_none l) by auto. lia. Qed.
Lemma bounds_at (t a l rest : text) v : t = (a ++ l) ++ rest -> (a = [] \/ exists x, a = x ++ [nl]) -> ~ In nl l ->
  exists m b, rest = m ++ b /\ ~ In nl m /\ (b = [] \/ exists r, b = nl :: r) /\
    line_bounds (new_doc t v) (newlines a) = Some (blen a, blen (a ++ l ++ m)) /\
    bslice (blen a) (blen (a ++ l ++ m)) t = Some (l ++ m).
Proof.
  intros -> Ha Hl. destruct (line_split rest) as (m & b & -> & Hm & Hb). exists m, b.
  split; [auto|]. split; [auto|]. split; [auto|].
  replace ((a ++ l) ++ m ++ b) with (a ++ (l ++ m) ++ b) by (rewrite <- !app_assoc; reflexivity).
  apply bounds_of; auto. intros H. apply in_app_or in H. tauto.
Qed.
Lemma bsplit_exact (a b : text) n : n = blen a -> bsplit n (a ++ b) = Some (a, b).
Proof. intros ->. apply bsplit_iff. auto. Qed.

Lemma offset_to_position_ok (t pre : text) v enc p : after_prefix enc t pre p ->
  offset_to_position (new_doc t v) (blen pre) enc = ROk p.
Proof.
  intros (a & l & rest & -> & -> & Ha & Hl & ->). unfold offset_to_position. cbn [new_doc dc_content dc_starts].
  rewrite line_of_offset. rewrite (newlines_line a l) by auto.
  replace (blen ((a ++ l) ++ rest) <? blen (a ++ l)) with false by (symmetry; apply Nat.ltb_ge; rewrite !blen_app; lia).
  destruct (bounds_at _ a l rest v eq_refl Ha Hl) as (m & b & -> & Hm & Hb & E1 & E2).
  change {| dc_content := (a ++ l) ++ m ++ b; dc_version := v; dc_starts := compute_line_starts ((a ++ l) ++ m ++ b) |} with (new_doc ((a ++ l) ++ m ++ b) v).
  rewrite E1. rewrite E2.
  replace (blen (a ++ l) - blen a) with (blen l) by (rewrite blen_app; lia).
  rewrite (bsplit_exact l m) by (rewrite blen_app; lia).
  destruct enc; rewrite <- units_prefix; reflexivity.
Qed.
(** Every offset on a character boundary has a position. *)
Lemma offset_to_position_total (t pre rest : text) v enc : t = pre ++ rest ->
  exists p, offset_to_position (new_doc t v) (blen pre) enc = ROk p /\ after_prefix enc t pre p.
Proof. intros ->. destruct (after_prefix_total enc pre rest) as (p & H). exists p. split; auto. now apply offset_to_position_ok. Qed.

(** ** From positions to offsets *)
Lemma walk16_spec ch u b t : exists x y, t = x ++ y /\ walk16 ch u b t = (u + wlen x, b + blen x) /\
  (y <> [] -> ch <= u + wlen x) /\ (forall x' c, x = x' ++ [c] -> u + wlen x' < ch).
Proof.
  revert u b. induction t as [|c t IH]; intros u b.
  - exists [], []. cbn. rewrite !Nat.add_0_r. repeat split; auto; [congruence|]. intros x' c E. now destruct x'.
  - cbn [walk16]. destruct (ch <=? u) eqn:E.
    + apply Nat.leb_le in E. exists [], (c :: t). cbn. rewrite !Nat.add_0_r. repeat split; auto. intros x' d X. now destruct x'.
    + apply Nat.leb_gt in E. destruct (IH (u + u16len c) (b + u8len c)) as (x & y & -> & W & H1 & H2).
      exists (c :: x), y. rewrite W. cbn [wlen blen app]. repeat split; try (f_equal; lia).
      * intros H. specialize (H1 H). lia.
      * intros [|c' x'] d X; injection X as -> X.
        -- cbn. lia.
        -- specialize (H2 _ _ X). cbn. lia.
Qed.
Lemma walk32_spec ch u b t : exists x y, t = x ++ y /\ walk32 ch u b t = b + blen x /\
  (y <> [] -> ch <= u + length x) /\ (forall x' c, x = x' ++ [c] -> u + length x' < ch).
Proof.
  revert u b. induction t as [|c t IH]; intros u b.
  - exists [], []. cbn. rewrite !Nat.add_0_r. repeat split; auto; [congruence|]. intros x' c E. now destruct x'.
  - cbn [walk32]. destruct (ch <=? u) eqn:E.
    + apply Nat.leb_le in E. exists [], (c :: t). cbn. rewrite !Nat.add_0_r. repeat split; auto. intros x' d X. now destruct x'.
    + apply Nat.leb_gt in E. destruct (IH (u + 1) (b + u8len c)) as (x & y & -> & W & H1 & H2).
      exists (c :: x), y. rewrite W. cbn [length blen app]. repeat split; try (f_equal; lia); try lia.
      * intros H. specialize (H1 H). lia.
      * intros [|c' x'] d X; injection X as -> X.
        -- cbn. lia.
        -- specialize (H2 _ _ X). cbn. lia.
Qed.
Lemma wlen_app a b : wlen (a ++ b) = wlen a + wlen b.
Proof. induction a; cbn; auto. rewrite IHa. lia. Qed.
Lemma u16_pos c : 1 <= u16len c.
Proof. unfold u16len. destruct (_ <? _)%N; lia. Qed.
Lemma wlen_pos t : t <> [] -> 0 < wlen t.
Proof. destruct t as [|c t]; [easy|]. intros _. cbn. pose proof (u16_pos c). lia. Qed.
(** Two prefixes of one text are comparable. *)
Lemma prefixes_comparable (x y a b : text) : x ++ y = a ++ b -> (exists z, a = x ++ z) \/ (exists z, x = a ++ z).
Proof. intros E. apply app_eq_app in E. destruct E as (z & [(-> & _)|(-> & _)]); eauto. Qed.
Lemma walk16_exact (x y : text) : walk16 (wlen x) 0 0 (x ++ y) = (wlen x, blen x).
Proof.
  destruct (walk16_spec (wlen x) 0 0 (x ++ y)) as (a & b & E & W & H1 & H2). rewrite W.
  assert (x = a); [|subst; reflexivity].
  destruct (prefixes_comparable _ _ _ _ E) as [(z & ->)|(z & ->)].
  - destruct z as [|c z _] using rev_ind; [now rewrite app_nil_r|]. specialize (H2 (x ++ z) c). rewrite app_assoc in H2. specialize (H2 eq_refl).
    rewrite wlen_app in H2. lia.
  - destruct z as [|c z]; [now rewrite app_nil_r|]. rewrite <- app_assoc in E. apply app_inv_head in E. subst b.
    specialize (H1 ltac:(discriminate)). rewrite wlen_app in H1. pose proof (wlen_pos (c :: z) ltac:(discriminate)). lia.
Qed.
Lemma walk32_exact (x y : text) : walk32 (length x) 0 0 (x ++ y) = blen x.
Proof.
  destruct (walk32_spec (length x) 0 0 (x ++ y)) as (a & b & E & W & H1 & H2). rewrite W.
  assert (x = a); [|subst; reflexivity].
  destruct (prefixes_comparable _ _ _ _ E) as [(z & ->)|(z & ->)].
  - destruct z as [|c z _] using rev_ind; [now rewrite app_nil_r|]. specialize (H2 (x ++ z) c). rewrite app_assoc in H2. specialize (H2 eq_refl).
    rewrite app_length in H2. lia.
  - destruct z as [|c z]; [now rewrite app_nil_r|]. rewrite <- app_assoc in E. apply app_inv_head in E. subst b.
    specialize (H1 ltac:(discriminate)). rewrite app_length in H1. cbn in H1. lia.
Qed.
Lemma walk16_end ch (x : text) : wlen x <= ch -> walk16 ch 0 0 x = (wlen x, blen x).
Proof.
  intros L. destruct (walk16_spec ch 0 0 x) as (a & b & -> & W & H1 & H2). rewrite W.
  destruct b as [|c b]; [now rewrite app_nil_r|]. specialize (H1 ltac:(discriminate)). rewrite wlen_app in *.
  pose proof (wlen_pos (c :: b) ltac:(discriminate)). lia.
Qed.
Lemma walk32_end ch (x : text) : length x <= ch -> walk32 ch 0 0 x = blen x.
Proof.
  intros L. destruct (walk32_spec ch 0 0 x) as (a & b & -> & W & H1 & H2). rewrite W.
  destruct b as [|c b]; [now rewrite app_nil_r|]. specialize (H1 ltac:(discriminate)). rewrite app_length in *. cbn in *. lia.
Qed.

Lemma position_to_offset_ok (t pre : text) v enc p : after_prefix enc t pre p ->
  position_to_offset (new_doc t v) p enc = ROk (blen pre).
Proof.
  intros (a & l & rest & -> & -> & Ha & Hl & ->). unfold position_to_offset. rewrite (newlines_line a l) by auto.
  destruct (bounds_at _ a l rest v eq_refl Ha Hl) as (m & b & -> & Hm & Hb & E1 & E2).
  rewrite E1. cbn [new_doc dc_content]. rewrite E2. rewrite <- units_prefix. destruct enc; cbn [prefix_units].
  - replace (blen (l ++ m) <? blen l) with false by (symmetry; apply Nat.ltb_ge; rewrite blen_app; lia).
    rewrite blen_app. reflexivity.
  - rewrite walk16_exact, Nat.ltb_irrefl, blen_app. reflexivity.
  - rewrite walk32_exact, blen_app. reflexivity.
Qed.
(** Past the end of the line. *)
Lemma position_to_offset_past (t pre : text) v enc p : enc <> UTF8 -> denotes enc t pre p ->
  position_to_offset (new_doc t v) p enc = ROk (blen pre).
Proof.
  intros He [H|(q & H & Hq & Hend)]; [now apply position_to_offset_ok|].
  destruct p as (line, ch). cbn [fst snd] in *.
  destruct H as (a & l & rest & -> & -> & Ha & Hl & [= -> ->]). unfold position_to_offset. rewrite (newlines_line a l) by auto.
  destruct (bounds_at _ a l rest v eq_refl Ha Hl) as (m & b & -> & Hm & Hb & E1 & E2).
  assert (m = []) as ->.
  { destruct Hend as [E|(r & E)].
    - rewrite <- (app_nil_r (a ++ l)) in E at 2. apply app_inv_head in E. now destruct m.
    - apply app_inv_head in E. destruct m as [|c m]; auto. injection E as -> E. exfalso. apply Hm. now left. }
  rewrite E1. cbn [new_doc dc_content]. rewrite E2. rewrite <- units_prefix in Hq. rewrite !app_nil_r. destruct enc; [easy| |]; cbn [prefix_units] in Hq.
  - rewrite walk16_end by lia. replace (ch <? wlen l) with false by (symmetry; apply Nat.ltb_ge; lia). rewrite blen_app. reflexivity.
  - rewrite walk32_end by lia. rewrite blen_app. reflexivity.
Qed.
(** The line of a valid line number. *)
Lemma line_exists (t : text) n : n <= newlines t ->
  exists a l b, t = a ++ l ++ b /\ newlines a = n /\ (a = [] \/ exists x, a = x ++ [nl]) /\ ~ In nl l /\ (b = [] \/ exists r, b = nl :: r).
Proof.
  revert t. induction n as [|n IH]; intros t H.
  - destruct (line_split t) as (l & b & -> & Hl & Hb). exists [], l, b. auto.
  - destruct (line_split t) as (l & b & -> & Hl & Hb). destruct Hb as [ -> |(r & ->)].
    + rewrite app_nil_r, newlines_none in H by auto. lia.
    + rewrite newlines_app, newlines_none in H by auto. cbn [newlines] in H. rewrite N.eqb_refl in H.
      destruct (IH r ltac:(lia)) as (a & l' & b & -> & Ea & Ha & Hl' & Hb). exists ((l ++ [nl]) ++ a), l', b.
      rewrite <- !app_assoc. repeat split; auto.
      * rewrite !newlines_app, (newlines_none l) by auto. cbn [newlines]. rewrite N.eqb_refl. lia.
      * right. destruct Ha as [ -> |(x & ->)]; [exists l; now rewrite app_nil_r|]. exists (l ++ [nl] ++ x). now rewrite <- !app_assoc.
Qed.
Lemma starts_of_doc t v line : line_bounds (new_doc t v) line = None <-> newlines t < line.
Proof.
  unfold line_bounds, new_doc. cbn [dc_starts dc_content]. destruct (nth_error (compute_line_starts t) line) eqn:E.
  - split; [discriminate|]. intros H.
    assert (line < length (compute_line_starts t)) by (apply nth_error_Some; congruence).
    cbn in H0. rewrite starts_length in H0. lia.
  - split; auto. intros _. apply nth_error_None in E. cbn in E. rewrite starts_length in E. lia.
Qed.
(** What an accepted position means (UTF-16 and UTF-32). *)
Lemma position_to_offset_sound (t : text) v enc p off : enc <> UTF8 ->
  position_to_offset (new_doc t v) p enc = ROk off -> exists pre, blen pre = off /\ denotes enc t pre p.
Proof.
  intros He H. destruct p as (line, ch). unfold position_to_offset in H.
  destruct (Nat.le_gt_cases line (newlines t)) as [L|L].
  2:{ apply starts_of_doc with (v := v) in L. rewrite L in H. discriminate. }
  destruct (line_exists t line L) as (a & l & b & -> & <- & Ha & Hl & Hb).
  destruct (bounds_of a l b v Ha Hl Hb) as (E1 & E2). rewrite E1 in H. cbn [new_doc dc_content] in H. rewrite E2 in H.
  assert (Hpre : forall x y, l = x ++ y -> after_prefix enc (a ++ l ++ b) (a ++ x) (newlines a, prefix_units enc x)).
  { intros x y ->. exists a, x, (y ++ b). rewrite <- !app_assoc. assert (~ In nl x) by (intros X; apply Hl; apply in_or_app; auto).
    rewrite newlines_line, units_prefix by auto. repeat split; auto. }
  assert (Hfin : forall x y, l = x ++ y -> (y <> [] -> ch <= prefix_units enc x) -> prefix_units enc x <= ch ->
    denotes enc (a ++ l ++ b) (a ++ x) (newlines a, ch)).
  { intros x y E Hy Hx. destruct y as [|c y].
    - destruct (Nat.eq_dec (prefix_units enc x) ch) as [ <- |N].
      + left. eapply Hpre; eauto.
      + right. exists (prefix_units enc x). cbn [fst snd]. split; [eapply Hpre; eauto|]. split; [lia|].
        rewrite app_nil_r in E. subst x. destruct Hb as [ -> |(r & ->)]; [left; now rewrite app_nil_r|].
        right. exists r. now rewrite <- app_assoc.
    - left. specialize (Hy ltac:(discriminate)). replace ch with (prefix_units enc x) by lia. eapply Hpre; eauto. }
  destruct enc; [easy| |].
  - destruct (walk16_spec ch 0 0 l) as (x & y & E & W & H1 & H2). rewrite W in H.
    destruct (ch <? 0 + wlen x) eqn:C; [discriminate|]. apply Nat.ltb_ge in C. injection H as <-.
    exists (a ++ x). split; [rewrite blen_app; lia|]. eapply Hfin; eauto.
  - destruct (walk32_spec ch 0 0 l) as (x & y & E & W & H1 & H2). rewrite W in H. injection H as <-.
    exists (a ++ x). split; [rewrite blen_app; lia|]. eapply Hfin; eauto. cbn [prefix_units].
    destruct x as [|c x _] using rev_ind; [cbn; lia|]. specialize (H2 _ _ eq_refl). rewrite app_length. cbn. lia.
Qed.
(** With UTF-8 the line and the number of bytes are checked, not the character boundary. *)
Lemma position_to_offset_utf8 (t : text) v line ch off :
  position_to_offset (new_doc t v) (line, ch) UTF8 = ROk off <->
  exists a l b, t = a ++ l ++ b /\ newlines a = line /\ (a = [] \/ exists x, a = x ++ [nl]) /\ ~ In nl l /\
    (b = [] \/ exists r, b = nl :: r) /\ ch <= blen l /\ off = blen a + ch.
Proof.
  unfold position_to_offset. split.
  - intros H. destruct (Nat.le_gt_cases line (newlines t)) as [L|L].
    2:{ apply starts_of_doc with (v := v) in L. rewrite L in H. discriminate. }
    destruct (line_exists t line L) as (a & l & b & -> & <- & Ha & Hl & Hb).
    destruct (bounds_of a l b v Ha Hl Hb) as (E1 & E2). rewrite E1 in H. cbn [new_doc dc_content] in H. rewrite E2 in H.
    destruct (blen l <? ch) eqn:C; [discriminate|]. apply Nat.ltb_ge in C. injection H as <-. exists a, l, b. repeat split; auto.
  - intros (a & l & b & -> & <- & Ha & Hl & Hb & C & ->). destruct (bounds_of a l b v Ha Hl Hb) as (E1 & E2).
    rewrite E1. cbn [new_doc dc_content]. rewrite E2. apply Nat.ltb_ge in C. rewrite C. reflexivity.
Qed.
Lemma position_to_offset_no_panic (t : text) v enc p : position_to_offset (new_doc t v) p enc <> RPanic.
Proof.
  destruct p as (line, ch). unfold position_to_offset.
  destruct (Nat.le_gt_cases line (newlines t)) as [L|L].
  2:{ apply starts_of_doc with (v := v) in L. rewrite L. discriminate. }
  destruct (line_exists t line L) as (a & l & b & -> & <- & Ha & Hl & Hb).
  destruct (bounds_of a l b v Ha Hl Hb) as (E1 & E2). rewrite E1. cbn [new_doc dc_content]. rewrite E2.
  destruct enc; [destruct (_ <? _)|destruct (walk16 _ _ _ _) as (?, ?); destruct (_ <? _)|]; discriminate.
Qed.
