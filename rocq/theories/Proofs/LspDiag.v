(** Positions of diagnostics and code actions. *)
From Verif Require Import Model.Text Model.Base Model.Rules Model.Fix Model.Driver Model.SuppressEdit Model.Rmd Model.Lsp
  Spec.LspSpec Spec.DirectiveSpec Spec.SuppressEditSpec Proofs.TextProofs Proofs.SplitProofs Proofs.SuppressEditProofs
  Proofs.RmdProofs Proofs.LspProofs Proofs.LspSync.

Lemma line_head_app (l t : text) : ~ In nl l -> exists m b, t = m ++ b /\ line_head (l ++ t) = l ++ m.
Proof.
  intros Hl. destruct (line_split t) as (m & b & -> & Hm & Hb). exists m, b. split; auto. unfold line_head.
  assert (Hlm : ~ In nl (l ++ m)) by (intros H; apply in_app_or in H; tauto).
  destruct Hb as [ -> |(r & ->)].
  - rewrite app_nil_r. rewrite (proj2 (find_char_none _ _)); auto.
  - rewrite app_assoc. rewrite (proj2 (find_char_some nl _ (l ++ m) r)); auto.
Qed.
Lemma scan_ok enc (z : text) : forall (a l rest : text) off, off = blen ((a ++ l) ++ z) -> (a = [] \/ exists x, a = x ++ [nl]) -> ~ In nl l ->
  forall p, after_prefix enc ((a ++ l) ++ z ++ rest) ((a ++ l) ++ z) p ->
  scan_position off (blen (a ++ l)) (newlines a) (blen a) (l ++ z ++ rest) (z ++ rest) enc = ROk p.
Proof.
  induction z as [|c z IH]; intros a l rest off -> Ha Hl p Hp.
  - rewrite app_nil_r in *. cbn [app] in *.
    assert (p = (newlines a, units enc l)) as ->.
    { eapply after_prefix_fun; [exact Hp|]. exists a, l, rest. rewrite newlines_line by auto. auto. }
    replace (blen (a ++ l) - blen a) with (blen l) by (rewrite blen_app; lia).
    destruct rest as [|c r]; cbn [scan_position].
    + rewrite !app_nil_r. rewrite blen_app. replace (blen a + blen l - blen a) with (blen l) by lia.
      rewrite <- units_prefix. destruct enc; reflexivity.
    + rewrite Nat.leb_refl. destruct (line_head_app l (c :: r) Hl) as (m & b & _ & ->).
      replace (blen (a ++ l) - blen a) with (blen l) by (rewrite blen_app; lia).
      rewrite (bsplit_exact l m) by (rewrite blen_app; lia). rewrite <- units_prefix. destruct enc; reflexivity.
  - cbn [app scan_position]. pose proof (u8len_pos c).
    replace (blen ((a ++ l) ++ c :: z) <=? blen (a ++ l)) with false by (symmetry; apply Nat.leb_gt; rewrite (blen_app (a ++ l)); cbn [blen]; lia).
    destruct (N.eqb c nl) eqn:E.
    + apply N.eqb_eq in E. subst c.
      specialize (IH ((a ++ l) ++ [nl]) [] rest (blen ((a ++ l) ++ nl :: z))). rewrite !app_nil_r in IH. rewrite <- app_assoc in IH. cbn [app] in IH.
      replace (blen (a ++ l) + 1) with (blen (a ++ l ++ [nl])) by (rewrite !blen_app; change (blen [nl]) with 1; lia).
      replace (newlines a + 1) with (newlines (a ++ l ++ [nl])) by (rewrite !newlines_app, (newlines_none l) by auto; change (newlines [nl]) with 1; lia).
      rewrite <- (app_assoc a l) in IH |- *. apply IH; auto.
      * f_equal. now rewrite <- !app_assoc.
      * right. exists (a ++ l). now rewrite app_assoc.
      * rewrite <- !app_assoc in *. exact Hp.
    + specialize (IH a (l ++ [c]) rest (blen ((a ++ l) ++ c :: z))).
      replace (blen (a ++ l) + u8len c) with (blen (a ++ l ++ [c])) by (rewrite !blen_app; cbn [blen]; lia).
      rewrite <- (app_assoc l [c]) in IH. cbn [app] in IH. apply IH; auto.
      * f_equal. now rewrite <- !app_assoc.
      * intros X. apply in_app_or in X. destruct X as [X|[ -> |[]]]; auto. rewrite N.eqb_refl in E. discriminate.
      * rewrite <- !app_assoc in *. exact Hp.
Qed.
Lemma lsp_position_ok enc (t pre : text) p : after_prefix enc t pre p -> byte_offset_to_lsp_position (blen pre) t enc = ROk p.
Proof.
  intros H. pose proof H as (_ & _ & rest & -> & _). unfold byte_offset_to_lsp_position.
  replace (blen (pre ++ rest) <? blen pre) with false by (symmetry; apply Nat.ltb_ge; rewrite blen_app; lia).
  apply (scan_ok enc pre [] [] rest (blen pre)); auto.
Qed.
Lemma lsp_position_total enc (pre rest : text) : exists p, byte_offset_to_lsp_position (blen pre) (pre ++ rest) enc = ROk p /\ after_prefix enc (pre ++ rest) pre p.
Proof. destruct (after_prefix_total enc pre rest) as (p & H). exists p. split; auto. now apply lsp_position_ok. Qed.
(** Both conversions of the server agree on character boundaries. *)
Lemma positions_agree enc (pre rest : text) v : offset_to_position (new_doc (pre ++ rest) v) (blen pre) enc = byte_offset_to_lsp_position (blen pre) (pre ++ rest) enc.
Proof. destruct (lsp_position_total enc pre rest) as (p & E & H). rewrite E. now apply offset_to_position_ok. Qed.

Lemma lsp_range_ok enc (a m b : text) : exists s e, lsp_range (blen a) (blen (a ++ m)) (a ++ m ++ b) enc = ROk (s, e) /\
  after_prefix enc (a ++ m ++ b) a s /\ after_prefix enc (a ++ m ++ b) (a ++ m) e.
Proof.
  destruct (lsp_position_total enc a (m ++ b)) as (s & Es & Hs). destruct (lsp_position_total enc (a ++ m) b) as (e & Ee & He).
  rewrite <- app_assoc in *. exists s, e. unfold lsp_range. rewrite Es, Ee. auto.
Qed.
(** Positions are in order. *)
Lemma prefix_pos_le enc t (a m : text) s e : after_prefix enc t a s -> after_prefix enc t (a ++ m) e -> pos_le s e = true.
Proof.
  intros (x & l & r & E & -> & Hx & Hl & ->) (x' & l' & r' & E' & Ea & Hx' & Hl' & ->). unfold pos_le. cbn [fst snd].
  apply orb_true_iff.
  pose proof (f_equal newlines Ea) as Q. rewrite newlines_app in Q. pose proof (newlines_line x l Hl) as Q1. pose proof (newlines_line x' l' Hl') as Q2.
  destruct (Nat.eq_dec (newlines m) 0) as [Z|Z].
  - right. apply andb_true_intro. rewrite Ea. split; [apply Nat.eqb_eq; lia|]. apply Nat.leb_le.
    assert (x = x').
    { assert (N : newlines x = newlines x').
      { lia. }
      rewrite <- app_assoc in Ea. eapply line_heads; eauto. }
    subst x'. rewrite <- app_assoc in Ea. apply app_inv_head in Ea. rewrite <- Ea, units_app. lia.
  - left. rewrite Ea. apply Nat.ltb_lt. lia.
Qed.

(** Quick fixes. *)
Lemma code_action_none d content enc : f_content (d_fix d) = [] -> f_start (d_fix d) = f_end (d_fix d) -> code_action d content enc = ROk None.
Proof. intros E1 E2. unfold code_action. rewrite E1, E2, Nat.eqb_refl. reflexivity. Qed.
Lemma edit_prefixes enc (a m b new : text) s e : after_prefix enc (a ++ m ++ b) a s -> after_prefix enc (a ++ m ++ b) (a ++ m) e ->
  forall out, edit_result enc (a ++ m ++ b) s e new out <-> out = a ++ new ++ b.
Proof.
  intros Hs He out. split.
  - intros (a' & m' & b' & E & Da & Dm & ->).
    pose proof (denotes_fun _ _ _ _ _ (or_introl Hs) Da). subst a'. pose proof (denotes_fun _ _ _ _ _ (or_introl He) Dm) as X. apply app_inv_head in X. subst m'.
    rewrite !app_assoc in E. apply app_inv_head in E. now subst b'.
  - intros ->. exists a, m, b. repeat split; auto; now left.
Qed.
Lemma code_action_ok d content enc : boundary content (f_start (d_fix d)) -> boundary content (f_end (d_fix d)) ->
  f_start (d_fix d) <= f_end (d_fix d) ->
  (code_action d content enc = ROk None /\ f_content (d_fix d) = [] /\ f_start (d_fix d) = f_end (d_fix d)) \/
  exists te, code_action d content enc = ROk (Some te) /\
    forall out, edit_result enc content (te_start te) (te_end te) (te_text te) out <->
      breplace (f_start (d_fix d)) (f_end (d_fix d)) (f_content (d_fix d)) content = Some out.
Proof.
  intros (a & r & E & Ha) (x & b & Ex & Hx) L. destruct (match f_content (d_fix d) with [] => f_start (d_fix d) =? f_end (d_fix d) | _ => false end) eqn:C.
  - left. destruct (f_content (d_fix d)) eqn:F; [|discriminate]. apply Nat.eqb_eq in C. rewrite code_action_none; auto.
  - right. assert (exists m, x = a ++ m) as (m & ->).
    { rewrite E in Ex. destruct (prefixes_comparable _ _ _ _ Ex) as [X|(z & ->)]; auto. rewrite blen_app in *.
      assert (z = []) as -> by (apply blen_0; lia). exists []. now rewrite !app_nil_r. }
    rewrite <- app_assoc in Ex. subst content. rewrite Ex in *. clear Ex. destruct (lsp_range_ok enc a m b) as (s & e & R & Hs & He). unfold lsp_range in R.
    unfold code_action. rewrite C. rewrite <- Ha, <- Hx.
    destruct (byte_offset_to_lsp_position (blen a) _ enc) as [s'| |]; [|discriminate|discriminate].
    destruct (byte_offset_to_lsp_position (blen (a ++ m)) _ enc) as [e'| |]; [|discriminate|discriminate].
    cbn in R. injection R as -> ->. eexists. split; [reflexivity|]. cbn [te_start te_end te_text]. intros out.
    rewrite (edit_prefixes enc a m b _ s e Hs He). rewrite breplace_exact by auto. split; [intros ->; reflexivity|now intros [= <-]].
Qed.

(** ** Suppression quick fixes *)
Lemma server_position (pre rest : text) : exists p, server_offset_to_position (pre ++ rest) (blen pre) = ROk p /\ after_prefix UTF8 (pre ++ rest) pre p.
Proof.
  unfold server_offset_to_position. rewrite (bsplit_exact pre rest) by (rewrite blen_app; lia).
  eexists. split; [reflexivity|]. destruct (line_prefix_spec pre) as (a & E & Hn & Ha).
  exists a, (line_prefix pre), rest. repeat split; auto. rewrite count_newlines. f_equal.
  assert (L : blen pre = blen a + blen (line_prefix pre)) by (rewrite E at 1; apply blen_app).
  replace (blen pre - (blen pre - blen (line_prefix pre))) with (blen (line_prefix pre)) by lia.
  rewrite <- (units_prefix UTF8). reflexivity.
Qed.
Lemma ascii_units enc l : ascii_text l = true -> units enc l = units UTF8 l.
Proof.
  induction l as [|c l IH]; cbn; auto. intros H. apply andb_prop in H. destruct H as (Hc & H). rewrite IH by auto. f_equal.
  pose proof (ascii_u8len c Hc) as U. rewrite U. destruct enc; auto. unfold utf16_units.
  unfold ascii_char in Hc. destruct (c <? 65536)%N eqn:X; auto. apply N.ltb_ge in X. apply N.ltb_lt in Hc. lia.
Qed.
Lemma on_line_after enc src off l : on_line src off l -> exists pre, blen pre = off /\ after_prefix enc src pre (newlines pre, units enc l).
Proof. intros (a & b & -> & L & N & H). exists (a ++ l). split; auto. exists a, l, b. rewrite <- app_assoc. auto. Qed.

Lemma insertion_edit enc (pre rest new : text) p : after_prefix enc (pre ++ rest) pre p ->
  forall out, edit_result enc (pre ++ rest) p p new out <-> insert_str (blen pre) new (pre ++ rest) = Some out.
Proof.
  intros H out. unfold insert_str. rewrite bsplit_app.
  rewrite (edit_prefixes enc pre [] rest new p p); cbn [app]; auto; [|now rewrite app_nil_r]. split; [intros ->; reflexivity|now intros [= <-]].
Qed.
Lemma placed_line_start src starts d pt : placed src starts d pt -> pt_newline pt = false ->
  exists a b, src = a ++ b /\ blen a = pt_offset pt /\ (a = [] \/ exists x, a = x ++ [nl]).
Proof.
  intros [p l Hp (a & b & E & L & N & H) B F O|p Hp F O|l (a & b & E & L & N & H) F O] F'; try congruence;
    exists a, (l ++ b); rewrite blen_app in L; repeat split; auto; lia.
Qed.
Lemma suppress_ok enc src rule chain start : boundary src start ->
  (forall ch, chain = Some ch -> Forall (fun a => boundary src (a_start a)) ch) ->
  exists pt te, compute_insert_point src chain start = Some pt /\ suppress_action src rule chain start = ROk te /\
    (pt_newline pt = false \/ plain_before enc src (pt_offset pt) ->
     forall out, edit_result enc src (te_start te) (te_end te) (te_text te) out <->
       add_comments (lit "<reason>") [Edit (pt_offset pt) (pt_indent pt) (pt_newline pt) rule] src = Some out).
Proof.
  intros Hb Hc. destruct (insert_point_placed src chain start Hb Hc) as (pt & E & P & (pre & rest & Es & Ep) & _).
  exists pt. unfold suppress_action. rewrite E. unfold point_line. rewrite Es, <- Ep, bsplit_app. cbn [rbind].
  assert (A : forall out, add_comments (lit "<reason>") [Edit (blen pre) (pt_indent pt) (pt_newline pt) rule] (pre ++ rest) = Some out <->
    insert_str (blen pre) (format_suppression_comments [rule] (lit "<reason>") (pt_indent pt) (pt_newline pt)) (pre ++ rest) = Some out).
  { intros out. unfold add_comments, merge_edits, sort_edits. cbn [fold_right insert_edit fold_left merge_step apply_merged g_offset g_rules g_indent g_newline e_offset e_rule e_indent e_newline].
    destruct (insert_str _ _ _); tauto. }
  unfold suppress_edit. destruct (pt_newline pt) eqn:F.
  - destruct (server_position pre rest) as (p & R & H). rewrite <- Ep, R. cbn [rbind]. eexists. split; [reflexivity|]. split; [reflexivity|].
    cbn [te_start te_end te_text]. intros Hp out. rewrite (A out). apply insertion_edit.
    destruct Hp as [Hp|[ -> |(l & Hl & Hasc)]]; [discriminate|auto|].
    destruct (on_line_after UTF8 _ _ _ Hl) as (pre' & L & H8). destruct (on_line_after enc _ _ _ Hl) as (pre'' & L' & Hx).
    assert (pre' = pre) as ->. { destruct H8 as (_ & _ & r & X & _). eapply (proj1 (app_blen_inj _ _ _ _ (eq_sym X) L)). }
    assert (pre'' = pre) as ->. { destruct Hx as (_ & _ & r & X & _). eapply (proj1 (app_blen_inj _ _ _ _ (eq_sym X) L')). }
    rewrite (after_prefix_fun _ _ _ _ _ H H8). rewrite (ascii_units enc l Hasc) in Hx. exact Hx.
  - eexists. split; [reflexivity|]. split; [reflexivity|]. cbn [te_start te_end te_text]. intros _ out. rewrite (A out). apply insertion_edit.
    destruct (placed_line_start _ _ _ _ P F) as (a & b & X & L & H). rewrite Es in X.
    assert (pre = a /\ rest = b) as (-> & ->) by (apply app_blen_inj; auto; lia).
    exists a, [], b. rewrite app_nil_r, count_newlines. repeat split; auto.
Qed.
(** Chunks start at the beginning of a line. *)
Lemma chunk_line_start content c : In c (extract_r_chunks content) ->
  exists pre post, content = (pre ++ [nl]) ++ r_code c ++ post /\ blen (pre ++ [nl]) = r_start c.
Proof.
  intros H. unfold extract_r_chunks in H.
  pose proof (proj1 (extract_exact 0 (split_incl content) _) eq_refl) as R. apply reads_slices in R.
  rewrite Forall_forall in R. destruct (R c H) as (f & pre & o & code & cl & post & E & Ho & Hn & Hc & Hr & Hs).
  assert (L : lines_ok (split_incl content)) by apply split_incl_ok. rewrite E in L. apply lines_ok_app in L. destruct L as (_ & L).
  assert (exists x, o = x ++ [nl]) as (x & ->).
  { destruct code as [|k code]; cbn in L; destruct L as ((x & _ & ->) & _); eauto. }
  exists (concat pre ++ x), (cl ++ concat post). rewrite Hr, Hs. split.
  - rewrite <- (split_incl_concat content), E at 1. rewrite concat_app. cbn [concat]. rewrite concat_app. cbn [concat]. now rewrite <- !app_assoc.
  - rewrite !blen_app. lia.
Qed.
Lemma line_start_position enc (a b : text) : (a = [] \/ exists x, a = x ++ [nl]) -> after_prefix enc (a ++ b) a (newlines a, 0).
Proof. intros H. exists a, [], b. rewrite app_nil_r. repeat split; auto. Qed.
(** The whole-chunk quick fix. *)
Lemma chunk_action_ok enc content rule c : In c (extract_r_chunks content) ->
  exists te, chunk_action content rule c = ROk te /\
    te_text te = lit "#| jarl-ignore-chunk:" ++ [nl] ++ lit "#|   - " ++ rule ++ lit ": <reason>" ++ [nl] /\
    forall out, edit_result enc content (te_start te) (te_end te) (te_text te) out <-> insert_str (r_start c) (te_text te) content = Some out.
Proof.
  intros H. destruct (chunk_line_start content c H) as (pre & post & E & Es).
  unfold chunk_action. rewrite E, <- Es. destruct (server_position (pre ++ [nl]) (r_code c ++ post)) as (p & R & Hp).
  rewrite R. cbn [rbind]. eexists. split; [reflexivity|]. cbn [te_start te_end te_text]. split; [reflexivity|]. intros out.
  apply insertion_edit. rewrite (after_prefix_fun _ _ _ _ _ Hp (line_start_position UTF8 (pre ++ [nl]) (r_code c ++ post) (or_intror (ex_intro _ pre eq_refl)))).
  apply line_start_position. eauto.
Qed.
(** In documents: only the insertions inside a line are placed as by the command line. *)
Lemma suppress_rmd_ok enc content rule chain start cs te : incl cs (extract_r_chunks content) ->
  (forall c, In c cs -> r_start c <= start <= r_start c + blen (r_code c) -> boundary (r_code c) (start - r_start c)) ->
  (forall c p ch, In c cs -> chain c p = Some ch -> Forall (fun a => boundary (r_code c) (a_start a)) ch) ->
  suppress_action_rmd content rule chain start cs = ROk (Some te) ->
  exists c pt, In c cs /\ r_start c <= start <= r_start c + blen (r_code c) /\
    compute_insert_point (r_code c) (chain c (start - r_start c)) (start - r_start c) = Some pt /\
    (pt_newline pt = true -> plain_before enc content (r_start c + pt_offset pt) ->
     forall out, edit_result enc content (te_start te) (te_end te) (te_text te) out <->
       insert_str (r_start c + pt_offset pt) (format_suppression_comments [rule] (lit "<reason>") (pt_indent pt) true) content = Some out).
Proof.
  intros Hi Hb Hc. induction cs as [|c cs IH]; cbn [suppress_action_rmd]; [discriminate|].
  destruct (_ && _) eqn:E.
  2:{ intros H. destruct IH as (c' & pt & H1 & H2); auto.
      - intros x Hx. apply Hi. now right.
      - intros x Hx. apply Hb. now right.
      - intros x p ch Hx. apply Hc. now right.
      - exists c', pt. split; [now right|auto]. }
  apply andb_prop in E. destruct E as (E1 & E2). apply Nat.leb_le in E1, E2. clear IH. intros H.
  destruct (insert_point_placed (r_code c) (chain c (start - r_start c)) (start - r_start c)) as (pt & Ep & _ & (x & y & Ex & Ey) & _).
  { apply Hb; [now left|auto]. }
  { intros ch. apply Hc. now left. }
  exists c, pt. split; [now left|]. split; [auto|]. split; [auto|]. rewrite Ep in H. intros F Hp out.
  unfold point_line in H. rewrite Ex, <- Ey, bsplit_app in H. cbn [rbind] in H. unfold suppress_edit in H. cbn [pt_newline pt_offset pt_indent] in H.
  rewrite F in H. destruct (chunk_line_start content c (Hi c (or_introl eq_refl))) as (pre & post & Ec & Es).
  assert (Ec' : content = ((pre ++ [nl]) ++ x) ++ y ++ post) by (rewrite Ec, Ex, <- !app_assoc; reflexivity).
  assert (Eo : r_start c + blen x = blen ((pre ++ [nl]) ++ x)) by (rewrite (blen_app (pre ++ [nl])), Es; reflexivity).
  rewrite <- Ey in *. rewrite Eo in *. rewrite Ec' in *. destruct (server_position ((pre ++ [nl]) ++ x) (y ++ post)) as (p & R & A).
  rewrite R in H. cbn [rbind] in H. injection H as <-. cbn [te_start te_end te_text]. apply insertion_edit.
  destruct Hp as [ -> |(l & Hl & Hasc)]; auto.
  set (q := (pre ++ [nl]) ++ x) in *.
  destruct (on_line_after UTF8 _ _ _ Hl) as (pre' & L & H8). destruct (on_line_after enc _ _ _ Hl) as (pre'' & L' & Hx).
  assert (pre' = q) as ->. { destruct H8 as (_ & _ & r & X & _). eapply (proj1 (app_blen_inj _ _ _ _ (eq_sym X) L)). }
  assert (pre'' = q) as ->. { destruct Hx as (_ & _ & r & X & _). eapply (proj1 (app_blen_inj _ _ _ _ (eq_sym X) L')). }
  rewrite (after_prefix_fun _ _ _ _ _ A H8). rewrite (ascii_units enc l Hasc) in Hx. exact Hx.
Qed.

Lemma pos_le_iff a b : pos_le a b = true <-> fst a < fst b \/ (fst a = fst b /\ snd a <= snd b).
Proof.
  unfold pos_le. rewrite Bool.orb_true_iff, Bool.andb_true_iff, Nat.ltb_lt, Nat.eqb_eq, Nat.leb_le. reflexivity.
Qed.
Lemma overlap_iff a b : pos_le (fst a) (snd a) = true -> pos_le (fst b) (snd b) = true ->
  (ranges_overlap a b = true <-> touch a b).
Proof.
  destruct a as [[a1 a2] [a3 a4]], b as [[b1 b2] [b3 b4]]. unfold ranges_overlap, touch, position_in. cbn [fst snd].
  rewrite Bool.andb_true_iff, !pos_le_iff. cbn [fst snd]. intros Ha Hb. split.
  - intros [H1 H2]. destruct (pos_le (a1, a2) (b1, b2)) eqn:E.
    + apply pos_le_iff in E. cbn [fst snd] in E. exists (b1, b2). cbn [fst snd]. intuition lia.
    + exists (a1, a2). assert (~ (a1 < b1 \/ a1 = b1 /\ a2 <= b2)).
      { intros K. rewrite (proj2 (pos_le_iff (a1, a2) (b1, b2)) K) in E. discriminate. }
      cbn [fst snd]. intuition lia.
  - intros ([q1 q2] & (H1 & H2) & (H3 & H4)). cbn [fst snd] in *. intuition lia.
Qed.
Lemma quick_fixes_offered content enc requested ds : forall l,
  quick_fixes content enc requested ds = ROk l ->
  (forall d rg, In d ds -> lsp_range (d_start d) (d_end d) content enc = ROk rg -> pos_le (fst rg) (snd rg) = true) ->
  pos_le (fst requested) (snd requested) = true ->
  forall te, In te l <-> exists d rg, In d ds /\ lsp_range (d_start d) (d_end d) content enc = ROk rg /\
    touch rg requested /\ code_action d content enc = ROk (Some te).
Proof.
  induction ds as [|d ds IH]; intros l H Hd Hq te; cbn [quick_fixes] in H.
  - injection H as <-. split; [intros []|]. intros (d & rg & [] & _).
  - destruct (lsp_range (d_start d) (d_end d) content enc) as [rg| |] eqn:R; try discriminate. cbn [rbind] in H.
    destruct (if ranges_overlap rg requested then _ else _) as [l1| |] eqn:A; try discriminate. cbn [rbind] in H.
    destruct (quick_fixes content enc requested ds) as [l2| |] eqn:Q; try discriminate. cbn [rbind] in H. injection H as <-.
    rewrite in_app_iff, (IH l2 eq_refl) by (auto; intros; eapply Hd; eauto; now right).
    pose proof (overlap_iff rg requested (Hd d rg (or_introl eq_refl) R) Hq) as O.
    assert (A' : In te l1 <-> touch rg requested /\ code_action d content enc = ROk (Some te)).
    { rewrite <- O. destruct (ranges_overlap rg requested).
      - destruct (code_action d content enc) as [[t|]| |]; try discriminate; cbn [rbind] in A; injection A as <-; cbn.
        + split; [intros [ -> |[]]; auto|]. intros [_ E]. injection E as ->. auto.
        + split; [intros []|]. intros [_ E]. discriminate.
      - injection A as <-. cbn. split; [intros []|intros [E _]; discriminate]. }
    rewrite A'. split.
    + intros [[T C]|(d' & rg' & K & K2 & K3 & K4)]; [exists d, rg|exists d', rg']; repeat split; auto; [now left|now right].
    + intros (d' & rg' & [ <- |K] & K2 & K3 & K4); [left|right].
      * rewrite R in K2. injection K2 as ->. auto.
      * exists d', rg'. auto.
Qed.
