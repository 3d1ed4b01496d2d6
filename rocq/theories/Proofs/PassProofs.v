(** Several edits of the same file, one after the other. *)
From Coq Require Import Sorting.Sorted.
From Verif Require Import Spec.RPass Spec.RWellFormed Proofs.TextProofs Proofs.LspProofs Proofs.FixProofs Proofs.RParse Proofs.RParseSound Proofs.RContext
  Proofs.CommentProofs Proofs.LocalText Proofs.ReplaceText Proofs.Cuts Proofs.WholeProofs Proofs.TwoPlaces Proofs.LintSyntax Proofs.LintFixes.

(** ** The tokens of an expression of the file *)
Lemma written_tokens : forall t p j fs e x y, reads_text t p -> written t j fs e x y ->
  exists b m a : list ptok, tokens t = Some (b ++ m ++ a) /\ reads (map fst (b ++ m ++ a)) p /\ nth_error p j = Some (plug fs e) /\
    map fst b = sep_before [TNl] (map toks (firstn j p)) ++ pre_toks fs /\ map fst m = toks e /\
    (exists first more l last, m = first :: more /\ m = l ++ [last] /\ fst (snd first) = x /\ snd (snd last) = y) /\
    Forall (fun q : ptok => snd (snd q) <= x) b /\ Forall (fun q : ptok => fst (snd q) < snd (snd q)) (b ++ m ++ a) /\
    Forall (fun q : ptok => x <= fst (snd q) /\ snd (snd q) <= y) m /\ Forall (fun q : ptok => y <= fst (snd q)) a.
Proof.
  intros t p j fs e x y (pts & T & R) (p' & b & first & more & last & a & T' & R' & N & Eb & Em & Ex & (l & El) & Ey).
  rewrite T in T'. injection T' as ->. pose proof (reads_det _ _ _ R R') as <-. clear R'.
  assert (Pt : exists ps, pieces t = Some ps) by (unfold tokens in T; destruct (pieces t); [eauto|discriminate]).
  destruct Pt as [ps Pt]. destruct (tokens_cover _ _ _ Pt T) as [Cov Ch]. destruct (cover_sorted _ _ Cov _ Ch) as [Pos Sorted].
  destruct (before_all b (first :: more) a first more eq_refl Sorted Pos l last El) as (F1 & F2 & F3 & F4).
  exists b, (first :: more), a. rewrite Ex, Ey in *. do 5 (split; [assumption|]). split; [exists first, more, l, last; auto|auto].
Qed.
(** Tokens that end by byte [x], and tokens that do not. *)
Lemma split_by : forall (b1 a1 b2 a2 : list ptok) x y, b1 ++ a1 = b2 ++ a2 -> Forall (fun q : ptok => fst (snd q) < snd (snd q)) (b1 ++ a1) ->
  Forall (fun q : ptok => snd (snd q) <= x) b1 -> Forall (fun q : ptok => y <= fst (snd q)) a2 -> x <= y -> exists r, b2 = b1 ++ r /\ a1 = r ++ a2.
Proof.
  intros b1 a1 b2 a2 x y E Po H1 H2 L. destruct (app_eq_app _ _ _ _ E) as (m & [[X1 X2]|[X1 X2]]).
  - destruct m as [|q m]; [exists []; rewrite app_nil_r in *; cbn [app] in *; subst; auto|]. exfalso.
    rewrite X1 in H1. rewrite Forall_app in H1. destruct H1 as [_ H1]. apply Forall_inv in H1.
    rewrite X2 in H2. apply Forall_inv in H2. rewrite X1, <- app_assoc, !Forall_app in Po. destruct Po as (_ & Po & _). apply Forall_inv in Po. unfold ptok in *. lia.
  - exists m. auto.
Qed.

(** ** Two expressions of the same file do not touch *)
Lemma not_touching : forall t j1 fs1 e1 x1 y j2 fs2 e2 y2, written t j1 fs1 e1 x1 y -> ~ written t j2 fs2 e2 y y2.
Proof.
  intros t j1 fs1 e1 x1 y j2 fs2 e2 y2 W1 W2.
  assert (Rd : exists p, reads_text t p) by (destruct W1 as (p & b & f & m & l & a & T & R & _); exists p; eexists; eauto). destruct Rd as [p Rd].
  destruct (written_tokens _ _ _ _ _ _ _ Rd W1) as (b1 & m1 & a1 & T1 & R1 & N1 & B1 & M1 & _ & G1 & G2 & G3 & G4).
  destruct (written_tokens _ _ _ _ _ _ _ Rd W2) as (b2 & m2 & a2 & T2 & R2 & N2 & B2 & M2 & _ & H1 & H2 & H3 & H4).
  rewrite T1 in T2. injection T2 as E. rewrite app_assoc in E.
  assert (XY : Forall (fun q : ptok => snd (snd q) <= y) (b1 ++ m1)).
  { rewrite Forall_app. split; [|eapply Forall_impl; [|exact G3]; intros q [_ G]; exact G].
    destruct m1 as [|q m1]; [pose proof (toks_some e1) as L; rewrite <- M1 in L; cbn [map length] in L; lia|].
    pose proof (Forall_inv G3) as Gq. rewrite !Forall_app in G2. destruct G2 as (_ & G2 & _). apply Forall_inv in G2.
    eapply Forall_impl; [|exact G1]. cbn. intros q0 Hq. unfold ptok in *. lia. }
  assert (Y2 : Forall (fun q : ptok => y <= fst (snd q)) (m2 ++ a2)).
  { rewrite Forall_app. split; [eapply Forall_impl; [|exact H3]; intros q [G _]; exact G|].
    destruct m2 as [|q m2]; [pose proof (toks_some e2) as L; rewrite <- M2 in L; cbn [map length] in L; lia|].
    pose proof (Forall_inv H3) as Gq. rewrite !Forall_app in H2. destruct H2 as (_ & H2 & _). apply Forall_inv in H2.
    eapply Forall_impl; [|exact H4]. cbn. intros q' Hq. unfold ptok in *. lia. }
  destruct (split_by _ _ _ _ y y E ltac:(rewrite <- app_assoc; exact G2) XY Y2 (le_n _)) as (r & E1 & E2).
  assert (Er : r = []).
  { destruct r as [|q r]; [reflexivity|]. exfalso. rewrite E2 in G4. apply Forall_inv in G4. rewrite E1 in H1. rewrite Forall_app in H1. destruct H1 as [_ H1].
    apply Forall_inv in H1. rewrite E2, !Forall_app in G2. destruct G2 as (_ & _ & G2 & _). apply Forall_inv in G2. unfold ptok in *. lia. }
  subst r. rewrite app_nil_r in E1. subst b2. rewrite map_app in B2.
  assert (B3 : (sep_before [TNl] (map toks (firstn j1 p)) ++ pre_toks fs1) ++ toks e1 = sep_before [TNl] (map toks (firstn j2 p)) ++ pre_toks fs2).
  { etransitivity; [|exact B2]. f_equal; [exact (eq_sym B1)|exact (eq_sym M1)]. }
  destruct (before_state (firstn j1 p) fs1) as (c1 & S1 & _). destruct (before_state (firstn j2 p) fs2) as (c2 & S2 & _).
  rewrite <- B3, after_toks_app, S1, toks_state in S2. discriminate S2.
Qed.

(** ** An expression before the one that is replaced *)
Lemma sep_before_le : forall s (l : list (list tok)) n, length (sep_before s (firstn n l)) <= length (sep_before s l).
Proof. intros s l n. rewrite <- (firstn_skipn n l) at 2. rewrite sep_before_app, app_length. lia. Qed.
Lemma nth_firstn : forall {A} (l : list A) n x, nth_error l n = Some x -> firstn (S n) l = firstn n l ++ [x].
Proof. induction l as [|a l IH]; intros [|n] x H; try discriminate H; cbn in *; [injection H as ->; reflexivity|]. rewrite (IH _ _ H). reflexivity. Qed.
Lemma nth_file_with : forall p j fs e e0, nth_error p j = Some e0 -> nth_error (file_with (place_in p j fs) e) j = Some (plug fs e) /\ firstn j (file_with (place_in p j fs) e) = firstn j p.
Proof.
  intros p j fs e e0 H. unfold file_with, place_in. cbn [RExpr.before RExpr.frames RExpr.after].
  assert (L : length (firstn j p) = j) by (apply firstn_length_le; apply Nat.lt_le_incl, nth_error_Some; rewrite H; discriminate).
  split; [rewrite nth_error_app2, L, Nat.sub_diag by lia; reflexivity|]. rewrite firstn_app, L, Nat.sub_diag, firstn_firstn, Nat.min_id. cbn [firstn]. apply app_nil_r.
Qed.
Lemma written_after : forall t t' p j fs e x y w e' j1 fs1 e1 x1 y1, reads_text t p -> written t j fs e x y -> breplace x y w t = Some t' ->
  text_tokens w (toks e') -> breaks_enclosed w -> cut_at t' x -> cut_at t' (x + blen w) -> node_of_file (place_in p j fs) e' ->
  written t j1 fs1 e1 x1 y1 -> y1 <= x -> exists fs1', alike fs1' fs1 /\ written t' j1 fs1' e1 x1 y1.
Proof.
  intros t t' p j fs e x y w e' j1 fs1 e1 x1 y1 Rd W Br Tw Be C1 C2 Nn W1 L.
  destruct (replace_at _ _ _ _ _ _ _ _ _ _ Rd W Br Tw Be C1 C2) as (N & _ & (pts' & T' & M') & b & m & a & new & a' & T & T'' & B & M & Mn & Po & St).
  rewrite T'' in T'. injection T' as <-.
  destruct (written_tokens _ _ _ _ _ _ _ Rd W1) as (b1 & m1 & a1 & T1 & R1 & N1 & B1 & M1 & (first & more & l & last & Ef & El & Ex & Ey) & G1 & G2 & G3 & G4).
  assert (Ept : (b1 ++ m1) ++ a1 = b ++ m ++ a) by (rewrite <- app_assoc; rewrite T1 in T; injection T as ->; reflexivity).
  assert (XY : Forall (fun q : ptok => snd (snd q) <= y1) (b1 ++ m1)).
  { rewrite Forall_app. split; [|eapply Forall_impl; [|exact G3]; intros q [_ G]; exact G].
    rewrite Ef in G3, G2. pose proof (Forall_inv G3) as Gq. rewrite !Forall_app in G2. destruct G2 as (_ & G2 & _). apply Forall_inv in G2.
    eapply Forall_impl; [|exact G1]. cbn. intros q' Hq. unfold ptok in *. lia. }
  destruct (split_by _ _ _ _ y1 x Ept ltac:(rewrite <- app_assoc; exact G2) XY St L) as (r & E1 & E2).
  assert (Pl : exists fs1', alike fs1' fs1 /\ nth_error (file_with (place_in p j fs) e') j1 = Some (plug fs1' e1) /\
    firstn j1 (file_with (place_in p j fs) e') = firstn j1 p /\ pre_toks fs1' = pre_toks fs1).
  { destruct (Nat.lt_trichotomy j1 j) as [Lj|[->|Lj]].
    - exists fs1. split; [reflexivity|]. unfold file_with, place_in. cbn [RExpr.before RExpr.frames RExpr.after].
      assert (Le : length (firstn j p) = j) by (apply firstn_length_le; apply Nat.lt_le_incl, nth_error_Some; rewrite N; discriminate).
      split; [rewrite nth_error_app1 by lia; rewrite <- N1; symmetry; rewrite <- (firstn_skipn j p) at 1; rewrite nth_error_app1 by lia; reflexivity|].
      split; [|reflexivity]. rewrite firstn_app, Le. replace (j1 - j) with 0 by lia. cbn [firstn]. rewrite app_nil_r, firstn_firstn. f_equal. lia.
    - rewrite N in N1. injection N1 as N1. destruct (nth_file_with p j fs e' _ N) as [K1 K2].
      destruct (plug_two fs1 e1 fs e (eq_sym N1)) with (N2' := e') as (F & F1 & F2 & F3).
      { assert (Q : length (map fst b) = length (map fst b1) + length (map fst m1) + length r) by (rewrite E1, !map_app, !app_length, !map_length; unfold ptok in *; lia).
        rewrite B, B1, M1, !app_length in Q. unfold ptok in *. lia. }
      exists F. rewrite F1. auto.
    - exfalso.
      assert (Q : length (map fst b) = length (map fst b1) + length (map fst m1) + length r) by (rewrite E1, !map_app, !app_length, !map_length; unfold ptok in *; lia).
      rewrite B, B1, M1, !app_length in Q.
      pose proof (sep_before_le [TNl] (map toks (firstn j1 p)) (S j)) as Q2. rewrite firstn_map, firstn_firstn, Nat.min_l in Q2 by lia.
      rewrite (nth_firstn _ _ _ N), map_app, sep_before_app, app_length in Q2.
      assert (Q3 : length (sep_before [TNl] (map toks [plug fs e])) = length (toks (plug fs e)) + 1) by (unfold sep_before; cbn [map concat]; rewrite app_nil_r, app_length; reflexivity).
      pose proof (plug_len fs e). lia. }
  destruct Pl as (F & A & K1 & K2 & K3). exists F. split; [exact A|].
  exists (file_with (place_in p j fs) e'), b1, first, more, last, (r ++ new ++ a').
  assert (Et : b1 ++ (first :: more) ++ r ++ new ++ a' = b ++ new ++ a') by (rewrite E1, <- Ef, <- !app_assoc; reflexivity).
  rewrite Et. split; [exact T''|]. split; [rewrite M'; exact Nn|]. split; [exact K1|]. split; [rewrite K2, K3; exact B1|]. split; [rewrite <- Ef; exact M1|].
  split; [exact Ex|]. split; [exists l; rewrite <- Ef; exact El|exact Ey].
Qed.

(** ** A pass *)
Lemma ends_well_head : forall w C C', hd_error C = hd_error C' -> ends_well w C -> ends_well w C'.
Proof.
  intros w C C' H (PW & k & v & E & G). exists PW, k, v. split; [exact E|]. destruct G as [G|[G|(K & G)]]; [auto|auto|]. right; right. split; [exact K|].
  destruct G as [->|(c & C1 & -> & I)]; destruct C' as [|c' C']; try discriminate H; [auto|]. right. injection H as <-. eauto.
Qed.
Lemma alike_trans : forall a b c, alike a b -> alike b c -> alike a c.
Proof. unfold alike. intros. congruence. Qed.
Lemma pass_inv : forall pos fs rest out, Splice pos fs rest out -> forall (P : interp -> Prop) pre t eds p, fs = map e_fix eds -> t = pre ++ rest -> blen pre = pos ->
  reads_text t p -> Forall (edit_ok P t) eds ->
  exists q, reads_text (pre ++ out) q /\ same_behaviour P p q /\
    (forall j fs e x y, written t j fs e x y -> y <= pos -> exists fs', alike fs' fs /\ written (pre ++ out) j fs' e x y) /\
    (forall j fs e x, written t j fs e x pos -> hd_error rest = hd_error out) /\
    (forall M : prog -> nat, (forall ed pl, In ed eds -> alike (frames pl) (e_frames ed) -> M (file_with pl (e_old ed)) = S (M (file_with pl (e_new ed)))) ->
       M p = length eds + M q).
Proof.
  induction 1 as [pos rest|pos f fs keep old rest out E1 E2 Sp IH]; intros P pre t eds p Ef Et Ep Rd Ok.
  - exists p. rewrite <- Et. split; [exact Rd|]. split; [intros i Hi s; reflexivity|]. destruct eds; [|discriminate Ef].
    split; [intros j gs e x y W _; exists gs; split; [reflexivity|exact W]|]. split; [reflexivity|]. intros M _. reflexivity.
  - destruct eds as [|ed eds]; [discriminate Ef|]. cbn [map] in Ef. injection Ef as -> ->. inversion Ok as [|? ? O1 Ok']; subst x l.
    destruct O1 as (W & Tw & Be & (A & B & C & Ht & LA & LB & Sw & Ew) & Rp).
    assert (X : A = pre ++ keep /\ B = old /\ C = rest).
    { rewrite blen_app in LB. assert (H1 : A ++ (B ++ C) = (pre ++ keep) ++ (old ++ rest)) by (rewrite <- Ht, Et, <- app_assoc; reflexivity).
      destruct (blen_prefix _ _ _ _ H1) as [HA H2]; [rewrite blen_app; lia|]. destruct (blen_prefix _ _ _ _ H2) as [HB HC]; [lia|]. auto. }
    destruct X as (-> & -> & ->). clear Ht.
    set (f := e_fix ed) in *. set (w := f_content f) in *.
    destruct (IH P ((pre ++ keep) ++ old) t eds p eq_refl) as (q1 & Rd1 & Sb1 & Wr1 & Hd1 & Me1); [rewrite Et, <- !app_assoc; reflexivity|exact LB|exact Rd|exact Ok'|].
    assert (Ew' : ends_well w out) by (apply (ends_well_head _ rest); [exact (Hd1 _ _ _ _ W)|exact Ew]).
    destruct (Wr1 _ _ _ _ _ W (le_n _)) as (F & Al & W1). rewrite <- app_assoc in Rd1, W1.
    pose proof W1 as W1'. rewrite <- LA, <- LB in W1'. destruct (usual_cuts _ _ _ w _ _ _ W1' Sw Ew') as [C1 C2]. rewrite LA in C1, C2.
    assert (Br : breplace (f_start f) (f_end f) w ((pre ++ keep) ++ old ++ out) = Some ((pre ++ keep) ++ w ++ out)).
    { apply breplace_iff. exists (pre ++ keep), old, out. split; [reflexivity|]. split; [exact LA|]. split; [|reflexivity]. lia. }
    destruct (replace_at _ _ _ _ _ _ _ _ _ _ Rd1 W1 Br Tw Be C1 C2) as (N & _ & (pts & T & M) & _).
    pose proof (node_here _ _ _ _ _ Rd1 N) as Nh. destruct (Rp (place_in q1 (e_stmt ed) F) Al Nh) as [Nn Sb].
    exists (file_with (place_in q1 (e_stmt ed) F) (e_new ed)). rewrite <- !app_assoc in *. split; [exists pts; split; [exact T|rewrite M; exact Nn]|].
    split; [|split; [|split]].
    + intros i Hi s. rewrite (Sb1 i Hi s). rewrite <- (Sb i Hi s). f_equal. unfold file_with, place_in. cbn [RExpr.before RExpr.frames RExpr.after]. apply (nth_split_at _ _ _ N).
    + intros j gs e x y Wj L. destruct (Wr1 _ _ _ _ _ Wj) as (G & AG & WG); [lia|]. rewrite <- ?app_assoc in WG.
      destruct (written_after _ _ _ _ _ _ _ _ _ _ _ _ _ _ _ Rd1 W1 Br Tw Be C1 C2 Nn WG) as (G' & AG' & WG'); [lia|]. exists G'. split; [exact (alike_trans _ _ _ AG' AG)|exact WG'].
    + intros j gs e x Wj. destruct keep as [|c keep]; [|reflexivity]. exfalso. cbn in E1. rewrite Nat.add_0_r in E1. rewrite E1 in Wj. exact (not_touching _ _ _ _ _ _ _ _ _ _ Wj W).
    + intros Me HM. rewrite (Me1 Me) by (intros ed' pl I; apply HM; right; exact I). cbn [length].
      specialize (HM ed (place_in q1 (e_stmt ed) F) (or_introl eq_refl) Al).
      assert (E1' : file_with (place_in q1 (e_stmt ed) F) (e_old ed) = q1) by (symmetry; unfold file_with, place_in; cbn [RExpr.before RExpr.frames RExpr.after]; apply (nth_split_at _ _ _ N)).
      rewrite E1' in HM. lia.
Qed.
Theorem pass_harmless : forall P t t' p eds, reads_text t p -> Forall (edit_ok P t) eds -> Splice 0 (map e_fix eds) t t' -> harmless_text P t t'.
Proof.
  intros P t t' p eds Rd Ok Sp. destruct (pass_inv _ _ _ _ Sp P [] t eds p eq_refl eq_refl eq_refl Rd Ok) as (q & Rq & Sb & _). exists p, q. auto.
Qed.

(** ** The passes of a run *)
Lemma sublist_forall : forall {A} (Q : A -> Prop) a b, Sublist a b -> Forall Q b -> Forall Q a.
Proof. induction 1; intros F; [constructor|inversion F; constructor; auto|inversion F; auto]. Qed.
Lemma edits_of : forall P t fs, Forall (fun f => exists ed, e_fix ed = f /\ edit_ok P t ed) fs -> exists eds, map e_fix eds = fs /\ Forall (edit_ok P t) eds.
Proof.
  induction 1 as [|f fs (ed & <- & O) _ (eds & <- & Os)]; [exists []; auto|]. exists (ed :: eds). auto.
Qed.
Lemma edit_in_text : forall P t ed, edit_ok P t ed -> in_text t (e_fix ed).
Proof.
  intros P t ed (_ & _ & _ & (A & B & C & -> & LA & LB & _) & _). exists B. apply bslice_iff. exists A, C. auto.
Qed.
Theorem one_pass_harmless : forall P lint p t sk t', pass lint p t sk t' -> readable t ->
  (forall ds, lint p t = Some ds -> good_fixes P t (map d_fix ds)) -> harmless_text P t t'.
Proof.
  intros P lint p t sk t' (ds & L & A) [q Rd] G. destruct (G _ L) as (Od & Bn & Ed).
  assert (It : Forall (in_text t) (real_fixes (map d_fix ds))).
  { eapply Forall_impl; [|exact Ed]. intros f (ed & <- & O). exact (edit_in_text _ _ _ O). }
  destruct (apply_fixes_real _ _ _ _ Od It Bn A) as (applied & Su & Sp & _).
  destruct (edits_of _ _ _ (sublist_forall _ _ _ Su Ed)) as (eds & <- & Ok). exact (pass_harmless _ _ _ _ _ Rd Ok Sp).
Qed.
Lemma harmless_readable : forall P t t', harmless_text P t t' -> readable t'.
Proof. intros P t t' (p & q & _ & R & _). exists q. exact R. Qed.
Lemma harmless_trans : forall P a b c, harmless_text P a b -> harmless_text P b c -> harmless_text P a c.
Proof.
  intros P a b c (p & q & Ra & Rb & S1) (q' & r & Rb' & Rc & S2). assert (q' = q) as ->.
  { destruct Rb as (pts & T & R). destruct Rb' as (pts' & T' & R'). rewrite T in T'. injection T' as <-. exact (reads_det _ _ _ R' R). }
  exists p, r. split; [exact Ra|]. split; [exact Rc|]. intros I HI s. rewrite (S1 I HI s). exact (S2 I HI s).
Qed.
Theorem run_harmless : forall P lint p t t', passes lint p t t' -> readable t ->
  (forall c ds, visited lint p t c -> lint p c = Some ds -> good_fixes P c (map d_fix ds)) -> harmless_text P t t'.
Proof.
  intros P lint p t t' H. induction H as [c c' Pa|c c1 c' Pa Ps IH]; intros Rd G.
  - apply (one_pass_harmless P lint p _ _ _ Pa Rd). intros ds. apply G. constructor.
  - assert (H1 : harmless_text P c c1) by (apply (one_pass_harmless P lint p _ _ _ Pa Rd); intros ds; apply G; constructor).
    apply (harmless_trans _ _ _ _ H1). apply IH; [exact (harmless_readable _ _ _ H1)|]. intros d ds V. apply G.
    clear - V Pa. induction V; [exact (visited_next _ _ _ _ _ _ (visited_first _ _ _) Pa)|]. eapply visited_next; eauto.
Qed.
Lemma replaceable_as : forall P r e1 p, fix_replaceable P r -> new_text r = Some (toks e1) -> wf true e1 -> frames p = at_frames r ->
  node_of_file p (at_node r) -> replaceable P (at_frames r) (at_node r) e1.
Proof.
  intros P r e1 p H N W F Nd. destruct (H _ N) as (e' & E & R). replace e1 with e'; [exact R|].
  apply toks_inj; [|exact W|auto]. destruct (R p) as [N' _]; [unfold alike; rewrite F; reflexivity|exact Nd|].
  apply node_wf in N'. destruct (enclosed (frames p)); [exact N'|]. exact (wf_weaken _ _ N').
Qed.
