From Verif Require Import Model.Text Model.Base Model.Rules Model.Description Spec.DescriptionSpec
  Proofs.TextProofs Proofs.SplitProofs.

Lemma ws_trim_end_app a w : forallb is_ws w = true -> trim (a ++ w) = trim a.
Proof.
  intros H. destruct (trim_spec a) as (w1 & w2 & E & H1 & H2). 
  rewrite E at 1. rewrite <- !app_assoc.
  apply trim_unique; auto using trim_tight. rewrite forallb_app, H2, H. reflexivity.
Qed.
Lemma ws_trim_start_app a w : forallb is_ws w = true -> trim (w ++ a) = trim a.
Proof.
  intros H. destruct (trim_spec a) as (w1 & w2 & E & H1 & H2).
  rewrite E at 1. rewrite app_assoc.
  apply trim_unique; auto using trim_tight. rewrite forallb_app, H1, H. reflexivity.
Qed.
Lemma trim_ext_suffix a b w : forallb is_ws w = true -> trim (a ++ b) = trim (a ++ b ++ w).
Proof. intros. rewrite app_assoc. symmetry. now apply ws_trim_end_app. Qed.

(** Invariant on the saved fields. *)
Lemma dcf_line_fields_other s l k :
  (forall k', dcf_key s = Some k' -> k' <> k) ->
  (starts_field l -> ~ field_key l k) ->
  assoc k (dcf_fields (dcf_line s l)) = assoc k (dcf_fields s) /\
  (forall k', dcf_key (dcf_line s l) = Some k' -> k' <> k).
Proof.
  intros Hk Hl. unfold dcf_line. destruct l as [|c r]; [auto|].
  destruct (is_ws c) eqn:W; [cbn; auto|].
  destruct (find_char 58%N (c :: r)) as [[a b]|] eqn:F; [|auto].
  apply find_char_some in F as (F1 & F2). cbn [dcf_fields dcf_key]. split.
  - unfold dcf_save. destruct (dcf_key s) as [k'|]; auto. cbn.
    destruct (teqb k k') eqn:E; auto. apply teqb_eq in E. subst k'. exfalso. now apply (Hk k).
  - intros k' [= <-] E. apply Hl.
    + exists c, r. split; auto. split; auto. rewrite F1. apply in_app_iff. right. cbn. auto.
    + exists a, b. auto.
Qed.
Lemma dcf_fold_other ls s k :
  (forall k', dcf_key s = Some k' -> k' <> k) ->
  (forall l, In l ls -> starts_field l -> ~ field_key l k) ->
  assoc k (dcf_save (fold_left dcf_line ls s)) = assoc k (dcf_fields s).
Proof.
  revert s. induction ls as [|l ls IH]; intros s Hk Hl; cbn.
  - unfold dcf_save. destruct (dcf_key s) as [k'|]; auto. cbn.
    destruct (teqb k k') eqn:E; auto. apply teqb_eq in E. subst k'. exfalso. now apply (Hk k).
  - destruct (dcf_line_fields_other s l k Hk) as (E & H); [apply Hl; cbn; auto|].
    rewrite IH; auto. intros l' Hl'. apply Hl. cbn. auto.
Qed.
Lemma dcf_conts conts s : Forall continuation conts ->
  fold_left dcf_line conts s =
  mk_dcf (dcf_fields s) (dcf_key s) (dcf_val s ++ concat (map (fun c => trim c ++ lit " ") conts)).
Proof.
  revert s. induction conts as [|l ls IH]; intros s H; cbn.
  - rewrite app_nil_r. now destruct s.
  - inversion H as [|? ? (c & r & -> & W) H']; subst. rewrite IH by auto. unfold dcf_line. rewrite W.
    cbn [dcf_fields dcf_key dcf_val]. rewrite <- !app_assoc. reflexivity.
Qed.

Lemma concat_shift (ls : list text) :
  lit " " ++ concat (map (fun c => trim c ++ lit " ") ls) = concat (map (fun c => lit " " ++ trim c) ls) ++ lit " ".
Proof.
  induction ls as [|l ls IH]; cbn [map concat]; [reflexivity|].
  rewrite <- !app_assoc. rewrite <- IH. reflexivity.
Qed.

Lemma saved_value v conts :
  trim ((match trim v with [] => [] | _ => trim v ++ lit " " end) ++ concat (map (fun c => trim c ++ lit " ") conts))
  = trim (field_text v conts).
Proof.
  unfold field_text.
  set (K := concat (map (fun c => trim c ++ lit " ") conts)).
  set (K' := concat (map (fun c => lit " " ++ trim c) conts)).
  assert (EK : lit " " ++ K = K' ++ lit " ") by apply concat_shift.
  destruct (trim v) as [|c r] eqn:T.
  - cbn [app].
    rewrite <- (ws_trim_start_app K (lit " ")) by reflexivity. rewrite EK.
    apply ws_trim_end_app. reflexivity.
  - rewrite <- T in *. rewrite <- app_assoc, EK, app_assoc. apply ws_trim_end_app. reflexivity.
Qed.

Lemma key_line k v : ~ In 58%N k -> tight k -> k <> [] ->
  forall s, dcf_line s (k ++ 58%N :: v) =
   mk_dcf (dcf_save s) (Some k) (match trim v with [] => [] | _ => trim v ++ lit " " end).
Proof.
  intros H T NE s. destruct k as [|c r]; [congruence|]. unfold dcf_line. cbn [app].
  destruct T as (T & T'). rewrite (T c r eq_refl).
  assert (F : find_char 58%N ((c :: r) ++ 58%N :: v) = Some (c :: r, v)).
  { apply find_char_some. auto. }
  cbn [app] in F. rewrite F. rewrite (trim_id (c :: r)) by (split; auto). reflexivity.
Qed.

Lemma parse_dcf_field t k v conts : ~ In 58%N k -> tight k -> k <> [] ->
  last_field (lines t) k v conts -> assoc k (parse_dcf t) = Some (trim (field_text v conts)).
Proof.
  intros H T NE (pre & post & E & HC & HP & HO). unfold parse_dcf. rewrite E.
  rewrite fold_left_app. set (s := fold_left dcf_line pre (mk_dcf [] None [])). cbn [fold_left]. rewrite key_line by auto.
  rewrite fold_left_app. rewrite (dcf_conts conts) by exact HC. cbn [dcf_fields dcf_key dcf_val].
  match goal with |- context [fold_left dcf_line post ?x] => set (s2 := x) end. rewrite <- saved_value.
  assert (E1 : assoc k (dcf_save s2) = Some (trim (dcf_val s2))).
  { unfold s2, dcf_save at 1. cbn. now rewrite teqb_refl. }
  change (dcf_val s2) with ((match trim v with [] => [] | _ => trim v ++ lit " " end) ++ concat (map (fun c => trim c ++ lit " ") conts)) in E1.
  destruct post as [|l post]; [exact E1|]. cbn [fold_left].
  destruct HP as (c & r & -> & W & Hc).
  assert (HF : exists a b, find_char 58%N (c :: r) = Some (a, b)).
  { destruct (find_char 58%N (c :: r)) as [[a b]|] eqn:F; eauto. apply find_char_none in F. contradiction. }
  destruct HF as (a & b & F).
  assert (HK : trim a <> k).
  { intros EK. apply (HO (c :: r)); cbn [In]; auto.
    - exists c, r. auto.
    - apply find_char_some in F. exists a, b. tauto. }
  assert (EL : dcf_line s2 (c :: r) = mk_dcf (dcf_save s2) (Some (trim a)) (match trim b with [] => [] | _ => trim b ++ lit " " end)).
  { unfold dcf_line. rewrite W, F. reflexivity. }
  rewrite EL, dcf_fold_other.
  - exact E1.
  - cbn. intros k' [= <-]. exact HK.
  - intros l' Hl'. apply HO. cbn. auto.
Qed.

Lemma remove_all_n_absent n pat c0 t : (exists p, pat = c0 :: p) -> ~ In c0 t -> remove_all_n n pat t = t.
Proof.
  intros (p & ->). revert t. induction n as [|n IH]; intros t H; cbn; auto.
  destruct t as [|c r]; auto. destruct (N.eqb_spec c0 c) as [->|_]; [exfalso; apply H; cbn; auto|].
  rewrite IH; auto. intros X. apply H. cbn. auto.
Qed.

Lemma remove_all_n_prefix n pat t : remove_all_n (S n) pat (pat ++ t) = remove_all_n n pat t.
Proof. cbn [remove_all_n]. now rewrite strip_prefix_app. Qed.
Lemma find_char_app x a b : ~ In x a -> find_char x (a ++ x :: b) = Some (a, b).
Proof. intros. apply find_char_some. auto. Qed.

Definition r_dep (v : text) : text := lit "R (>= " ++ v ++ lit ")".
Lemma extract_r_dep v : v <> [] -> tight v -> ~ In 40%N v -> ~ In 41%N v -> ~ In 62%N v ->
  extract_version (r_dep v) = ROk v.
Proof.
  intros NE T H1 H2 H3. unfold extract_version, r_dep.
  assert (F1 : find_char 40%N (lit "R (>= " ++ v ++ lit ")") = Some (lit "R ", lit ">= " ++ v ++ lit ")")).
  { apply (find_char_app 40%N (lit "R ") (lit ">= " ++ v ++ lit ")")). cbn. intuition discriminate. }
  assert (F2 : find_char 41%N (lit "R (>= " ++ v ++ lit ")") = Some (lit "R (>= " ++ v, [])).
  { replace (lit "R (>= " ++ v ++ lit ")") with ((lit "R (>= " ++ v) ++ 41%N :: []) by now rewrite <- app_assoc.
    apply find_char_app. rewrite in_app_iff. cbn. intuition discriminate. }
  rewrite F1, F2.
  assert (S : bslice (blen (lit "R ") + 1) (blen (lit "R (>= " ++ v)) (lit "R (>= " ++ v ++ lit ")") = Some (lit ">= " ++ v)).
  { apply bslice_iff. exists (lit "R ("), (lit ")"). rewrite !blen_app. cbn. repeat split; lia. }
  rewrite S.
  assert (R : remove_all (lit ">=") (lit ">= " ++ v) = lit " " ++ v).
  { unfold remove_all. rewrite app_length. change (length (lit ">= ")) with 3. cbn [plus].
    change (lit ">= " ++ v) with (lit ">=" ++ (lit " " ++ v)). rewrite remove_all_n_prefix.
    apply remove_all_n_absent with 62%N; [eexists; reflexivity|]. cbn. intuition discriminate. }
  rewrite R. rewrite ws_trim_start_app by reflexivity. rewrite trim_id by auto. destruct v; congruence.
Qed.

(** The only dependency on R is [R (>= v)]. *)
Lemma extract_all_app a b : extract_all (a ++ b) =
  rbind (extract_all a) (fun x => rbind (extract_all b) (fun y => ROk (x ++ y))).
Proof.
  induction a as [|d a IH]; cbn.
  - destruct (extract_all b); reflexivity.
  - destruct (extract_version d); cbn; auto. rewrite IH. destruct (extract_all a), (extract_all b); reflexivity.
Qed.
Definition is_r_dep (s : text) : bool := match s with [] => false | _ => starts_with (lit "R ") s end.

Lemma deps_trim vfield conts :
  map trim (split_on 44%N (trim (field_text vfield conts))) = dependencies vfield conts.
Proof.
  unfold dependencies. set (x := field_text vfield conts). clearbody x. clear.
    destruct (trim_spec x) as (w1 & w2 & E & W1 & W2).
    assert (C1 : forall w, forallb is_ws w = true -> ~ In 44%N w).
    { intros w Hw Hi. rewrite forallb_forall in Hw. apply Hw in Hi. discriminate. }
    rewrite E at 2. set (m := trim x). clearbody m. clear E x.
    assert (A1 : forall w m, forallb is_ws w = true -> map trim (split_on 44%N (w ++ m)) = map trim (split_on 44%N m)).
    { intros w m0 Hw. specialize (C1 w Hw). clear W1 W2 m. induction w as [|c w IH]; auto.
      cbn [app split_on]. destruct (N.eqb_spec c 44%N) as [->|_]; [exfalso; apply C1; cbn; auto|].
      cbn in Hw. apply andb_prop in Hw as (Hc & Hw). rewrite <- IH; auto; [|intros X; apply C1; cbn; auto].
      destruct (split_on 44%N (w ++ m0)) as [|p ps] eqn:E; [now apply split_on_nonempty in E|].
      cbn [map]. f_equal. change (c :: p) with ([c] ++ p). apply ws_trim_start_app. cbn. now rewrite Hc. }
    rewrite A1 by auto. clear A1 W1 w1.
    induction m as [|c m IH]; cbn [app].
    - rewrite (split_on_single 44%N w2) by auto. apply trim_nil in W2. cbn [map]. rewrite W2. reflexivity.
    - cbn [split_on]. destruct (N.eqb c 44%N); [cbn [map]; now rewrite IH|].
      destruct m as [|c2 m2].
      + cbn [app]. rewrite (split_on_single 44%N w2) by auto. cbn [map split_on]. f_equal.
        change (c :: w2) with ([c] ++ w2). symmetry. now rewrite ws_trim_end_app.
      + destruct (split_on 44%N (c2 :: m2)) as [|p ps] eqn:E1; [now apply split_on_nonempty in E1|].
        destruct (split_on 44%N ((c2 :: m2) ++ w2)) as [|q qs] eqn:E2; [now apply split_on_nonempty in E2|].
        cbn [map] in IH |- *. injection IH as IH1 IH2. f_equal; auto.
        (* p and q differ only by trailing white space *)
        assert (PQ : q = p \/ exists w, q = p ++ w /\ forallb is_ws w = true).
        { clear -E1 E2 W2 C1. revert p ps q qs E1 E2. generalize (c2 :: m2) as m. induction m as [|c m IH]; intros p ps q qs E1 E2.
          - cbn in *. injection E1 as <- <-. rewrite split_on_single in E2 by auto. injection E2 as <- <-. right. exists w2. auto.
          - cbn in *. destruct (N.eqb c 44%N).
            + injection E1 as <- <-. injection E2 as <- <-. auto.
            + destruct (split_on 44%N m) as [|p' ps'] eqn:F1; [now apply split_on_nonempty in F1|].
              destruct (split_on 44%N (m ++ w2)) as [|q' qs'] eqn:F2; [now apply split_on_nonempty in F2|].
              injection E1 as <- <-. injection E2 as <- <-.
              destruct (IH p' ps' q' qs' eq_refl eq_refl) as [->|(w & -> & Hw)]; [auto|right; exists w; auto]. }
        destruct PQ as [->|(w & -> & Hw)]; auto. rewrite app_comm_cons. symmetry. now apply ws_trim_end_app. 
Qed.

Lemma depends_version t vfield conts before after v :
  last_field (lines t) (lit "Depends") vfield conts ->
  dependencies vfield conts = before ++ r_dep v :: after ->
  (forall d, In d before \/ In d after -> forall x, d <> lit "R " ++ x) ->
  v <> [] -> tight v -> ~ In 40%N v -> ~ In 41%N v -> ~ In 62%N v ->
  get_depend_r_version t = ROk [v].
Proof.
  intros HF HD HO NE T H1 H2 H3. unfold get_depend_r_version.
  rewrite (parse_dcf_field t (lit "Depends") vfield conts).
  2: { cbn. intuition discriminate. }
  2: { rewrite <- (eq_refl : trim (lit "Depends") = lit "Depends"). apply trim_tight. }
  2: { discriminate. }
  2: { exact HF. }
  rewrite deps_trim, HD. change (fun s => match s with [] => false | _ => _ end) with is_r_dep.
  assert (FO : forall l, (forall d, In d l -> forall x, d <> lit "R " ++ x) -> filter is_r_dep l = []).
  { intros l Hl. induction l as [|d l IH]; auto. cbn [filter].
    assert (Hd : is_r_dep d = false).
    { unfold is_r_dep. destruct d as [|c d]; auto. apply not_true_is_false. intros X. apply starts_with_iff in X as (x & X).
      apply (Hl (c :: d)) in X; cbn; auto. }
    rewrite Hd. apply IH. intros d' Hd'. apply Hl. cbn. auto. }
  rewrite filter_app. cbn [filter]. change (is_r_dep (r_dep v)) with true. cbv iota.
  rewrite !FO by (intros d Hd; apply HO; auto). cbn [app extract_all]. rewrite extract_r_dep by auto. reflexivity.
Qed.

Lemma depends_no_panic t vfield conts :
  last_field (lines t) (lit "Depends") vfield conts ->
  (forall d x, In d (dependencies vfield conts) -> d = lit "R " ++ x ->
     exists v, d = r_dep v /\ v <> [] /\ tight v /\ ~ In 40%N v /\ ~ In 41%N v /\ ~ In 62%N v) ->
  exists vs, get_depend_r_version t = ROk vs.
Proof.
  intros HF HD. unfold get_depend_r_version.
  rewrite (parse_dcf_field t (lit "Depends") vfield conts).
  2: { cbn. intuition discriminate. }
  2: { rewrite <- (eq_refl : trim (lit "Depends") = lit "Depends"). apply trim_tight. }
  2: { discriminate. }
  2: { exact HF. }
  rewrite deps_trim. change (fun s => match s with [] => false | _ => _ end) with is_r_dep.
  induction (dependencies vfield conts) as [|d l IH]; [cbn; eauto|].
  destruct IH as (vs & IH). { intros d1 x1 Hd1 E1. apply (HD d1 x1); cbn; auto. }
  cbn [filter]. destruct (is_r_dep d) eqn:E; [|eauto].
  assert (X : exists x, d = lit "R " ++ x).
  { unfold is_r_dep in E. destruct d as [|c d]; [discriminate|]. apply starts_with_iff in E. exact E. }
  destruct X as (x & X). destruct (HD d x) as (v & -> & H1 & H2 & H3 & H4 & H5); [cbn; auto|auto|].
  cbn [extract_all]. rewrite extract_r_dep by auto. cbn [rbind]. rewrite IH. cbn. eauto.
Qed.

(** ** The lines of a text *)
Lemma ss_some x t u : strip_suffix1 x t = Some u -> t = u ++ [x].
Proof.
  unfold strip_suffix1. destruct (rev t) as [|c r] eqn:E; [discriminate|]. destruct (N.eqb c x) eqn:C; [|discriminate].
  intros [= <-]. apply N.eqb_eq in C. subst. apply (f_equal (@rev _)) in E. rewrite rev_involutive in E. exact E.
Qed.
Lemma ss_snoc x t : strip_suffix1 x (t ++ [x]) = Some t.
Proof. unfold strip_suffix1. rewrite rev_app_distr. simpl. now rewrite N.eqb_refl, rev_involutive. Qed.
Lemma ss_no x t : (forall y, t <> y ++ [x]) -> strip_suffix1 x t = None.
Proof. intros H. destruct (strip_suffix1 x t) eqn:E; auto. apply ss_some in E. now apply H in E. Qed.
Lemma split_incl_last l : l <> [] -> ~ In nl l -> split_incl l = [l].
Proof.
  induction l as [|c l IH]; intros N H; [congruence|]. cbn [split_incl].
  rewrite (proj2 (N.eqb_neq c nl)) by (intros ->; apply H; now left).
  destruct l as [|d l]; [reflexivity|]. rewrite IH; [reflexivity|discriminate|]. intros I. apply H. now right.
Qed.
Lemma split_incl_first l t : ~ In nl l -> split_incl (l ++ nl :: t) = (l ++ [nl]) :: split_incl t.
Proof.
  induction l as [|c l IH]; intros H; cbn [split_incl app].
  - now rewrite N.eqb_refl.
  - rewrite (proj2 (N.eqb_neq c nl)) by (intros ->; apply H; now left).
    rewrite IH; [reflexivity|]. intros I. apply H. now right.
Qed.
Lemma text_lines_lines t ls : text_lines t ls -> lines t = ls.
Proof.
  unfold lines. induction 1 as [|l N H|l t ls H C _ IH|l t ls H _ IH].
  - reflexivity.
  - rewrite split_incl_last by auto. cbn [map]. unfold chomp. rewrite ss_no; [reflexivity|].
    intros y ->. apply H. apply in_or_app. right. now left.
  - cbn [app]. rewrite split_incl_first by auto. cbn [map]. rewrite IH. unfold chomp. rewrite ss_snoc, ss_no; auto.
  - replace (l ++ [13%N; nl] ++ t) with ((l ++ [13%N]) ++ nl :: t) by now rewrite <- app_assoc.
    rewrite split_incl_first.
    + cbn [map]. rewrite IH. unfold chomp. now rewrite !ss_snoc.
    + intros I. apply in_app_or in I as [I|[I|[]]]; [auto|discriminate].
Qed.
Lemma text_lines_total t : exists ls, text_lines t ls.
Proof.
  induction t as [t IH] using (well_founded_induction (Wf_nat.well_founded_ltof _ (@length char))).
  unfold Wf_nat.ltof in IH.
  destruct (find_char nl t) as [[l r]|] eqn:F.
  - apply find_char_some in F as (-> & H). destruct (IH r) as (ls & K). { rewrite app_length. cbn. lia. }
    destruct (strip_suffix1 13%N l) as [u|] eqn:E.
    + apply ss_some in E. subst l. exists (u :: ls). rewrite <- app_assoc. apply (tl_crlf u r ls); auto.
      intros I. apply H. apply in_or_app. now left.
    + exists (l :: ls). apply (tl_line l r ls); auto. intros x ->. now rewrite ss_snoc in E.
  - destruct t as [|c t]; [exists []; constructor|]. exists [c :: t]. constructor; [discriminate|].
    apply find_char_none in F. exact F.
Qed.
Lemma text_lines_iff t ls : text_lines t ls <-> lines t = ls.
Proof.
  split; [apply text_lines_lines|]. intros <-. destruct (text_lines_total t) as (ls & H).
  now rewrite (text_lines_lines _ _ H).
Qed.
