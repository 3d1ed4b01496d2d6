(** Extraction of chunks. *)
From Coq Require Import Sorted.
From Verif Require Import Model.Text Model.Base Model.Rules Model.Directive Model.Fix Model.Driver Model.Suppress
  Model.Document Model.SuppressEdit Model.Rmd Spec.DirectiveSpec Spec.SuppressSpec Spec.SuppressEditSpec Spec.RmdSpec
  Proofs.TextProofs Proofs.SplitProofs Proofs.RulesProofs Proofs.DirectiveProofs Proofs.SuppressProofs
  Proofs.SuppressEditProofs.

Lemma drop_take f t : take_while f t ++ drop_while f t = t.
Proof. induction t as [|c t IH]; cbn; auto. destruct (f c); cbn; congruence. Qed.
Lemma take_while_all f t : Forall (fun c => f c = true) (take_while f t).
Proof. induction t as [|c t IH]; cbn; auto. destruct (f c) eqn:E; auto. Qed.
Lemma drop_while_head f t c r : drop_while f t = c :: r -> f c = false.
Proof. induction t as [|x t IH]; cbn; [discriminate|]. destruct (f x) eqn:E; auto. intros [= <- _]; auto. Qed.
Lemma take_while_app f a b : Forall (fun c => f c = true) a -> (forall c r, b = c :: r -> f c = false) ->
  take_while f (a ++ b) = a /\ drop_while f (a ++ b) = b.
Proof.
  intros Ha Hb. induction a as [|c a IH]; cbn.
  - destruct b as [|c b]; auto. cbn. rewrite (Hb c b); auto.
  - inversion Ha; subst. rewrite H1. destruct (IH H2) as (-> & ->). auto.
Qed.
Lemma all_backquotes t : Forall (fun c => (backquote =? c)%N = true) t -> t = repeat 96%N (length t).
Proof. induction 1 as [|c t H _ IH]; cbn; auto. apply N.eqb_eq in H. unfold backquote in H. congruence. Qed.

Lemma open_fence_iff l f : open_fence l = Some f <-> opening_line f l.
Proof.
  unfold open_fence. split.
  - set (t := drop_while is_tab_or_space l). set (q := take_while _ t).
    destruct (3 <=? length q) eqn:L; [|discriminate]. apply Nat.leb_le in L.
    destruct (drop_while (N.eqb backquote) t) as [|b [|r rest]] eqn:D; try discriminate.
    destruct (_ && _) eqn:E; [|discriminate]. intros [= <-].
    apply andb_prop in E. destruct E as (E & E3). apply andb_prop in E. destruct E as (E1 & E2).
    apply N.eqb_eq in E1. subst b. apply existsb_exists in E3. destruct E3 as (x & Hx & Ex). apply N.eqb_eq in Ex. subst x.
    apply in_split in Hx. destruct Hx as (opts & rest' & ->).
    exists (length q), (take_while is_tab_or_space l), r, opts, rest'. split; auto.
    split; [apply all_backquotes, take_while_all|]. split.
    { eapply Forall_impl; [|apply take_while_all]. intros c Hc. unfold is_tab_or_space in Hc. apply orb_prop in Hc.
      destruct Hc as [Hc|Hc]; apply N.eqb_eq in Hc; auto. }
    split. { apply orb_prop in E2. destruct E2 as [E2|E2]; apply N.eqb_eq in E2; auto. }
    rewrite <- (drop_take is_tab_or_space l) at 1. f_equal. fold t. rewrite <- (drop_take (N.eqb backquote) t) at 1. fold q.
    rewrite D. reflexivity.
  - intros (n & sp & x & opts & rest & Hn & -> & Hsp & Hx & ->).
    assert (A : take_while is_tab_or_space (sp ++ repeat 96%N n ++ lit "{" ++ [x] ++ opts ++ lit "}" ++ rest) = sp /\
      drop_while is_tab_or_space (sp ++ repeat 96%N n ++ lit "{" ++ [x] ++ opts ++ lit "}" ++ rest) = repeat 96%N n ++ lit "{" ++ [x] ++ opts ++ lit "}" ++ rest).
    { apply take_while_app.
      - eapply Forall_impl; [|exact Hsp]. intros c [-> | ->]; reflexivity.
      - destruct n as [|n]; [lia|]. cbn [repeat app]. intros c r [= <- _]. reflexivity. }
    unfold char in *. destruct A as (_ & A). rewrite A. clear A.
    assert (B : take_while (N.eqb backquote) (repeat 96%N n ++ lit "{" ++ [x] ++ opts ++ lit "}" ++ rest) = repeat 96%N n /\
       drop_while (N.eqb backquote) (repeat 96%N n ++ lit "{" ++ [x] ++ opts ++ lit "}" ++ rest) = lit "{" ++ [x] ++ opts ++ lit "}" ++ rest).
    { apply take_while_app.
      - apply Forall_forall. intros c H. apply repeat_spec in H. now subst c.
      - change (lit "{") with [123%N]. intros c r [= <- _]. reflexivity. }
    unfold char in *. destruct B as (B1 & B2). rewrite B1, B2. clear B1 B2. rewrite repeat_length. rewrite (proj2 (Nat.leb_le _ _) Hn).
    change (lit "{") with [123%N]. change (lit "}") with [125%N]. cbn [app].
    assert (E : existsb (N.eqb 125) (opts ++ 125%N :: rest) = true).
    { apply existsb_exists. exists 125%N. split; [apply in_or_app; right; now left|reflexivity]. }
    rewrite E. destruct Hx as [-> | ->]; reflexivity.
Qed.
Lemma fence_tight n : 3 <= n -> tight (repeat 96%N n).
Proof.
  intros H. split.
  - destruct n; cbn; [lia|]. intros c r [= <- _]. reflexivity.
  - intros r c E. assert (In c (repeat 96%N n)) by (rewrite E; apply in_or_app; right; now left).
    apply repeat_spec in H0. now subst.
Qed.
Lemma close_iff l f o : opening_line f o -> teqb (trim l) f = true <-> closing_line f l.
Proof.
  intros (n & _ & _ & _ & _ & Hn & -> & _). rewrite teqb_eq. now apply trim_is, fence_tight.
Qed.
Lemma opening_fun f g l : opening_line f l -> opening_line g l -> f = g.
Proof. rewrite <- !open_fence_iff. congruence. Qed.

Lemma extract_code f o ls : opening_line f o -> forall off acc st,
  (exists (code : list text) (c : text) (rest : list text), ls = code ++ c :: rest /\ Forall (fun l => ~ closing_line f l) code /\ closing_line f c /\
    extract_lines off (Some (f, acc, st)) ls = Raw st (acc ++ concat code) :: extract_lines (off + blen (concat code) + blen c) None rest) \/
  (Forall (fun l => ~ closing_line f l) ls /\ extract_lines off (Some (f, acc, st)) ls = []).
Proof.
  intros Ho. induction ls as [|l ls IH]; intros off acc st; cbn [extract_lines]; auto.
  destruct (teqb (trim l) f) eqn:E.
  - apply (close_iff _ _ _ Ho) in E. left. exists [], l, ls. cbn [app concat]. rewrite app_nil_r, Nat.add_0_r. auto.
  - assert (N : ~ closing_line f l) by (rewrite <- (close_iff _ _ _ Ho); congruence).
    destruct (IH (off + blen l) (acc ++ l) st) as [(code & c & rest & E1 & H1 & H2 & H3)|(H1 & H3)].
    + left. exists (l :: code), c, rest. cbn [app concat]. split; [congruence|]. split; auto. split; auto.
      rewrite blen_app, app_assoc, Nat.add_assoc. exact H3.
    + right. auto.
Qed.
Lemma extract_code_app f o (code : list text) (c : text) (rest : list text) : opening_line f o -> Forall (fun l => ~ closing_line f l) code -> closing_line f c ->
  forall off acc st, extract_lines off (Some (f, acc, st)) (code ++ c :: rest)
    = Raw st (acc ++ concat code) :: extract_lines (off + blen (concat code) + blen c) None rest.
Proof.
  intros Ho Hc Hcl. induction Hc as [|l code Hl _ IH]; intros off acc st; cbn [app extract_lines concat].
  - rewrite (proj2 (close_iff _ _ _ Ho) Hcl). cbn. now rewrite app_nil_r, Nat.add_0_r.
  - destruct (teqb (trim l) f) eqn:E; [now apply (close_iff _ _ _ Ho) in E|]. rewrite IH.
    now rewrite blen_app, <- app_assoc, Nat.add_assoc.
Qed.
Lemma extract_code_none f o (code : list text) : opening_line f o -> Forall (fun l => ~ closing_line f l) code ->
  forall off acc st, extract_lines off (Some (f, acc, st)) code = [].
Proof.
  intros Ho Hc. induction Hc as [|l code Hl _ IH]; intros off acc st; cbn [extract_lines]; auto.
  destruct (teqb (trim l) f) eqn:E; [now apply (close_iff _ _ _ Ho) in E|]. apply IH.
Qed.
Theorem extract_exact off ls cs : extract_lines off None ls = cs <-> reads off ls cs.
Proof.
  split.
  - intros <-. remember (length ls) as n eqn:E. assert (L : length ls <= n) by lia. clear E. revert off ls L.
    induction n as [|n IH]; intros off ls L.
    { destruct ls; cbn in L; [constructor|lia]. }
    destruct ls as [|l ls]; cbn [extract_lines]; [constructor|]. cbn in L.
    destruct (open_fence l) as [f|] eqn:F.
    + apply open_fence_iff in F.
      destruct (extract_code f l ls F (off + blen l) [] (off + blen l)) as [(code & c & rest & E1 & H1 & H2 & H3)|(H1 & H3)];
        refine (eq_ind_r (fun x => reads off (l :: ls) x) _ H3); clear H3; try subst ls.
      * eapply reads_chunk; eauto. apply IH. rewrite app_length in L. cbn in L. lia.
      * eapply reads_unclosed; eauto.
    + apply reads_text; [|apply IH; lia]. intros f Hf. apply open_fence_iff in Hf. congruence.
  - induction 1 as [off|off l ls cs H _ IH|off f o code c ls cs Ho Hc Hcl _ IH|off f o code Ho Hc]; cbn [extract_lines]; auto.
    + destruct (open_fence l) as [f|] eqn:F; auto. apply open_fence_iff in F. now apply H in F.
    + rewrite (proj2 (open_fence_iff _ _) Ho). pose proof (extract_code_app f o code c ls Ho Hc Hcl (off + blen o) [] (off + blen o)) as H3. refine (eq_trans H3 _). cbn [app]. congruence.
    + rewrite (proj2 (open_fence_iff _ _) Ho). apply (extract_code_none f o); auto.
Qed.

Lemma reads_slices off ls cs : reads off ls cs ->
  Forall (fun c => exists f pre o code cl post, ls = pre ++ o :: code ++ cl :: post /\
    opening_line f o /\ Forall (fun l => ~ closing_line f l) code /\ closing_line f cl /\
    r_code c = concat code /\ r_start c = off + blen (concat pre) + blen o) cs.
Proof.
  induction 1 as [off|off l ls cs H _ IH|off f o code c ls cs Ho Hc Hcl _ IH|off f o code Ho Hc]; auto.
  - eapply Forall_impl; [|exact IH]. intros c (f & pre & o & code & cl & post & -> & H1 & H2 & H3 & H4 & H5).
    exists f, (l :: pre), o, code, cl, post. cbn [app concat]. rewrite blen_app. repeat split; auto. lia.
  - constructor.
    + exists f, [], o, code, c, ls. cbn. repeat split; auto.
    + eapply Forall_impl; [|exact IH]. intros r (f' & pre & o' & code' & cl & post & -> & H1 & H2 & H3 & H4 & H5).
      exists f', (o :: code ++ c :: pre), o', code', cl, post. cbn [app concat]. rewrite <- app_assoc. cbn [app].
      rewrite concat_app. cbn [concat]. rewrite !blen_app. repeat split; auto. lia.
Qed.
(** Pieces of [split_incl]. *)
Fixpoint lines_ok (ls : list text) : Prop :=
  match ls with
  | [] => True
  | [l] => l <> [] /\ exists a, ~ In nl a /\ (l = a \/ l = a ++ [nl])
  | l :: r => (exists a, ~ In nl a /\ l = a ++ [nl]) /\ lines_ok r
  end.
Lemma lines_ok_cons l r : lines_ok r -> (exists a, ~ In nl a /\ l = a ++ [nl]) -> lines_ok (l :: r).
Proof.
  intros H (a & Ha & ->). destruct r; cbn; [|eauto]. split; [now destruct a|]. eauto.
Qed.
Lemma split_incl_ok t : lines_ok (split_incl t).
Proof.
  induction t as [|c t IH]; cbn [split_incl]; [exact I|]. destruct (N.eqb c nl) eqn:E.
  - apply lines_ok_cons; auto. apply N.eqb_eq in E. subst c. exists []. auto.
  - apply N.eqb_neq in E. destruct (split_incl t) as [|p ps].
    + cbn. split; [discriminate|]. exists [c]. split; [|now left]. intros [H|[]]. auto.
    + destruct ps as [|q ps]; cbn in *.
      * destruct IH as (_ & a & Ha & [->|H]); (split; [discriminate|]).
        -- exists (c :: a). split; [|now left]. intros [H|H]; auto.
        -- subst p. exists (c :: a). split; [|now right]. intros [H|H]; auto.
      * destruct IH as ((a & Ha & ->) & IH). split; auto. exists (c :: a). split; auto. intros [H|H]; auto.
Qed.
Lemma split_incl_of ls : lines_ok ls -> split_incl (concat ls) = ls.
Proof.
  induction ls as [|l ls IH]; intros H; [reflexivity|]. cbn [concat].
  destruct ls as [|m ls].
  - cbn [concat]. rewrite app_nil_r. destruct H as (Hn & a & Ha & [->|H]).
    + revert Ha Hn. clear. rename a into l. induction l as [|c l IH]; intros H Hn; [now destruct Hn|].
      cbn [split_incl]. destruct (N.eqb c nl) eqn:E; [apply N.eqb_eq in E; exfalso; apply H; now left|].
      destruct l as [|d l]; [reflexivity|]. rewrite IH; [reflexivity| |discriminate]. intros X. apply H. now right.
    + subst l. rewrite split_incl_line by auto. reflexivity.
  - destruct H as ((a & Ha & ->) & H). rewrite <- app_assoc. cbn [app]. rewrite split_incl_line by auto. now rewrite IH.
Qed.
Lemma lines_ok_app a b : lines_ok (a ++ b) -> lines_ok a /\ lines_ok b.
Proof.
  induction a as [|l a IH]; cbn [app]; intros H; [split; [exact I|auto]|].
  assert (H' : lines_ok (a ++ b)) by (destruct (a ++ b); [exact I|apply H]).
  apply IH in H'. destruct H' as (H1 & H2). split; auto.
  destruct a as [|m a]; [|destruct H; split; auto].
  destruct b as [|m b]; [exact H|]. destruct H as ((x & Hx & ->) & _). cbn. split; [now destruct x|]. eauto.
Qed.
Theorem chunk_slice content c : In c (extract_r_chunks content) ->
  exists f pre o cl post, content = pre ++ o ++ r_code c ++ cl ++ post /\ r_start c = blen (pre ++ o) /\
    opening_line f o /\ closing_line f cl /\
    Forall (fun l => ~ closing_line f l) (split_incl (r_code c)) /\
    In o (split_incl content) /\ In cl (split_incl content).
Proof.
  intros H. unfold extract_r_chunks in H.
  pose proof (proj1 (extract_exact 0 (split_incl content) _) eq_refl) as R. apply reads_slices in R.
  rewrite Forall_forall in R. destruct (R c H) as (f & pre & o & code & cl & post & E & Ho & Hn & Hc & Hr & Hs).
  exists f, (concat pre), o, cl, (concat post). rewrite Hr, Hs, blen_app.
  split. { rewrite <- (split_incl_concat content), E at 1. rewrite concat_app. cbn [concat]. rewrite concat_app. cbn [concat].
    reflexivity. }
  split; [lia|]. split; auto. split; auto.
  assert (S : split_incl (concat code) = code).
  { assert (L : lines_ok (split_incl content)) by apply split_incl_ok. rewrite E in L.
    apply lines_ok_app in L. destruct L as (_ & L). apply (lines_ok_app [o]) in L. destruct L as (_ & L).
    apply lines_ok_app in L. now apply split_incl_of. }
  rewrite S. split; auto. rewrite E. split; apply in_or_app; right; [now left|right; apply in_or_app; right; now left].
Qed.

(** Chunks come in order, with at least a closing and an opening line in between. *)
Lemma reads_after off ls cs : reads off ls cs -> Forall (fun c => off < r_start c) cs /\
  StronglySorted (fun a b => r_start a + blen (r_code a) < r_start b) cs.
Proof.
  assert (OP : forall f o, opening_line f o -> 0 < blen o).
  { intros f o (n & sp & x & opts & rest & Hn & -> & _ & _ & ->). rewrite !blen_app.
    change (blen (lit "{")) with 1. lia. }
  induction 1 as [off|off l ls cs H _ IH|off f o code c ls cs Ho Hc Hcl _ IH|off f o code Ho Hc].
  - split; constructor.
  - destruct IH as (IH1 & IH2). split; auto. eapply Forall_impl; [|exact IH1]. cbn. lia.
  - destruct IH as (IH1 & IH2). split.
    + constructor; [cbn; specialize (OP f o Ho); lia|]. eapply Forall_impl; [|exact IH1]. cbn. lia.
    + constructor; auto. eapply Forall_impl; [|exact IH1]. cbn. lia.
  - split; constructor.
Qed.
Theorem chunks_disjoint content :
  StronglySorted (fun a b => r_start a + blen (r_code a) < r_start b) (extract_r_chunks content).
Proof.
  pose proof (proj1 (extract_exact 0 (split_incl content) _) eq_refl) as R. now apply reads_after in R.
Qed.

(** ** Diagnostics of Rmd files *)
Lemma rmd_managers_in : forall cs index ms c m, rmd_managers index cs = Some ms ->
  (In (c, m) ms <-> exists i m0, nth_error cs i = Some (Some c) /\ from_node (ch_tree c) (ch_code c) = Some m0 /\ m = move_files (index + i) m0).
Proof.
  induction cs as [|[c'|] cs IH]; intros index ms c m; cbn [rmd_managers].
  - intros [= <-]. split; [intros []|]. intros (i & m0 & H & _). destruct i; discriminate.
  - destruct (from_node (ch_tree c') (ch_code c')) as [m0|] eqn:F; [|discriminate]. cbn [obind].
    destruct (rmd_managers (S index) cs) as [ms'|] eqn:R; [|discriminate]. cbn [obind]. intros [= <-].
    cbn [In]. rewrite (IH (S index) ms' c m R). split.
    + intros [[= <- <-]|(i & m1 & H1 & H2 & H3)].
      * exists 0, m0. rewrite Nat.add_0_r. auto.
      * exists (S i), m1. rewrite <- plus_n_Sm. auto.
    + intros (i & m1 & H1 & H2 & H3). destruct i as [|i].
      * left. cbn in H1. injection H1 as <-. rewrite Nat.add_0_r in H3. congruence.
      * right. exists i, m1. rewrite <- plus_n_Sm in H3. auto.
  - intros R. rewrite (IH (S index) ms c m R). split.
    + intros (i & m1 & H1 & H2 & H3). exists (S i), m1. rewrite <- plus_n_Sm. auto.
    + intros (i & m1 & H1 & H2 & H3). destruct i as [|i]; [discriminate|]. exists i, m1. rewrite <- plus_n_Sm in H3. auto.
Qed.
Lemma analysed_nth parse cs i c : nth_error (map (analysed parse) cs) i = Some (Some c) <->
  exists r tree exprs unreachable, nth_error cs i = Some r /\ parse (r_code r) = Some (tree, exprs, unreachable) /\
    c = Chunk (r_start r) (r_code r) tree exprs unreachable.
Proof.
  rewrite nth_error_map. destruct (nth_error cs i) as [r|]; cbn [option_map].
  - unfold analysed. split.
    + destruct (parse (r_code r)) as [[[tree exprs] unreachable]|] eqn:P; [|discriminate]. intros [= <-]. exists r, tree, exprs, unreachable. auto.
    + intros (r' & tree & exprs & unreachable & [= <-] & -> & ->). reflexivity.
  - split; [discriminate|]. intros (r' & tree & exprs & unreachable & [=] & _).
Qed.
Section Rmd.
Variables (enabled : rule -> bool) (parse : text -> option (node * list diag * list diag)) (content : text).
Hypothesis Hp : parse_ok parse.
Let cs := map (analysed parse) (extract_r_chunks content).
Variable ms : list (chunk * manager).
Hypothesis Hm : rmd_managers 0 cs = Some ms.

Lemma all_diags d : In d (flat_map (chunk_diags enabled) ms) <-> exists i, chunk_reports enabled parse content i d.
Proof.
  rewrite in_flat_map. split.
  - intros ((c & m) & Hc & H). apply (rmd_managers_in _ _ _ _ _ Hm) in Hc. destruct Hc as (i & m0 & H1 & H2 & H3).
    apply analysed_nth in H1. destruct H1 as (r & tree & exprs & unreachable & H4 & H5 & ->).
    unfold chunk_diags in H. cbn [fst snd ch_start ch_exprs ch_unreachable ch_tree ch_code] in *.
    apply in_map_iff in H. destruct H as (d0 & <- & H). exists i, r, tree, exprs, unreachable, m0, d0.
    cbn [plus] in H3. subst m. repeat split; auto.
  - intros (i & r & tree & exprs & unreachable & m0 & d0 & H1 & H2 & H3 & H4 & ->).
    exists (Chunk (r_start r) (r_code r) tree exprs unreachable, move_files i m0). split.
    + apply (rmd_managers_in _ _ _ _ _ Hm). exists i, m0. split; auto. apply analysed_nth. eauto 8.
    + unfold chunk_diags. cbn [fst snd ch_start ch_exprs ch_unreachable]. apply in_map_iff. exists d0. auto.
Qed.
Lemma file_suppressions_in c r : In (c, r) (file_suppressions ms) <-> file_comment parse content r c.
Proof.
  unfold file_suppressions. rewrite in_flat_map. split.
  - intros ((ch & m) & Hc & H). apply in_map_iff in H. destruct H as (w & [= <- <-] & H).
    apply (rmd_managers_in _ _ _ _ _ Hm) in Hc. destruct Hc as (i & m0 & H1 & H2 & H3). cbn [fst snd plus] in *.
    unfold move_files in H3. destruct i as [|i]; [|subst m; destruct H]. cbn in H3. subst m0.
    apply analysed_nth in H1. destruct H1 as (r & tree & exprs & unreachable & H4 & H5 & ->).
    cbn [ch_start ch_tree ch_code] in *. destruct (from_node_describes _ _ _ (Hp _ _ _ _ H5) H2) as [D _ _ _ _ _ _ _ _ _ _ _ _ _ _].
    rewrite D in H. apply in_flat_map in H. destruct H as (v & Hv & H). unfold o_file in H.
    destruct (v_role v) as [[]| | |] eqn:Er; try (now destruct H).
    destruct (vparse v) as [[[[] rr]| | |]|] eqn:Ep; try (now destruct H). destruct H as [<-|[]]. cbn [w_rule w_comment].
    destruct (extract_r_chunks content) as [|c0 cs'] eqn:Ec; [discriminate|]. injection H4 as <-.
    exists c0, cs', tree, exprs, unreachable, v. repeat split; eauto.
  - intros (c0 & cs' & tree & exprs & unreachable & v & H1 & H2 & H3 & H4 & (H5 & H6) & ->).
    assert (F : exists m, In (Chunk (r_start c0) (r_code c0) tree exprs unreachable, m) ms /\ from_node tree (r_code c0) = Some m).
    { subst cs. rewrite H1 in Hm. cbn [map] in Hm. unfold analysed at 1 in Hm. rewrite H2 in Hm. cbn [rmd_managers ch_tree ch_code] in Hm.
      destruct (from_node tree (r_code c0)) as [m0|]; [|discriminate]. cbn [obind] in Hm.
      destruct (rmd_managers 1 _) as [ms'|]; [|discriminate]. cbn [obind] in Hm. injection Hm as <-. exists m0. split; [now left|auto]. }
    destruct F as (m & Hin & Hf). exists (Chunk (r_start c0) (r_code c0) tree exprs unreachable, m). split; auto.
    cbn [fst snd ch_start]. apply in_map_iff. exists (Wide r (v_range v)). split; [reflexivity|].
    destruct (from_node_describes _ _ _ (Hp _ _ _ _ H2) Hf) as [D _ _ _ _ _ _ _ _ _ _ _ _ _ _]. rewrite D.
    apply in_flat_map. exists v. split; auto. unfold o_file, vparse. rewrite H4, H6. now left.
Qed.
Lemma mem_rule_in r l : mem_rule r l = true <-> In r l.
Proof.
  unfold mem_rule. rewrite existsb_exists. split.
  - intros (x & Hx & E). apply rule_eqb_eq in E. now subst.
  - intros H. exists r. split; auto. now apply rule_eqb_eq.
Qed.
Lemma suppressed_in r : In r (suppressed_rules ms) <-> exists c, file_comment parse content r c.
Proof.
  unfold suppressed_rules. rewrite in_map_iff. split.
  - intros ((c & r') & <- & H). apply file_suppressions_in in H. cbn. eauto.
  - intros (c & H). apply file_suppressions_in in H. exists (c, r). auto.
Qed.
End Rmd.
Lemma range_eqb_iff a b : range_eqb a b = true <-> a = b.
Proof.
  destruct a, b. unfold range_eqb. cbn [fst snd]. rewrite andb_true_iff, !Nat.eqb_eq. split; [intros (-> & ->)|intros [= -> ->]]; auto.
Qed.

(** What is reported for an Rmd file. *)
Theorem rmd_exact enabled parse content out d : parse_ok parse -> get_checks_rmd enabled parse content = Some out ->
  (In d out <->
    (exists i, chunk_reports enabled parse content i d) /\
    (forall r c, d_rule d = rule_name r -> ~ file_comment parse content r c) /\
    ~ (d_rule d = rule_name R_OutdatedSuppression /\ exists r, file_comment parse content r (d_range d) /\
       r <> R_OutdatedSuppression /\ exists i d', chunk_reports enabled parse content i d' /\ d_rule d' = rule_name r)).
Proof.
  intros Hp. unfold get_checks_rmd, rmd_checks. destruct (rmd_managers 0 _) as [ms|] eqn:R; [|discriminate]. cbn [obind].
  intros [= <-]. rewrite !filter_In, all_diags by eauto. rewrite !negb_true_iff.
  set (violated := flat_map _ _).
  assert (V : forall r, In r violated <-> (exists c, file_comment parse content r c) /\ r <> R_OutdatedSuppression /\
     exists i d', chunk_reports enabled parse content i d' /\ d_rule d' = rule_name r).
  { intros r. subst violated. rewrite in_flat_map. split.
    - intros (d' & H1 & H2). apply filter_In in H1. destruct H1 as (H1 & H3). apply (all_diags enabled parse content ms R) in H1. destruct H1 as (i & H1).
      destruct (from_name (d_rule d')) as [r'|] eqn:F; [|destruct H2]. apply from_name_iff in F.
      destruct (mem_rule r' (suppressed_rules ms)) eqn:M; [|destruct H2]. destruct H2 as [->|[]].
      apply mem_rule_in in M. apply (suppressed_in parse content Hp ms R) in M. split; auto. split; [|eauto].
      intros ->. rewrite F in H3. apply negb_true_iff in H3. rewrite (proj2 (teqb_eq _ _) eq_refl) in H3. discriminate.
    - intros (H1 & H2 & i & d' & H3 & H4). exists d'. split.
      + apply filter_In. split; [apply (all_diags enabled parse content ms R); eauto|]. rewrite H4. apply negb_true_iff.
        destruct (teqb _ _) eqn:T; auto. apply teqb_eq in T. exfalso. apply H2, rule_name_inj. exact T.
      + rewrite H4, from_name_name. apply (suppressed_in parse content Hp ms R) in H1. apply mem_rule_in in H1. rewrite H1. now left. }
  assert (A : diag_rule_in (suppressed_rules ms) d = false <-> (forall r c, d_rule d = rule_name r -> ~ file_comment parse content r c)).
  { unfold diag_rule_in. destruct (from_name (d_rule d)) as [r|] eqn:F.
    - apply from_name_iff in F. rewrite <- not_true_iff_false, mem_rule_in, (suppressed_in parse content Hp ms R). split.
      + intros H r' c E Hf. apply H. rewrite E in F. apply rule_name_inj in F. subst. eauto.
      + intros H (c & Hc). now apply (H r c).
    - split; auto. intros _ r c E. rewrite E, from_name_name in F. discriminate. }
  rewrite A.
  match goal with |- context [teqb ?a ?b && ?e = false] => set (ex := e); assert (B : teqb a b && ex = false <-> ~ (d_rule d = rule_name R_OutdatedSuppression /\ exists r, file_comment parse content r (d_range d) /\
       r <> R_OutdatedSuppression /\ exists i d', chunk_reports enabled parse content i d' /\ d_rule d' = rule_name r)) end.
  { rewrite <- not_true_iff_false, andb_true_iff, teqb_eq. subst ex.
    assert (X : existsb (range_eqb (d_range d)) (map fst (filter (fun e => mem_rule (snd e) violated) (file_suppressions ms))) = true <->
      exists r, file_comment parse content r (d_range d) /\ r <> R_OutdatedSuppression /\ exists i d', chunk_reports enabled parse content i d' /\ d_rule d' = rule_name r).
    { rewrite existsb_exists. split.
      - intros (c & Hc & E). apply range_eqb_iff in E. subst c. apply in_map_iff in Hc. destruct Hc as ((c & r) & E & Hc). cbn in E. subst c.
        apply filter_In in Hc. destruct Hc as (H1 & H2). cbn in H2. apply mem_rule_in in H2. apply V in H2.
        apply (file_suppressions_in parse content Hp ms R) in H1. exists r. tauto.
      - intros (r & H1 & H2 & H3). exists (d_range d). split; [|now apply range_eqb_iff].
        apply in_map_iff. exists (d_range d, r). split; auto. apply filter_In. split; [now apply (file_suppressions_in parse content Hp ms R)|].
        cbn. apply mem_rule_in. apply V. split; [eauto|auto]. }
    rewrite X. reflexivity. }
  rewrite B. tauto.
Qed.
Lemma chunk_reports_text enabled parse content i d : chunk_reports enabled parse content i d ->
  exists c d0, nth_error (extract_r_chunks content) i = Some c /\ d_rule d = d_rule d0 /\ d_fix d = empty_fix /\
    forall t, bslice (d_start d0) (d_end d0) (r_code c) = Some t -> bslice (d_start d) (d_end d) content = Some t.
Proof.
  intros (c & tree & exprs & unreachable & m & d0 & H1 & H2 & H3 & H4 & ->). exists c, d0. cbn [d_rule d_fix d_start d_end].
  split; auto. split; auto. split; auto. apply nth_error_In in H1.
  intros t Ht. destruct (chunk_slice content c H1) as (f & pre & o & cl & post & E & Es & _).
  rewrite E, Es. unfold bslice in *. destruct (d_start d0 <=? d_end d0) eqn:L; [|discriminate]. apply Nat.leb_le in L.
  destruct (bsplit (d_end d0) (r_code c)) as [[p q]|] eqn:S1; [|discriminate].
  destruct (bsplit (d_start d0) p) as [[p' m']|] eqn:S2; [|discriminate]. injection Ht as <-.
  apply bsplit_iff in S1, S2. destruct S1 as (E1 & L1), S2 as (E2 & L2).
  assert (L' : d_start d0 + blen (pre ++ o) <=? d_end d0 + blen (pre ++ o) = true) by (apply Nat.leb_le; lia). rewrite L'.
  assert (B1 : bsplit (d_end d0 + blen (pre ++ o)) (pre ++ o ++ r_code c ++ cl ++ post) = Some ((pre ++ o) ++ p, q ++ cl ++ post)).
  { apply bsplit_iff. rewrite (blen_app (pre ++ o)), L1. split; [|lia]. rewrite E1. now rewrite <- !app_assoc. }
  rewrite B1.
  assert (B2 : bsplit (d_start d0 + blen (pre ++ o)) ((pre ++ o) ++ p) = Some ((pre ++ o) ++ p', m')).
  { apply bsplit_iff. rewrite (blen_app (pre ++ o)), L2. split; [|lia]. rewrite E2. now rewrite <- !app_assoc. }
  now rewrite B2.
Qed.
(** File-level comments of later chunks are misplaced. *)
Lemma later_file_comment i code tree m v r : in_source code tree -> from_node tree code = Some m -> 0 < i ->
  In v (visits code tree true 0) -> says v KFile r -> v_role v = Plain true ->
  In (v_range v) (m_misplaced_file (move_files i m)) /\ m_files (move_files i m) = [].
Proof.
  intros Hs Hm Hi Hv (_ & Hsay) Hr. unfold move_files. rewrite (proj2 (Nat.ltb_lt _ _) Hi). cbn [m_misplaced_file m_files]. split; auto.
  apply in_or_app. right. apply in_map_iff. exists (Wide r (v_range v)). split; auto.
  destruct (from_node_describes _ _ _ Hs Hm) as [D _ _ _ _ _ _ _ _ _ _ _ _ _ _]. rewrite D.
  apply in_flat_map. exists v. split; auto. unfold o_file, vparse. rewrite Hr, Hsay. now left.
Qed.

(** ** Suppression comments inserted in Rmd files stay inside the chunk *)
Lemma boundary_le t p : boundary t p -> p <= blen t.
Proof. intros (a & b & -> & <-). rewrite blen_app. lia. Qed.
Theorem rmd_insert_inside chain content start pt :
  (forall c p ch, chain c p = Some ch -> Forall (fun a => boundary (r_code c) (a_start a)) ch) ->
  (forall c, In c (extract_r_chunks content) -> r_start c <= start <= r_start c + blen (r_code c) -> boundary (r_code c) (start - r_start c)) ->
  rmd_insert_point chain start (extract_r_chunks content) = Some (Some pt) ->
  exists c, In c (extract_r_chunks content) /\ r_start c <= start <= r_start c + blen (r_code c) /\
    r_start c <= pt_offset pt <= r_start c + blen (r_code c) /\ boundary content (pt_offset pt).
Proof.
  intros Hch Hb. generalize (fun c (H : In c (extract_r_chunks content)) => chunk_slice content c H). intros Hs.
  induction (extract_r_chunks content) as [|c cs IH]; cbn [rmd_insert_point]; [discriminate|].
  destruct (_ && _) eqn:E.
  - apply andb_prop in E. destruct E as (E1 & E2). apply Nat.leb_le in E1, E2.
    destruct (insert_point_placed (r_code c) (chain c (start - r_start c)) (start - r_start c)) as (p & Hp & _ & Hbd & _).
    { apply Hb; [now left|lia]. }
    { intros ch Hc. eapply Hch; eauto. }
    rewrite Hp. intros [= <-]. cbn [pt_offset]. exists c. split; [now left|]. pose proof (boundary_le _ _ Hbd). split; [lia|]. split; [lia|].
    destruct (Hs c (or_introl eq_refl)) as (f & pre & o & cl & post & E & Es & _).
    destruct Hbd as (a & b & Ea & La). exists (pre ++ o ++ a), (b ++ cl ++ post). split.
    + rewrite E, Ea. now rewrite <- !app_assoc.
    + rewrite <- La, Es, !blen_app. lia.
  - intros H. destruct IH as (c' & H1 & H2 & H3); auto.
    + intros c' Hc'. apply Hb. now right.
    + intros c' Hc'. apply Hs. now right.
    + exists c'. split; [now right|auto].
Qed.
Theorem rmd_insert_total chain content start c :
  (forall c p ch, chain c p = Some ch -> Forall (fun a => boundary (r_code c) (a_start a)) ch) ->
  (forall c, In c (extract_r_chunks content) -> r_start c <= start <= r_start c + blen (r_code c) -> boundary (r_code c) (start - r_start c)) ->
  In c (extract_r_chunks content) -> r_start c <= start <= r_start c + blen (r_code c) ->
  exists pt, rmd_insert_point chain start (extract_r_chunks content) = Some (Some pt).
Proof.
  intros Hch Hb. induction (extract_r_chunks content) as [|c' cs IH]; cbn [rmd_insert_point]; [intros []|].
  intros Hin Hr. destruct (_ && _) eqn:E.
  - apply andb_prop in E. destruct E as (E1 & E2). apply Nat.leb_le in E1, E2.
    destruct (insert_point_placed (r_code c') (chain c' (start - r_start c')) (start - r_start c')) as (p & Hp & _).
    { apply Hb; [now left|lia]. }
    { intros ch Hc. eapply Hch; eauto. }
    rewrite Hp. eauto.
  - destruct Hin as [->|Hin].
    + exfalso. destruct Hr as (H1 & H2). apply Nat.leb_le in H1, H2. rewrite H1, H2 in E. discriminate.
    + apply IH; auto. intros c0 H0. apply Hb. now right.
Qed.

Theorem line_break_rejected reason edits t : In nl reason \/ In 13%N reason -> add_jarl_ignore reason edits t = RErr.
Proof.
  intros H. unfold add_jarl_ignore.
  assert (E : existsb (fun c => N.eqb c 10 || N.eqb c 13) reason = true).
  { apply existsb_exists. destruct H as [H|H]; eexists; (split; [exact H|reflexivity]). }
  now rewrite E.
Qed.
Theorem line_break_free reason edits t out : add_jarl_ignore reason edits t = ROk out ->
  ~ In nl reason /\ ~ In 13%N reason /\ (out = t \/ add_comments reason (edits t) t = Some out).
Proof.
  unfold add_jarl_ignore. destruct (existsb (fun c => N.eqb c 10 || N.eqb c 13) reason) eqn:E; [discriminate|]. intros H.
  assert (N : forall c, In c reason -> (N.eqb c 10 || N.eqb c 13) = false).
  { intros c Hc. destruct (_ || _) eqn:X; auto. exfalso. assert (existsb (fun c => N.eqb c 10 || N.eqb c 13) reason = true); [|congruence].
    apply existsb_exists. eauto. }
  split; [intros X; apply N in X; discriminate|]. split; [intros X; apply N in X; discriminate|].
  destruct (edits t) as [|e es]; [injection H as <-; auto|]. destruct (add_comments reason (e :: es) t); [|discriminate].
  injection H as <-. auto.
Qed.

(** ** Other engines *)
Definition rust_doc := lit "```{rust}" ++ [nl] ++ lit "x = 1" ++ [nl] ++ lit "```" ++ [nl].
Theorem other_engine_refuted : exists content c o cl e, In c (extract_r_chunks content) /\
  content = o ++ r_code c ++ cl /\ r_start c = blen o /\ engine o e /\ e <> lit "r" /\ e <> lit "R".
Proof.
  exists rust_doc. eexists _, _, _, (lit "rust"). split; [left; reflexivity|].
  split; [instantiate (1 := lit "```" ++ [nl]); instantiate (1 := lit "```{rust}" ++ [nl]); reflexivity|]. split; [reflexivity|].
  split; [|split; discriminate].
  exists (lit "```"), (lit "rust}" ++ [nl]). split; [reflexivity|]. split; [vm_compute; intuition discriminate|reflexivity].
Qed.
