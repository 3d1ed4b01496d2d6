(** Which of the walked files are checked (C57). *)
From Verif Require Import Model.Text Model.Base Model.Rules Model.Fix Model.Driver Model.Cli.
From Verif Require Import Spec.CliSpec Proofs.TextProofs Proofs.CliDiscover Proofs.ExtensionProofs.

Lemma extension_r_iff p : path_extension_r p = true <-> r_or_rmd_file p.
Proof. unfold path_extension_r, r_or_rmd_file. rewrite Bool.orb_true_iff, has_r_iff, has_rmd_iff. reflexivity. Qed.

Lemma relative_spec d p : match relative d p with Some r => p = d ++ r | None => ~ above d p end.
Proof.
  revert p; induction d as [|x d IH]; intros p; cbn [relative]; [reflexivity|].
  destruct p as [|y p].
  - intros [r E]. discriminate.
  - destruct (teqb x y) eqn:T.
    + apply teqb_eq in T. subst y. specialize (IH p). destruct (relative d p).
      * cbn. now f_equal.
      * intros [r E]. apply IH. injection E as E. now exists r.
    + intros [r E]. injection E as E _. subst y. rewrite teqb_refl in T. discriminate.
Qed.
Lemma relative_seen root p : seen_from root p (relative_or root p).
Proof.
  unfold relative_or, seen_from. pose proof (relative_spec root p) as R. destruct (relative root p); auto.
Qed.
Lemma seen_fun root p r r' : seen_from root p r -> seen_from root p r' -> r = r'.
Proof.
  intros [A|[A A']] [B|[B B']]; subst; auto.
  - apply app_inv_head in B. auto.
  - destruct B. now exists r.
  - destruct A. now exists r'.
Qed.
Lemma relative_app d rel : relative_or d (d ++ rel) = rel.
Proof. eapply seen_fun; [apply relative_seen|]. now left. Qed.

Lemma ends_with_slash_iff t : ends_with_slash t = true <-> exists q, t = q ++ lit "/".
Proof.
  unfold ends_with_slash. split.
  - destruct (rev t) as [|c r] eqn:E; [discriminate|]. intros H. apply N.eqb_eq in H. subst c.
    exists (rev r). rewrite <- (rev_involutive t), E. reflexivity.
  - intros [q ->]. rewrite rev_app_distr. reflexivity.
Qed.
Lemma plain_app a b : a <> [] -> plain_pattern a -> plain_pattern (a ++ b).
Proof. intros N H r E. destruct a as [|c a]; [congruence|]. cbn in E. injection E as E _. subst c. now apply (H a). Qed.

Definition functional (items : list item) : Prop := forall d s s', In (d, s) items -> In (d, s') items -> s = s'.
Lemma discover_functional config_at user_dir subdirs inputs items :
  discover_settings config_at user_dir subdirs inputs = ROk items -> functional items.
Proof.
  intros D d s s' H H'. pose proof (discover_good _ _ _ _ _ D) as G.
  pose proof (G _ _ H) as E. pose proof (G _ _ H') as E'. congruence.
Qed.

Section Files.
Variables (ov : dpath -> list text -> dpath -> bool -> omatch) (globs : glob).
Hypothesis M : matcher_of ov globs.

Lemma governs_unique items p d s d' s' : functional items -> governs items p d s -> governs items p d' s' -> d = d' /\ s = s'.
Proof.
  intros F (I1 & A1 & L1) (I2 & A2 & L2).
  assert (d = d').
  { apply (above_same d d' p); auto. apply Nat.le_antisymm; eauto. }
  subst d'. split; eauto.
Qed.

Lemma excl_iff pats root rel dir : Forall plain_pattern pats ->
  (match pats with [] => false | _ :: _ => match ov root (map (fun t => 33%N :: t) pats) rel dir with MIgnore => true | _ => false end end) = true
  <-> exists pat, In pat pats /\ globs pat rel dir.
Proof.
  intros P. destruct pats as [|a l] eqn:E; [split; [discriminate|intros (? & [] & _)]|].
  rewrite <- E in *. destruct (M root pats rel dir) as (H & _); [congruence|auto|].
  change (map (fun t => 33%N :: t) pats) with (map (cons 33%N) pats). rewrite <- H.
  destruct (ov root (map (cons 33%N) pats) rel dir); split; congruence.
Qed.

Lemma incl_iff pats root rel : pats <> [] -> Forall plain_pattern pats ->
  (match ov root (map (fun t => if ends_with_slash t then t ++ lit "**" else t) pats) rel false with MWhitelist => true | _ => false end) = true
  <-> exists pat, In pat pats /\ includes globs pat rel.
Proof.
  intros N P. set (f := fun t : text => if ends_with_slash t then t ++ lit "**" else t).
  assert (P' : Forall plain_pattern (map f pats)).
  { rewrite Forall_forall in *. intros x Hx. apply in_map_iff in Hx as (t & <- & Ht). unfold f.
    destruct (ends_with_slash t) eqn:E; auto. apply plain_app; auto. intros ->. discriminate. }
  destruct (M root (map f pats) rel false) as (_ & H); [destruct pats; [congruence|discriminate]|auto|].
  transitivity (exists pat, In pat (map f pats) /\ globs pat rel false).
  { rewrite <- H. destruct (ov root (map f pats) rel false); split; congruence. }
  split.
  - intros (pat & Hp & G). apply in_map_iff in Hp as (t & <- & Ht). exists t. split; auto. unfold f in G.
    destruct (ends_with_slash t) eqn:E.
    + left. split; auto. now apply ends_with_slash_iff.
    + right. split; auto. intros Q. apply ends_with_slash_iff in Q. congruence.
  - intros (t & Ht & [(Q & G)|(Q & G)]).
    + exists (f t). split; [now apply in_map|]. unfold f. apply ends_with_slash_iff in Q. now rewrite Q.
    + exists (f t). split; [now apply in_map|]. unfold f. destruct (ends_with_slash t) eqn:E; auto.
      destruct Q. now apply ends_with_slash_iff.
Qed.

Lemma keep_iff items p : functional items -> plain_patterns items ->
  (keep (fun root pats rel => ov root pats rel false) items p = true <-> wanted globs items p).
Proof.
  intros F P. unfold keep. destruct (resolve items p) as [[root st]|] eqn:R.
  - apply resolve_some in R as (I & A & L). cbn [fst] in A, L.
    assert (G : governs items p root st).
    { split; auto. split; auto. intros d' s' Hd Ha. apply (L (d', s')); auto. }
    destruct A as [rel ->]. rewrite relative_app.
    assert (W : wanted globs items (root ++ rel) <->
      (forall pats pat, cs_exclude st = Some pats -> In pat pats -> ~ globs pat rel false) /\
      (forall pats, cs_include st = Some pats -> pats <> [] -> exists pat, In pat pats /\ includes globs pat rel)).
    { split.
      - intros W. now apply (W root st rel).
      - intros W d s r G' E. destruct (governs_unique _ _ _ _ _ _ F G G') as (-> & ->). apply app_inv_head in E. now subst r. }
    rewrite W. clear W.
    set (ex := match cs_exclude st with Some ((_ :: _) as pats) =>
       match ov root (map (fun t => 33%N :: t) pats) rel false with MIgnore => true | _ => false end | _ => false end).
    assert (Ex : ex = true <-> exists pats pat, cs_exclude st = Some pats /\ In pat pats /\ globs pat rel false).
    { unfold ex. destruct (cs_exclude st) as [pats|] eqn:E.
      - transitivity (exists pat, In pat pats /\ globs pat rel false).
        + rewrite <- (excl_iff pats root rel false); [destruct pats; reflexivity|]. eapply P; eauto.
        + split; [intros (pat & ? & ?); eauto 6|intros (? & pat & [= <-] & ?); eauto].
      - split; [discriminate|intros (? & ? & ? & _); discriminate]. }
    destruct ex.
    + split; [discriminate|]. intros (W & _). destruct Ex as [Ex _]. destruct (Ex eq_refl) as (pats & pat & E & Hp & Hg).
      now destruct (W pats pat E Hp).
    + assert (N : forall pats pat, cs_exclude st = Some pats -> In pat pats -> ~ globs pat rel false).
      { intros pats pat E Hp Hg. destruct Ex as [_ Ex]. discriminate Ex. eauto 6. }
      destruct (cs_include st) as [[|x l]|] eqn:E.
      * split; auto. intros _. split; auto. intros ? [= <-] K. congruence.
      * rewrite incl_iff; [|discriminate|eapply P; eauto]. split.
        -- intros K. split; auto. intros ? [= <-] _. exact K.
        -- intros (_ & K). apply K; auto. discriminate.
      * split; auto. intros _. split; auto. discriminate.
  - split; auto. intros _ d s rel (I & A & _) _. pose proof (resolve_none _ _ R (d, s) I) as K. contradiction.
Qed.

Lemma firstn_short {A} (l : list A) j : j <= length l -> exists b, l = firstn (length l - j) l ++ b /\ length b = j.
Proof.
  intros L. exists (skipn (length l - j) l). split; [now rewrite firstn_skipn|]. rewrite skipn_length. lia.
Qed.
Lemma skipped_iff root pats p depth : pats <> [] -> Forall plain_pattern pats -> depth <= length p ->
  (skipped ov root pats p depth false = true <-> hidden_by globs root pats p depth).
Proof.
  intros N P L. unfold skipped. rewrite existsb_exists. split.
  - intros (j & Hj & H). apply in_seq in Hj.
    assert (E : exists pat, In pat pats /\ globs pat (relative_or root (firstn (length p - j) p)) ((0 <? j) || false)).
    { apply (excl_iff pats root). auto. destruct pats; [congruence|auto]. }
    destruct E as (pat & Hp & G).
    destruct (firstn_short p depth L) as (rel & E1 & E2).
    destruct (firstn_short rel j ltac:(lia)) as (rest & E3 & E4).
    set (input := firstn (length p - depth) p) in *. set (q := firstn (length rel - j) rel) in *.
    assert (Eq : firstn (length p - j) p = input ++ q).
    { assert (Ep : p = (input ++ q) ++ rest) by (rewrite <- app_assoc, <- E3; auto).
      rewrite Ep at 2. rewrite firstn_app. replace (length p - j) with (length (input ++ q)).
      - rewrite firstn_all, Nat.sub_diag. cbn. apply app_nil_r.
      - rewrite Ep, (app_length (input ++ q)). lia. }
    exists input, rel, q, rest, pat, (relative_or root (input ++ q)).
    repeat split; auto.
    + intros K. assert (length q = length rel - j) by (unfold q; rewrite firstn_length; lia). rewrite K in H0. cbn in H0. lia.
    + apply relative_seen.
    + rewrite <- Eq. exists ((0 <? j) || false). split; auto. rewrite orb_false_r, Nat.ltb_lt. split; intros K.
      * intros ->. cbn in E4. lia.
      * destruct rest; [congruence|cbn in E4; lia].
  - intros (input & rel & q & rest & pat & r & E1 & E2 & E3 & Nq & Hp & S & dir & D & G).
    subst rel. rewrite app_length in E2. exists (length rest). split.
    + apply in_seq. destruct q; [congruence|cbn [length] in E2; lia].
    + assert (Eq : firstn (length p - length rest) p = input ++ q).
      { subst p. rewrite app_assoc, firstn_app, !app_length.
        replace (length input + length q + length rest - length rest) with (length (input ++ q)) by (rewrite app_length; lia).
        rewrite firstn_all. replace (length (input ++ q) - (length input + length q)) with 0 by (rewrite app_length; lia). cbn. apply app_nil_r. }
      rewrite Eq. rewrite (seen_fun _ _ _ _ (relative_seen root (input ++ q)) S).
      replace ((0 <? length rest) || false) with dir.
      * pose proof (proj2 (excl_iff pats root r dir P)) as X. destruct pats; [congruence|]. apply X. eauto.
      * rewrite orb_false_r. destruct dir, rest as [|z rest]; auto; destruct D as [D1 D2].
        -- now destruct (D1 eq_refl).
        -- symmetry. cbn. discriminate D2. discriminate.
Qed.

Lemma default_plain : Forall plain_pattern default_exclude_patterns.
Proof. repeat (constructor; [intros r; discriminate|]). constructor. Qed.

Lemma override_governs nd items p d s' : governs (override_default nd items) p d s' ->
  exists s, governs items p d s /\ cs_exclude s = cs_exclude s' /\ cs_include s = cs_include s'.
Proof.
  unfold override_default. destruct nd; [|eauto]. intros (I & A & L).
  apply in_map_iff in I as ((d0 & s0) & [= <- <-] & I). exists s0. split; [|auto].
  split; auto. split; auto. intros d' s1 H1 H2. eapply L; eauto. apply in_map_iff. exists (d', s1). eauto.
Qed.
Lemma override_governs' nd items p d s : governs items p d s ->
  exists s', governs (override_default nd items) p d s' /\ cs_exclude s = cs_exclude s' /\ cs_include s = cs_include s'.
Proof.
  unfold override_default. destruct nd; [|eauto]. intros (I & A & L).
  eexists. split; [split; [|split; [exact A|]]|].
  - apply in_map_iff. exists (d, s). split; [reflexivity|auto].
  - intros d' s1 H1 H2. apply in_map_iff in H1 as ((d0 & s0) & [= <- <-] & H1). eauto.
  - split; reflexivity.
Qed.
Lemma override_wanted nd items p : wanted globs (override_default nd items) p <-> wanted globs items p.
Proof.
  split; intros W d s rel G E.
  - destruct (override_governs' nd items p d s G) as (s' & G' & -> & ->). eapply W; eauto.
  - destruct (override_governs nd items p d s G) as (s' & G' & <- & <-). eapply W; eauto.
Qed.
Lemma override_functional nd items : functional items -> functional (override_default nd items).
Proof.
  unfold override_default. destruct nd; auto. intros F d s s' H H'.
  apply in_map_iff in H as ((d0 & s0) & [= <- <-] & H). apply in_map_iff in H' as ((d1 & s1) & [= E <-] & H'). subst d1.
  rewrite (F _ _ _ H H'). reflexivity.
Qed.
Lemma override_plain nd items : plain_patterns items -> plain_patterns (override_default nd items).
Proof.
  unfold override_default. destruct nd; auto. intros F d s pats H E.
  apply in_map_iff in H as ((d0 & s0) & [= <- <-] & H). cbn in E. eapply F; eauto.
Qed.

Lemma hidden_app root a b p n : hidden_by globs root (a ++ b) p n <-> hidden_by globs root a p n \/ hidden_by globs root b p n.
Proof.
  unfold hidden_by. split.
  - intros (i & rel & q & rest & pat & r & E1 & E2 & E3 & N & H & S & D). apply in_app_iff in H as [H|H]; [left|right]; eauto 15.
  - intros [(i & rel & q & rest & pat & r & E1 & E2 & E3 & N & H & S & D)|(i & rel & q & rest & pat & r & E1 & E2 & E3 & N & H & S & D)];
    exists i, rel, q, rest, pat, r; repeat split; auto; apply in_app_iff; auto.
Qed.
Lemma hidden_nil root p n : ~ hidden_by globs root [] p n.
Proof. intros (? & ? & ? & ? & ? & ? & _ & _ & _ & _ & [] & _). Qed.

Lemma walk_hides_iff cwd nd items p depth : plain_patterns items -> depth <= length p ->
  let rp := walk_patterns cwd nd (override_default nd items) in
  (match snd rp with [] => true | _ :: _ => negb (skipped ov (fst rp) (snd rp) p depth false) end = true
   <-> ~ walk_hides globs cwd nd items p depth).
Proof.
  intros P L rp.
  assert (Q : Forall plain_pattern (snd rp)).
  { unfold rp, walk_patterns. pose proof (override_plain nd items P) as P'. destruct (override_default nd items) as [|(d & s) r].
    - destruct nd; [constructor|apply default_plain].
    - cbn [snd]. apply Forall_app. split.
      + destruct (cs_exclude s) as [l|] eqn:E; [|constructor]. eapply P'; [left; reflexivity|auto].
      + destruct (match cs_default_exclude s with Some b => b | None => true end); [apply default_plain|constructor]. }
  assert (H : (match snd rp with [] => true | _ :: _ => negb (skipped ov (fst rp) (snd rp) p depth false) end = true
     <-> ~ hidden_by globs (fst rp) (snd rp) p depth)).
  { destruct (snd rp) as [|a l] eqn:E.
    - split; auto. intros _. apply hidden_nil.
    - rewrite <- E in *. rewrite negb_true_iff. rewrite <- (skipped_iff (fst rp) (snd rp) p depth); auto; [|congruence].
      destruct (skipped ov (fst rp) (snd rp) p depth false); split; congruence. }
  rewrite H. clear H Q.
  assert (K : hidden_by globs (fst rp) (snd rp) p depth <-> walk_hides globs cwd nd items p depth); [|tauto].
  unfold rp, walk_patterns, walk_hides, override_default. destruct items as [|(d & s) r].
  - destruct nd; cbn.
    + split; [intros K; now apply hidden_nil in K|]. intros (? & ? & _ & _ & ? & _). discriminate.
    + split; [intros K; eauto 6|]. intros (root & pats & K & -> & _ & ->). exact K.
  - assert (X : forall o : option (list text),
      hidden_by globs d (match o with Some l => l | None => [] end) p depth <-> exists l, o = Some l /\ hidden_by globs d l p depth).
    { intros [l|]; [split; [eauto|intros (? & [= <-] & ?); auto]|split; [intros K; now apply hidden_nil in K|intros (? & ? & _); discriminate]]. }
    destruct nd; cbn [map fst snd cs_exclude cs_default_exclude].
    + rewrite hidden_app, X. split.
      * intros [(l & E & K)|K]; [|now apply hidden_nil in K]. exists d, l. auto.
      * intros (root & pats & K & -> & [E|(? & _)]); [left; eauto|discriminate].
    + rewrite hidden_app, X. split.
      * intros [(l & E & K)|K]; [exists d, l; auto|]. exists d, default_exclude_patterns.
        destruct (cs_default_exclude s) as [[]|]; try (now apply hidden_nil in K);
          (split; [exact K|split; [reflexivity|right; split; [reflexivity|split; [congruence|reflexivity]]]]).
      * intros (root & pats & K & -> & [E|(_ & N & ->)]); [left; eauto|right].
        destruct (cs_default_exclude s) as [[]|]; auto; congruence.
Qed.

Lemma checked_files_iff cwd nd items entries p : functional items -> plain_patterns items ->
  (forall q n b, In (Entry q n b) entries -> n <= length q) ->
  In p (ok_paths (checked_files ov cwd nd items entries)) <->
  exists depth, In (Entry p depth false) entries /\ (depth = 0 \/ r_or_rmd_file p) /\
    ~ walk_hides globs cwd nd items p depth /\ wanted globs items p.
Proof.
  intros F P L. unfold checked_files, discover_files, ok_paths, visit_all.
  set (items' := override_default nd items). set (es := walk_entries ov (walk_patterns cwd nd items') entries).
  assert (A : In p (flat_map (fun r => match r with Some q => [q] | None => [] end)
      (filter (fun r => match r with Some q => keep (fun root pats rel => ov root pats rel false) items' q | None => true end)
        (flat_map (fun e => match visit e with Some r => [r] | None => [] end) es)))
      <-> (exists e, In e es /\ visit e = Some (Some p)) /\ keep (fun root pats rel => ov root pats rel false) items' p = true).
  { rewrite in_flat_map. split.
    - intros ([q|] & H & Hq); [|contradiction]. destruct Hq as [->|[]]. apply filter_In in H as (H & K). split; auto.
      apply in_flat_map in H as (e & He & H). exists e. split; auto. destruct (visit e); [|contradiction]. destruct H as [->|[]]. auto.
    - intros ((e & He & V) & K). exists (Some p). split; [|now left]. apply filter_In. split; auto.
      apply in_flat_map. exists e. split; auto. rewrite V. now left. }
  rewrite A. clear A. unfold items'. rewrite keep_iff, override_wanted by (auto using override_functional, override_plain). fold items'.
  assert (B : (exists e, In e es /\ visit e = Some (Some p)) <->
     exists depth, In (Entry p depth false) es /\ (depth = 0 \/ r_or_rmd_file p)).
  { split.
    - intros ([q n b|] & He & V); [|discriminate]. cbn [visit] in V.
      destruct ((n =? 0) && negb b) eqn:E1.
      + injection V as ->. apply andb_true_iff in E1 as (E1 & E2). apply Nat.eqb_eq in E1. destruct b; [discriminate|]. eauto.
      + destruct (negb b && path_extension_r q) eqn:E2; [|discriminate]. injection V as ->.
        apply andb_true_iff in E2 as (E2 & E3). destruct b; [discriminate|]. apply extension_r_iff in E3. eauto.
    - intros (n & He & [->|R]); (eexists; split; [exact He|]); cbn [visit]; auto.
      rewrite (proj2 (extension_r_iff p) R). destruct (n =? 0); reflexivity. }
  rewrite B. clear B.
  assert (C : forall n, In (Entry p n false) es <-> In (Entry p n false) entries /\ ~ walk_hides globs cwd nd items p n).
  { intros n. unfold es, walk_entries. rewrite filter_In. split.
    - intros (H & K). split; auto. apply (walk_hides_iff cwd nd items p n P (L _ _ _ H)). exact K.
    - intros (H & K). split; auto. apply (walk_hides_iff cwd nd items p n P (L _ _ _ H)). exact K. }
  split.
  - intros ((n & H & E) & W). apply C in H as (H & K). eauto 8.
  - intros (n & H & E & K & W). split; auto. exists n. split; auto. apply C. auto.
Qed.
End Files.

(** One configuration, above every file: the walk applies the patterns of the configuration of the
    file. *)
Lemma own_single globs cwd nd d s p depth : above d p ->
  (own_hides globs cwd nd [(d, s)] p depth <-> walk_hides globs cwd nd [(d, s)] p depth).
Proof.
  intros A.
  assert (G : governs [(d, s)] p d s).
  { split; [now left|]. split; auto. intros ? ? [[= <- <-]|[]] _. lia. }
  unfold own_hides, walk_hides. split.
  - intros [(d' & s' & pats & G' & H & E)|(N & _)]; [|now destruct (N d s)].
    destruct G' as ([[= <- <-]|[]] & _). eauto 6.
  - intros (root & pats & H & -> & E). left. exists d, s, pats. auto.
Qed.
Lemma own_none globs cwd nd p depth : own_hides globs cwd nd [] p depth <-> walk_hides globs cwd nd [] p depth.
Proof.
  unfold own_hides, walk_hides. split.
  - intros [(d' & s' & pats & ([] & _) & _)|(N & E & H)]. exists cwd, default_exclude_patterns. auto.
  - intros (root & pats & H & -> & E & ->). right. split; auto. intros d s ([] & _).
Qed.

(** A concrete matcher, for the examples: [name] matches by the last component, [dir/] matches
    directories only, [dir/**] matches what lies below the first component [dir]. *)
Definition toy_glob (pat : text) (rel : dpath) (dir : bool) : bool :=
  match rev pat with
  | 42%N :: 42%N :: 47%N :: q => match rel with a :: _ :: _ => teqb a (rev q) | _ => false end
  | 47%N :: q => dir && teqb (last rel []) (rev q)
  | _ => teqb (last rel []) pat
  end.
Definition bang (p : text) : bool := match p with 33%N :: _ => true | _ => false end.
Definition hit (rel : dpath) (dir : bool) (p : text) : bool := toy_glob (tl p) rel dir.
Definition hit' (rel : dpath) (dir : bool) (p : text) : bool := toy_glob p rel dir.
Definition toy_ov (root : dpath) (pats : list text) (rel : dpath) (dir : bool) : omatch :=
  if forallb bang pats then
    (if existsb (hit rel dir) pats then MIgnore else MNone)
  else if existsb (hit' rel dir) pats then MWhitelist
  else if dir then MNone else MIgnore.
Lemma toy_matcher : matcher_of toy_ov (fun pat rel dir => toy_glob pat rel dir = true).
Proof.
  intros root pats rel dir N P. split.
  - unfold toy_ov.
    assert (A : forallb bang (map (cons 33%N) pats) = true).
    { apply forallb_forall. intros x H. apply in_map_iff in H as (y & <- & _). reflexivity. }
    rewrite A.
    destruct (existsb (hit rel dir) (map (cons 33%N) pats)) eqn:E.
    + split; auto. intros _. apply existsb_exists in E as (x & H & G). apply in_map_iff in H as (y & <- & H). eauto.
    + split; [discriminate|]. intros (pat & H & G). exfalso.
      assert (existsb (hit rel dir) (map (cons 33%N) pats) = true); [|congruence].
      apply existsb_exists. exists (33%N :: pat). split; [now apply in_map|exact G].
  - unfold toy_ov. destruct pats as [|a l]; [congruence|].
    assert (A : forallb bang (a :: l) = false).
    { cbn [forallb]. apply andb_false_iff. left. inversion P as [|? ? Pa _]; subst. destruct a as [|c a]; auto.
      destruct (N.eq_dec c 33%N) as [->|K]; [now destruct (Pa a)|]. destruct c as [|c]; auto.
      repeat (destruct c as [c|c|]; auto; try congruence). }
    rewrite A. destruct (existsb (hit' rel dir) (a :: l)) eqn:E.
    + split; auto. intros _. apply existsb_exists in E as (x & H & G). eauto.
    + split; [destruct dir; discriminate|]. intros (pat & H & G). exfalso.
      assert (existsb (hit' rel dir) (a :: l) = true); [|congruence].
      apply existsb_exists. eauto.
Qed.

(** Two projects, one inside the other. *)
Definition with_exclude (l : list text) : csettings := mk_cs None None (Some l) None None 50 0.
Definition with_include (l : list text) : csettings := mk_cs None None None (Some l) None 50 0.
Definition outer_excludes (d : dpath) : cfile :=
  if peqb d [lit "a"] then GoodConfig (with_exclude [lit "old.R"])
  else if peqb d [lit "a"; lit "p"] then GoodConfig (with_exclude []) else NoConfig.
Definition inner_excludes (d : dpath) : cfile :=
  if peqb d [lit "a"] then GoodConfig (with_exclude [])
  else if peqb d [lit "a"; lit "p"] then GoodConfig (with_exclude [lit "gen/"]) else NoConfig.
Definition only_outer (d : dpath) : cfile :=
  if peqb d [lit "a"] then GoodConfig (with_include [lit "R/"]) else NoConfig.
Definition sub_p (d : dpath) : list dpath := [[lit "a"; lit "p"]].
Definition old_r : dpath := [lit "a"; lit "p"; lit "old.R"].
Definition gen_r : dpath := [lit "a"; lit "p"; lit "gen"; lit "x.R"].
Definition entries_ap : list entry := [Entry old_r 2 false; Entry gen_r 3 false].
