(** Discovery of configurations and grouping of files (C25, C54, C55). *)
From Coq Require Import Permutation.
From Verif Require Import Model.Text Model.Base Model.Rules Model.Fix Model.Driver Model.Cli.
From Verif Require Import Spec.CliSpec Proofs.TextProofs.

Lemma peqb_eq a b : peqb a b = true <-> a = b.
Proof.
  revert b; induction a as [|x a IH]; intros [|y b]; simpl; try (split; congruence).
  rewrite andb_true_iff, teqb_eq, IH. split; [intros [ -> -> ]; reflexivity|intros [= -> ->]; auto].
Qed.
Lemma peqb_refl a : peqb a a = true. Proof. now apply peqb_eq. Qed.
Lemma peqb_neq a b : peqb a b = false <-> a <> b.
Proof. rewrite <- peqb_eq. destruct (peqb a b); split; congruence. Qed.
Lemma pmem_iff a l : pmem a l = true <-> In a l.
Proof.
  unfold pmem. rewrite existsb_exists. split.
  - intros (y & Hy & E). apply peqb_eq in E. now subst.
  - intros H. exists a. split; auto. apply peqb_refl.
Qed.
Lemma pmem_not a l : pmem a l = false <-> ~ In a l.
Proof. rewrite <- pmem_iff. destruct (pmem a l); split; congruence. Qed.
Lemma under_iff d p : under d p = true <-> above d p.
Proof.
  unfold above. revert p; induction d as [|x d IH]; intros p; simpl.
  - split; eauto.
  - destruct p as [|y p].
    + split; [discriminate|intros [r H]; discriminate].
    + rewrite andb_true_iff, teqb_eq, IH. split.
      * intros [-> [r ->]]. now exists r.
      * intros [r [= -> ->]]. split; eauto.
Qed.
Lemma above_refl p : above p p. Proof. exists []. now rewrite app_nil_r. Qed.
Lemma above_trans a b c : above a b -> above b c -> above a c.
Proof. intros [r ->] [q ->]. exists (r ++ q). now rewrite app_assoc. Qed.
Lemma above_len a b : above a b -> length a <= length b.
Proof. intros [r ->]. rewrite app_length. lia. Qed.
Lemma above_comparable a b p : above a p -> above b p -> length a <= length b -> above a b.
Proof.
  intros [r ->] [q E] L. revert b q E L; induction a as [|x a IH]; intros b q E L.
  - now exists b.
  - destruct b as [|y b]; simpl in *; [lia|]. injection E as -> E.
    destruct (IH b q E ltac:(lia)) as [s ->]. now exists s.
Qed.
Lemma above_same a b p : above a p -> above b p -> length a = length b -> a = b.
Proof.
  intros A B L. destruct (above_comparable a b p A B ltac:(lia)) as [r ->].
  rewrite app_length in L. destruct r; [now rewrite app_nil_r|simpl in L; lia].
Qed.
Lemma above_snoc d q x : above d (q ++ [x]) -> d = q ++ [x] \/ above d q.
Proof.
  intros [r E]. destruct r as [|y r] using rev_ind.
  - left. now rewrite app_nil_r in E.
  - right. rewrite app_assoc in E. apply app_inj_tail in E as [-> _]. now exists r.
Qed.

Section Up.
Variable config_at : dpath -> cfile.
Variable user_dir : option dpath.

Definition good (items : list item) : Prop := forall d s, In (d, s) items -> config_at d = GoodConfig s.
Definition linked (pend : option dpath) (seen : list dpath) (items : list item) (a : dpath) : Prop :=
  (exists s, config_at a = GoodConfig s /\ In (a, s) items) \/
  (config_at a = NoConfig /\
   (user_dir = Some a \/ a = [] \/ exists q x, a = q ++ [x] /\ (In q seen \/ pend = Some q))).
Definition inv (pend : option dpath) (seen : list dpath) (items : list item) : Prop :=
  good items /\ forall a, In a seen -> linked pend seen items a.

Lemma good_app a b : good a -> good b -> good (a ++ b).
Proof. intros A B d s H. apply in_app_iff in H as [H|H]; eauto. Qed.

Lemma linked_mono pend seen seen' items items' a :
  (forall q, In q seen \/ pend = Some q -> In q seen') -> (forall i, In i items -> In i items') ->
  linked pend seen items a -> linked None seen' items' a.
Proof.
  intros S I [(s & G & H)|(N & H)]; [left; eauto|right; split; auto].
  destruct H as [H|[H|(q & x & E & H)]]; auto. right; right. exists q, x. auto.
Qed.

Lemma walk_up_inv r : forall pend seen items seen' new,
  inv pend seen items -> (forall q, pend = Some q -> q = rev r) ->
  walk_up config_at user_dir seen (anc_rev r) = ROk (seen', new) ->
  inv None seen' (items ++ new) /\ In (rev r) seen' /\ incl seen seen'.
Proof.
  induction r as [|x r IH]; intros pend seen items seen' new [G L] P W.
  - cbn -[pmem] in W. destruct (pmem [] seen) eqn:M.
    { injection W as <- <-. apply pmem_iff in M. rewrite app_nil_r. split; [|split; [exact M|apply incl_refl]].
      split; auto. intros a Ha. apply (linked_mono pend seen seen items items); auto.
      intros q [H|H]; auto. rewrite (P q H). exact M. }
    destruct (config_at []) as [| |s] eqn:C; [|discriminate|].
    + assert (E : ROk ([] :: seen, []) = ROk (seen', new)).
      { destruct user_dir as [[|? ?]|]; exact W. }
      injection E as <- <-. rewrite app_nil_r. split; [split; auto|split; [now left|now apply incl_tl]].
      intros a [<-|Ha]; [right; auto|].
      apply (linked_mono pend seen _ items items); auto. intros q [H|H]; [now right|left; now rewrite (P q H)].
    + injection W as <- <-. split; [split|split; [now left|now apply incl_tl]].
      * apply good_app; auto. intros d s' [[= <- <-]|[]]. exact C.
      * intros a [<-|Ha]. { left. exists s. split; auto. apply in_app_iff; right; now left. }
        apply (linked_mono pend seen _ items _); [|intros; apply in_app_iff; auto|auto].
        intros q [H|H]; [now right|left; now rewrite (P q H)].
  - cbn -[pmem rev] in W. destruct (pmem (rev (x :: r)) seen) eqn:M.
    { injection W as <- <-. apply pmem_iff in M. rewrite app_nil_r. split; [|split; [exact M|apply incl_refl]].
      split; auto. intros a Ha. apply (linked_mono pend seen seen items items); auto.
      intros q [H|H]; auto. rewrite (P q H). exact M. }
    set (p := rev (x :: r)) in *.
    destruct (config_at p) as [| |s] eqn:C; [|discriminate|].
    + assert (Hstep : forall pd, (user_dir = Some p \/ pd = Some (rev r)) ->
                inv pd (p :: seen) items).
      { intros pd Hu. split; auto. intros a [<-|Ha].
        - right. split; auto. destruct Hu as [Hu|Hu]; auto. right; right.
          exists (rev r), x. split; [reflexivity|auto].
        - destruct (L a Ha) as [H|(N & H)]; [now left|right; split; auto].
          destruct H as [H|[H|(q & y & E & H)]]; auto. right; right. exists q, y. split; auto.
          left. destruct H as [H|H]; [now right|left; symmetry; now apply P]. }
      assert (Hrec : walk_up config_at user_dir (p :: seen) (anc_rev r) = ROk (seen', new) ->
                inv None seen' (items ++ new) /\ In p seen' /\ incl seen seen').
      { intros W'. destruct (IH (Some (rev r)) (p :: seen) items seen' new) as (I & _ & J); auto.
        - intros q [= <-]. reflexivity.
        - split; auto. split; [apply J; now left|]. intros z Hz. apply J. now right. }
      destruct user_dir as [u|] eqn:U; [|auto].
      destruct (peqb p u) eqn:E; [|auto].
      apply peqb_eq in E. subst u. injection W as <- <-. rewrite app_nil_r.
      split; [apply Hstep; now left|split; [now left|now apply incl_tl]].
    + injection W as <- <-. split; [split|split; [now left|now apply incl_tl]].
      * apply good_app; auto. intros d s' [[= <- <-]|[]]. exact C.
      * intros a [<-|Ha]. { left. exists s. split; auto. apply in_app_iff; right; now left. }
        apply (linked_mono pend seen _ items _); [|intros; apply in_app_iff; auto|auto].
        intros q [H|H]; [now right|left; symmetry; now apply P].
Qed.

Lemma fallback_inv seen items seen' new :
  inv None seen items -> fallback config_at user_dir seen = ROk (seen', new) ->
  inv None seen' (items ++ new) /\ incl seen seen'.
Proof.
  intros [G L] F. unfold fallback in F. destruct user_dir as [u|] eqn:U.
  2:{ injection F as <- <-. rewrite app_nil_r. split; [split; auto|apply incl_refl]. }
  destruct (pmem u seen).
  { injection F as <- <-. rewrite app_nil_r. split; [split; auto|apply incl_refl]. }
  destruct (config_at u) as [| |s] eqn:C; [|discriminate|]; injection F as <- <-.
  - rewrite app_nil_r. split; [split; auto|now apply incl_tl]. intros a [<-|Ha].
    + right. split; auto.
    + apply (linked_mono None seen _ items _); auto. intros q [H|H]; [now right|discriminate].
  - split; [split|now apply incl_tl].
    + apply good_app; auto. intros d s' [[= <- <-]|[]]. exact C.
    + intros a [<-|Ha].
      * left. exists s. split; auto. apply in_app_iff; right; now left.
      * apply (linked_mono None seen _ items _); auto; [intros q [H|H]; [now right|discriminate]|].
        intros; apply in_app_iff; auto.
Qed.

Lemma discover_up_inv paths : forall seen items seen' new,
  inv None seen items -> discover_up config_at user_dir seen paths = ROk (seen', new) ->
  inv None seen' (items ++ new) /\ incl seen seen' /\ forall p, In p paths -> In p seen'.
Proof.
  induction paths as [|p ps IH]; intros seen items seen' new I D; simpl in D.
  - injection D as <- <-. rewrite app_nil_r. repeat split; auto; try apply I; [apply incl_refl|intros _ []].
  - destruct (walk_up _ _ _ _) as [[s1 f]| |] eqn:W; try discriminate. simpl in D.
    unfold ancestors in W. apply (walk_up_inv _ None seen items) in W; auto; [|discriminate].
    destruct W as (I1 & P1 & S1). rewrite rev_involutive in P1.
    assert (K : forall s2 extra, inv None s2 ((items ++ f) ++ extra) -> incl s1 s2 ->
      rbind (discover_up config_at user_dir s2 ps) (fun '(seen3, rest) => ROk (seen3, f ++ extra ++ rest)) = ROk (seen', new) ->
      inv None seen' (items ++ new) /\ incl seen seen' /\ (forall q, p = q \/ In q ps -> In q seen')).
    { intros s2 extra I2 S2 E. destruct (discover_up config_at user_dir s2 ps) as [[s3 rest]| |] eqn:E3; try discriminate.
      injection E as <- <-. apply (IH _ ((items ++ f) ++ extra)) in E3; auto.
      destruct E3 as (I3 & S3 & P3). rewrite <- !app_assoc in I3. split; auto. split.
      - intros z Hz. apply S3, S2, S1, Hz.
      - intros q [<-|Hq]; auto. }
    destruct f as [|i f].
    + destruct (fallback config_at user_dir s1) as [[s2 extra]| |] eqn:F; try discriminate. simpl in D.
      apply (fallback_inv _ (items ++ [])) in F; auto. destruct F as (I2 & S2).
      apply (K s2 extra); auto.
    + simpl in D. apply (K s1 []); auto.
      * now rewrite app_nil_r.
      * apply incl_refl.
Qed.

(** From a visited path, the deepest configuration above it has been recorded. *)
Lemma seen_deepest seen items : inv None seen items ->
  forall a, In a seen -> (forall u, user_dir = Some u -> ~ above u a) ->
  forall d, above d a -> config_at d <> NoConfig ->
  exists d' s, In (d', s) items /\ above d' a /\ length d <= length d'.
Proof.
  intros [G L] a. remember (length a) as n eqn:En. revert a En.
  induction n as [|n IH]; intros a En Ha U d D C.
  - destruct a; [|discriminate]. destruct D as [r E]. symmetry in E. apply app_eq_nil in E as [-> ->].
    destruct (L [] Ha) as [(s & Gs & H)|(N & _)]; [|contradiction]. exists [], s. repeat split; auto. apply above_refl.
  - destruct (L a Ha) as [(s & Gs & H)|(N & H)].
    { exists a, s. repeat split; auto; [apply above_refl|now apply above_len]. }
    destruct H as [H|[->|(q & x & E & H)]]; [|discriminate|].
    { exfalso. apply (U a H). apply above_refl. }
    destruct H as [H|H]; [|discriminate]. subst a.
    apply above_snoc in D as [->|D]; [contradiction|].
    rewrite app_length in En. simpl in En.
    destruct (IH q ltac:(lia) H) with (d := d) as (d' & s & I & A & Le); auto.
    + intros u Hu A. apply (U u Hu). apply (above_trans _ q); auto. now exists [x].
    + exists d', s. repeat split; auto. apply (above_trans _ q); auto. now exists [x].
Qed.
End Up.

Lemma nested_spec config_at dirs : forall found f l,
  nested config_at found dirs = ROk (f, l) ->
  good config_at l /\ incl found f /\
  (forall d, In d f -> In d found \/ In d (map fst l)) /\
  forall d, In d dirs -> config_at d = NoConfig \/ In d f.
Proof.
  induction dirs as [|d ds IH]; intros found f l H; cbn -[pmem] in H.
  - injection H as <- <-. repeat split; auto; [intros ? ? []|apply incl_refl|intros ? []].
  - destruct (pmem d found) eqn:M.
    { apply pmem_iff in M. destruct (IH _ _ _ H) as (G & I & K & D). repeat split; auto.
      intros z [<-|Hz]; auto. }
    destruct (config_at d) as [| |s] eqn:C; [|discriminate|].
    { destruct (IH _ _ _ H) as (G & I & K & D). repeat split; auto. intros z [<-|Hz]; auto. }
    destruct (nested config_at (d :: found) ds) as [[f' l']| |] eqn:E; try discriminate.
    injection H as <- <-. destruct (IH _ _ _ E) as (G & I & K & D). repeat split.
    + intros z t [[= <- <-]|Hz]; eauto.
    + intros z Hz. apply I. now right.
    + intros z Hz. destruct (K z Hz) as [[<-|H]|H]; simpl; auto.
    + intros z [<-|Hz]; auto. right. apply I. now left.
Qed.

Lemma nested_all_spec config_at subdirs paths : forall found l,
  nested_all config_at subdirs found paths = ROk l ->
  good config_at l /\
  forall p d, In p paths -> In d (subdirs p) -> config_at d = NoConfig \/ In d found \/ In d (map fst l).
Proof.
  induction paths as [|p ps IH]; intros found l H; simpl in H.
  - injection H as <-. split; [intros ? ? []|intros ? ? []].
  - destruct (nested config_at found (subdirs p)) as [[f l1]| |] eqn:E; try discriminate. simpl in H.
    destruct (nested_all config_at subdirs f ps) as [l2| |] eqn:E2; try discriminate. injection H as <-.
    apply nested_spec in E as (G & I & K & D). apply IH in E2 as (G2 & D2).
    split; [now apply good_app|]. intros q d [<-|Hq] Hd; rewrite map_app, in_app_iff.
    + destruct (D d Hd) as [?|H]; auto. destruct (K d H); auto.
    + destruct (D2 q d Hq Hd) as [?|[H|H]]; auto. destruct (K d H); auto.
Qed.

Lemma resolve_from_spec items p : forall best,
  (forall b, best = Some b -> above (fst b) p) ->
  match resolve_from best items p with
  | Some i => (best = Some i \/ In i items) /\ above (fst i) p /\
      (forall b, best = Some b -> length (fst b) <= length (fst i)) /\
      (forall j, In j items -> above (fst j) p -> length (fst j) <= length (fst i))
  | None => best = None /\ forall j, In j items -> ~ above (fst j) p
  end.
Proof.
  induction items as [|i r IH]; intros best B; simpl.
  - destruct best as [b|]; auto. repeat split; auto; [intros b' [= <-]; lia|intros ? []].
  - destruct (under (fst i) p) eqn:U.
    + apply under_iff in U. destruct best as [b|].
      * destruct (length (fst b) <? length (fst i)) eqn:Lt.
        -- apply Nat.ltb_lt in Lt. specialize (IH (Some i)). destruct (resolve_from (Some i) r p) as [j|].
           ++ destruct IH as (H1 & H2 & H3 & H4); [intros ? [= <-]; auto|].
              specialize (H3 i eq_refl). repeat split; auto.
              ** destruct H1 as [[= ->]|H1]; simpl; auto.
              ** intros ? [= <-]. lia.
              ** intros j' [<-|Hj] A; auto.
           ++ destruct IH as (H & _); [intros ? [= <-]; auto|discriminate].
        -- apply Nat.ltb_ge in Lt. specialize (IH (Some b)). destruct (resolve_from (Some b) r p) as [j|].
           ++ destruct IH as (H1 & H2 & H3 & H4); [auto|].
              specialize (H3 b eq_refl) as H3'. repeat split; auto.
              ** destruct H1 as [H1|H1]; simpl; auto.
              ** intros j' [<-|Hj] A; auto. lia.
           ++ destruct IH as (H & _); auto. discriminate.
      * specialize (IH (Some i)). destruct (resolve_from (Some i) r p) as [j|].
        -- destruct IH as (H1 & H2 & H3 & H4); [intros ? [= <-]; auto|].
           specialize (H3 i eq_refl). repeat split; auto.
           ++ destruct H1 as [[= ->]|H1]; simpl; auto.
           ++ intros ? [=].
           ++ intros j' [<-|Hj] A; auto.
        -- destruct IH as (H & _); [intros ? [= <-]; auto|discriminate].
    + assert (U' : ~ above (fst i) p) by (rewrite <- under_iff; congruence).
      specialize (IH best B). destruct (resolve_from best r p) as [j|].
      * destruct IH as (H1 & H2 & H3 & H4). repeat split; auto.
        -- destruct H1; simpl; auto.
        -- intros j' [<-|Hj] A; auto. contradiction.
      * destruct IH as (H1 & H2). split; auto. intros j [<-|Hj]; auto.
Qed.
Lemma resolve_some items p i : resolve items p = Some i ->
  In i items /\ above (fst i) p /\ forall j, In j items -> above (fst j) p -> length (fst j) <= length (fst i).
Proof.
  intros H. pose proof (resolve_from_spec items p None) as Q. change (resolve_from None items p) with (resolve items p) in Q.
  rewrite H in Q. destruct Q as (K & A & _ & M); [discriminate|]. destruct K; [discriminate|auto].
Qed.
Lemma resolve_none items p : resolve items p = None -> forall j, In j items -> ~ above (fst j) p.
Proof.
  intros H. pose proof (resolve_from_spec items p None) as Q. change (resolve_from None items p) with (resolve items p) in Q.
  rewrite H in Q. destruct Q as (K & A); [discriminate|auto].
Qed.

Lemma discover_good config_at user_dir subdirs inputs items :
  discover_settings config_at user_dir subdirs inputs = ROk items -> good config_at items.
Proof.
  unfold discover_settings. destruct (discover_up config_at user_dir [] inputs) as [[seen up]| |] eqn:U; try discriminate.
  simpl. destruct (nested_all config_at subdirs (map fst up) inputs) as [more| |] eqn:N; try discriminate.
  intros [= <-]. apply (discover_up_inv config_at user_dir inputs [] []) in U.
  - destruct U as ((G & _) & _). apply nested_all_spec in N as (G2 & _). now apply good_app.
  - split; [intros ? ? []|intros ? []].
Qed.

Lemma discover_deepest config_at user_dir subdirs inputs items p :
  discover_settings config_at user_dir subdirs inputs = ROk items ->
  reached config_at subdirs inputs p ->
  (forall u, user_dir = Some u -> ~ above u p) ->
  forall d, above d p -> config_at d <> NoConfig ->
  exists d' s, In (d', s) items /\ above d' p /\ length d <= length d'.
Proof.
  unfold discover_settings. destruct (discover_up config_at user_dir [] inputs) as [[seen up]| |] eqn:U; try discriminate.
  simpl. destruct (nested_all config_at subdirs (map fst up) inputs) as [more| |] eqn:N; try discriminate.
  intros [= <-] (Np & i & Hi & Ai & W) Hu d D C.
  apply (discover_up_inv config_at user_dir inputs [] []) in U; [|split; [intros ? ? []|intros ? []]].
  destruct U as (I & _ & Sn). simpl in I.
  apply nested_all_spec in N as (G2 & N).
  destruct (le_lt_dec (length i) (length d)) as [L|L].
  - assert (A : above i d) by now apply (above_comparable i d p).
    destruct (W d A D) as [->|[->|S]]; [|contradiction|].
    + destruct (seen_deepest config_at user_dir seen up I i (Sn i Hi)) with (d := i) as (d' & s & H1 & H2 & H3); auto.
      * intros u E X. apply (Hu u E). now apply (above_trans _ i).
      * exists d', s. split; [apply in_app_iff; auto|split; auto]. now apply (above_trans _ i).
    + destruct (N i d Hi S) as [?|H]; [contradiction|].
      assert (H' : In d (map fst (up ++ more))) by (rewrite map_app, in_app_iff; auto).
      apply in_map_iff in H' as ((d' & s) & E & H'). simpl in E. subst d'. exists d, s. auto.
  - assert (A : above d i) by (apply (above_comparable d i p); auto; lia).
    destruct (seen_deepest config_at user_dir seen up I i (Sn i Hi)) with (d := d) as (d' & s & H1 & H2 & H3); auto.
    + intros u E X. apply (Hu u E). now apply (above_trans _ i).
    + exists d', s. split; [apply in_app_iff; auto|split; auto]. now apply (above_trans _ i).
Qed.

Lemma group_settings_good config_at items d s : good config_at items -> In (d, s) items ->
  group_settings items (Some d) = Some s.
Proof.
  intros G H. simpl. destruct (find (fun i => peqb (fst i) d) items) as [[d' s']|] eqn:F.
  - apply find_some in F as (F & E). apply peqb_eq in E. simpl in E. subst d'. simpl.
    pose proof (G _ _ F) as G1. pose proof (G _ _ H) as G2. rewrite G1 in G2. now injection G2 as ->.
  - exfalso. apply (find_none _ _ F) in H. simpl in H. rewrite peqb_refl in H. discriminate.
Qed.

Lemma nearest_settings config_at user_dir subdirs inputs items p :
  discover_settings config_at user_dir subdirs inputs = ROk items ->
  reached config_at subdirs inputs p ->
  (forall u, user_dir = Some u -> ~ above u p) ->
  match group_settings items (group_key items p) with
  | Some s => exists d, nearest config_at p d s
  | None => no_config_above config_at p
  end.
Proof.
  intros D R U. pose proof (discover_good _ _ _ _ _ D) as G.
  pose proof (discover_deepest _ _ _ _ _ p D R U) as M.
  unfold group_key. destruct (resolve items p) as [[d s]|] eqn:E.
  - apply resolve_some in E as (Hi & A & Max). simpl in A. cbn [option_map fst].
    rewrite (group_settings_good config_at items d s G Hi).
    exists d. repeat split; auto. intros d' A' C'.
    destruct (M d' A' C') as (d2 & s2 & H2 & A2 & L2). specialize (Max _ H2 A2). simpl in Max. lia.
  - simpl. intros d A. pose proof (resolve_none _ _ E) as Nn.
    destruct (config_at d) eqn:C; auto; exfalso;
      (destruct (M d A) as (d2 & s2 & H2 & A2 & _); [congruence|]; exact (Nn _ H2 A2)).
Qed.

(** ** Grouping *)
Lemma key_eqb_eq a b : key_eqb a b = true <-> a = b.
Proof.
  destruct a as [x|], b as [y|]; simpl; try (split; congruence).
  rewrite peqb_eq. split; [intros ->; reflexivity|now intros [= ->]].
Qed.
Definition spread (f : option dpath -> option csettings) (gs : list (option dpath * list dpath)) :=
  flat_map (fun g => map (fun p => (f (fst g), p)) (snd g)) gs.
Lemma add_to_group_spread f k p gs : Permutation (spread f (add_to_group k p gs)) (spread f gs ++ [(f k, p)]).
Proof.
  induction gs as [|[k' l] r IH]; simpl; auto.
  destruct (key_eqb k k') eqn:E; simpl.
  - apply key_eqb_eq in E. subst k'. unfold spread at 1. simpl. rewrite map_app. simpl.
    rewrite <- !app_assoc. apply Permutation_app_head. apply Permutation_cons_append.
  - unfold spread in *. simpl. rewrite <- app_assoc. now apply Permutation_app_head.
Qed.
Lemma add_to_group_keys k p gs : NoDup (map fst gs) ->
  NoDup (map fst (add_to_group k p gs)) /\ (forall x, In x (map fst (add_to_group k p gs)) <-> x = k \/ In x (map fst gs)).
Proof.
  induction gs as [|[k' l] r IH]; simpl; intros N.
  - split; [repeat constructor; auto|]. intros x. intuition congruence.
  - apply NoDup_cons_iff in N as (Nk & N). destruct (key_eqb k k') eqn:E; simpl.
    + apply key_eqb_eq in E. subst k'. split; [now constructor|]. intros x. intuition congruence.
    + destruct (IH N) as (N' & I). split.
      * constructor; auto. rewrite I. intros [->|H]; auto.
        assert (K : key_eqb k k = true) by now apply key_eqb_eq. congruence.
      * intros x. rewrite I. tauto.
Qed.
Lemma group_paths_gen items paths : forall gs, NoDup (map fst gs) ->
  let r := fold_left (fun gs p => add_to_group (group_key items p) p gs) paths gs in
  NoDup (map fst r) /\
  forall f, Permutation (spread f r) (spread f gs ++ map (fun p => (f (group_key items p), p)) paths).
Proof.
  induction paths as [|p ps IH]; intros gs N; simpl.
  - split; auto. intros f. now rewrite app_nil_r.
  - destruct (add_to_group_keys (group_key items p) p gs N) as (N' & _).
    destruct (IH _ N') as (N2 & P). split; auto. intros f.
    rewrite (P f), (add_to_group_spread f (group_key items p) p gs), <- app_assoc. reflexivity.
Qed.
Lemma group_paths_spread items paths f :
  Permutation (spread f (group_paths items paths)) (map (fun p => (f (group_key items p), p)) paths).
Proof. destruct (group_paths_gen items paths []) as (_ & P); [constructor|]. apply (P f). Qed.
Lemma group_paths_nodup items paths : NoDup (map fst (group_paths items paths)).
Proof. destruct (group_paths_gen items paths []) as (N & _); [constructor|]. exact N. Qed.
Lemma spread_perm f gs gs' : Permutation gs gs' -> Permutation (spread f gs) (spread f gs').
Proof. intros P. unfold spread. now apply Permutation_flat_map. Qed.

(** ** Each discovered file once *)
Definition entry_paths (es : list entry) : list dpath :=
  flat_map (fun e => match e with Entry p _ _ => [p] | EntryErr => [] end) es.
Lemma ok_paths_sub matched items es p : In p (ok_paths (discover_files matched items es)) -> In p (entry_paths es).
Proof.
  unfold ok_paths, discover_files, visit_all, entry_paths. rewrite in_flat_map. intros (r & H & Hp).
  apply filter_In in H as (H & _). apply in_flat_map in H as (e & He & H).
  destruct r as [q|]; [|contradiction]. destruct Hp as [->|[]].
  apply in_flat_map. exists e. split; auto. destruct e as [q n b|]; simpl in H.
  - destruct ((n =? 0) && negb b); [|destruct (negb b && path_extension_r q)]; simpl in H;
      try contradiction; destruct H as [[= ->]|[]]; now left.
  - destruct H as [?|[]]; discriminate.
Qed.
Lemma ok_paths_nodup matched items es : NoDup (entry_paths es) -> NoDup (ok_paths (discover_files matched items es)).
Proof.
  induction es as [|e es IH]; intros N; [constructor|].
  assert (T : NoDup (entry_paths es)).
  { unfold entry_paths in N. simpl in N. destruct e; simpl in N; auto. now apply NoDup_cons_iff in N. }
  specialize (IH T). assert (E : forall q, entry_paths [e] = [q] -> ~ In q (ok_paths (discover_files matched items es))).
  { intros q Q H. apply ok_paths_sub in H. unfold entry_paths in *. simpl in N, Q.
    destruct e; simpl in *; [|discriminate]. injection Q as ->. apply NoDup_cons_iff in N. tauto. }
  unfold ok_paths, discover_files, visit_all in *. simpl. rewrite filter_app, flat_map_app.
  destruct (visit e) as [[p|]|] eqn:V; simpl; auto.
  destruct (keep matched items p); simpl; auto. constructor; auto. apply E.
  destruct e as [q n b|]; simpl in *; [|discriminate].
  destruct ((n =? 0) && negb b); [|destruct (negb b && path_extension_r q)]; congruence.
Qed.
Lemma walks_nodup (walk : dpath -> list entry) inputs :
  (forall i, In i inputs -> walk_of i (walk i)) ->
  NoDup inputs -> (forall i j, In i inputs -> In j inputs -> above i j -> i = j) ->
  NoDup (entry_paths (flat_map walk inputs)).
Proof.
  induction inputs as [|i r IH]; intros W N A; [constructor|].
  apply NoDup_cons_iff in N as (Ni & N). simpl. unfold entry_paths. rewrite flat_map_app.
  destruct (W i (or_introl eq_refl)) as (Wi & Wn).
  assert (IH' : NoDup (entry_paths (flat_map walk r))) by (apply IH; auto; intros; [apply W; now right|apply A; simpl; auto]).
  assert (D : forall p, In p (entry_paths (walk i)) -> ~ In p (entry_paths (flat_map walk r))).
  { intros p H1 H2. unfold entry_paths in *. apply in_flat_map in H1 as (e1 & H1 & E1). apply in_flat_map in H2 as (e2 & H2 & E2).
    destruct e1 as [p1 n1 b1|]; [|contradiction]. destruct e2 as [p2 n2 b2|]; [|contradiction].
    destruct E1 as [->|[]]. destruct E2 as [->|[]].
    apply in_flat_map in H2 as (j & Hj & H2). apply Wi in H1.
    destruct (W j (or_intror Hj)) as (Wj & _). apply Wj in H2.
    assert (i = j). { destruct (le_lt_dec (length i) (length j)).
      - apply A; simpl; auto. now apply (above_comparable i j p).
      - symmetry. apply A; simpl; auto. apply (above_comparable j i p); auto. lia. }
    subst j. contradiction. }
  fold (entry_paths (walk i)) (entry_paths (flat_map walk r)).
  change (flat_map _ (walk i)) with (entry_paths (walk i)) in *.
  clear -D IH' Wn. unfold entry_paths in Wn at 1. fold (entry_paths (walk i)) in Wn.
  revert Wn D. generalize (entry_paths (walk i)). intros l Wn D. induction l as [|x l IHl]; simpl; auto.
  apply NoDup_cons_iff in Wn as (Nx & Wn). constructor.
  - rewrite in_app_iff. intros [H|H]; auto. apply (D x); simpl; auto.
  - apply IHl; auto. intros p Hp. apply D. now right.
Qed.

(** ** The language server: one input *)
Lemma lsp_documented config_at user_dir p items :
  config_at p = NoConfig -> (forall u, user_dir = Some u -> ~ above u p) ->
  discover_settings config_at user_dir (fun _ => []) [p] = ROk items ->
  documented_settings config_at user_dir p (lsp_settings items).
Proof.
  intros Np U D. assert (R : reached config_at (fun _ => []) [p] p).
  { split; auto. exists p. split; [now left|]. split; [apply above_refl|]. intros d A1 A2. left.
    symmetry. apply (above_same p d p); auto using above_refl. apply Nat.le_antisymm; now apply above_len. }
  pose proof (discover_deepest _ _ _ _ _ p D R U) as M. pose proof (discover_good _ _ _ _ _ D) as G.
  unfold discover_settings in D. simpl in D.
  destruct (walk_up config_at user_dir [] (ancestors p)) as [[seen f]| |] eqn:W; try discriminate. simpl in D.
  assert (F1 : forall anc sn sn' f0, walk_up config_at user_dir sn anc = ROk (sn', f0) ->
             f0 = [] \/ exists d s, f0 = [(d, s)] /\ In d anc).
  { clear. induction anc as [|a r IH]; intros sn sn' f0 H; simpl in H; [injection H as <- <-; auto|].
    destruct (pmem a sn); [injection H as <- <-; auto|].
    destruct (config_at a) as [| |s]; [|discriminate|injection H as <- <-; right; exists a, s; simpl; auto].
    assert (K : walk_up config_at user_dir (a :: sn) r = ROk (sn', f0) -> f0 = [] \/ exists d s, f0 = [(d, s)] /\ In d (a :: r)).
    { intros K. destruct (IH _ _ _ K) as [?|(d & s & E & I)]; auto. right. exists d, s. simpl; auto. }
    destruct user_dir as [u|]; auto. destruct (peqb a u); auto. injection H as <- <-; auto. }
  assert (An : forall d, In d (ancestors p) -> above d p).
  { clear. unfold ancestors. intros d. assert (K : forall r d, In d (anc_rev r) -> above d (rev r)).
    2:{ intros H. apply K in H. now rewrite rev_involutive in H. }
    clear. intros r. induction r as [|x r IH]; intros d.
    - intros [<-|[]]. apply above_refl.
    - intros [<-|H]; [apply above_refl|]. apply (above_trans _ (rev r)); auto. simpl. now exists [x]. }
  destruct (F1 _ _ _ _ W) as [->|(d & s & -> & Id)].
  - assert (K : exists seen2 extra, fallback config_at user_dir seen = ROk (seen2, extra) /\ items = extra).
    { destruct (fallback config_at user_dir seen) as [[s2 e]| |] eqn:F; try discriminate. simpl in D.
      injection D as <-. exists s2, e. split; auto. now rewrite !app_nil_r. }
    destruct K as (seen2 & extra & F & ->).
    assert (Ncfg : no_config_above config_at p).
    { intros d A. destruct (config_at d) eqn:C; auto; exfalso;
      (destruct (M d A) as (d2 & s2 & H2 & A2 & _); [congruence|]);
      (unfold fallback in F; destruct user_dir as [u|]; [|injection F as <- <-; contradiction];
       destruct (pmem u seen); [injection F as <- <-; contradiction|];
       destruct (config_at u); [|discriminate|]; injection F as <- <-; [contradiction|];
       destruct H2 as [[= -> ->]|[]]; now apply (U d2)). }
    right. split; auto. unfold fallback in F. destruct user_dir as [u|] eqn:Ud.
    + destruct (pmem u seen) eqn:Mu.
      * injection F as <- <-. exfalso. apply pmem_iff in Mu.
        assert (K : forall anc sn sn' f0, walk_up config_at (Some u) sn anc = ROk (sn', f0) -> forall z, In z sn' -> In z sn \/ In z anc).
        { clear. induction anc as [|a r IH]; intros sn sn' f0 H z Hz; cbn -[pmem peqb] in H.
          - injection H as <- <-. auto.
          - destruct (pmem a sn). { injection H as <- <-. auto. }
            destruct (config_at a) as [| |s]; [|discriminate|].
            + destruct (peqb a u).
              * injection H as <- <-. destruct Hz as [<-|Hz]; simpl; auto.
              * destruct (IH _ _ _ H z Hz) as [[<-|K]|K]; simpl; auto.
            + injection H as <- <-. destruct Hz as [<-|Hz]; simpl; auto. }
        destruct (K _ _ _ _ W u Mu) as [[]|H]. apply (U u eq_refl). now apply An.
      * destruct (config_at u); [|discriminate|]; injection F as <- <-; reflexivity.
    + injection F as <- <-. reflexivity.
  - left. exists d, s. simpl in D. injection D as <-. simpl. split; auto.
    assert (A : above d p) by now apply An. repeat split; auto.
    + apply G. now left.
    + intros d' A' C'. destruct (M d' A' C') as (d2 & s2 & H2 & A2 & L2).
      simpl in H2. destruct H2 as [[= <- <-]|H2]; [exact L2|contradiction].
Qed.
