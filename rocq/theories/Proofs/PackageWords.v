(** Counting words against counting definitions (C22). *)
From Verif Require Import Model.Text Model.Base Model.Cli Model.Package Spec.PackageSpec.
From Verif Require Import Proofs.TextProofs Proofs.SplitProofs Proofs.RmdProofs Proofs.CliDiscover Proofs.PackageScan.

Lemma word_char_iff c : word_char c = true <-> wordy c.
Proof. unfold word_char, wordy. now rewrite orb_true_iff, dot_or_us_iff. Qed.
Lemma word_char_not c : word_char c = false <-> ~ wordy c.
Proof. rewrite <- word_char_iff. destruct (word_char c); split; congruence. Qed.
Lemma word_start_iff c : word_start c = true <-> wordy c /\ ascii_digit c = false.
Proof.
  unfold word_start, wordy, ascii_alnum. rewrite orb_true_iff, orb_true_iff, dot_or_us_iff. split.
  - intros [H|[-> | ->]]; auto. split; auto. unfold ascii_alpha, ascii_digit in *.
    apply not_true_iff_false. rewrite andb_true_iff, !N.leb_le. intros (A & B).
    rewrite orb_true_iff, !andb_true_iff, !N.leb_le in H. lia.
  - intros ([[H|H]|H] & D); auto. congruence.
Qed.
Lemma wordy_ascii c : wordy c -> (c < 128)%N.
Proof.
  intros [H|[-> | ->]]; try lia. unfold ascii_alnum, ascii_alpha, ascii_digit in H.
  rewrite !orb_true_iff, !andb_true_iff, !N.leb_le in H. lia.
Qed.
Lemma wordy_not_ws c : wordy c -> is_ws c = false.
Proof.
  intros H. destruct (is_ws c) eqn:E; auto. pose proof (wordy_ascii c H) as L. unfold is_ws in E.
  unfold wordy, ascii_alnum, ascii_alpha, ascii_digit in H.
  rewrite !orb_true_iff, !andb_true_iff, !N.leb_le in H.
  rewrite !orb_true_iff, !andb_true_iff, !N.leb_le, !N.eqb_eq in E. lia.
Qed.
Lemma wordy_not_nl c : wordy c -> c <> nl.
Proof. intros H ->. apply wordy_not_ws in H. discriminate. Qed.
Lemma ws_not_wordy c : is_ws c = true -> ~ wordy c.
Proof. intros H W. apply wordy_not_ws in W. congruence. Qed.

Definition open_word (b : text) : Prop := forall c r, b = c :: r -> word_char c = false.
Lemma open_word_iff b : open_word b <-> (forall c r, b = c :: r -> ~ wordy c).
Proof. unfold open_word. split; intros H c r E; apply word_char_not; eauto. Qed.

(** ** Words of a line *)
Lemma sw_some b : open_word b -> forall a w, Forall (fun c => word_char c = true) a ->
  scan_words (Some w) (a ++ b) = (rev w ++ a) :: scan_words None b.
Proof.
  intros O a. induction a as [|c a IH]; intros w F; simpl.
  - rewrite app_nil_r. destruct b as [|c r]; simpl; auto. rewrite (O c r eq_refl).
    assert (W : word_start c = false).
    { destruct (word_start c) eqn:E; auto. apply word_start_iff in E as (E & _). apply word_char_iff in E.
      rewrite (O c r eq_refl) in E. discriminate. }
    now rewrite W.
  - inversion F as [|? ? H F']; subst. rewrite H, IH by auto. simpl. now rewrite <- app_assoc.
Qed.
Lemma plain_words name : plain_name name -> Forall (fun c => word_char c = true) name.
Proof. intros (F & _). eapply Forall_impl; [|exact F]. intros. now apply word_char_iff. Qed.
Lemma sw_word name b : plain_name name -> open_word b -> scan_words None (name ++ b) = name :: scan_words None b.
Proof.
  intros P O. pose proof (plain_words name P) as F. destruct P as (W & c & r & -> & D).
  simpl. assert (S : word_start c = true).
  { apply word_start_iff. split; auto. now inversion W. }
  rewrite S. inversion F; subst. now rewrite sw_some.
Qed.
Lemma sw_sep c b : word_char c = false -> forall a cur, scan_words cur (a ++ c :: b) = scan_words cur a ++ scan_words None b.
Proof.
  intros H. assert (W : word_start c = false).
  { destruct (word_start c) eqn:E; auto. apply word_start_iff in E as (E & _). apply word_char_iff in E. congruence. }
  induction a as [|x a IH]; intros cur; simpl.
  - destruct cur; [rewrite H; auto|]. now rewrite W.
  - destruct cur as [w|].
    + destruct (word_char x); simpl; now rewrite IH.
    + destruct (word_start x); apply IH.
Qed.
Definition closed_word (a : text) : Prop := forall a' c, a = a' ++ [c] -> word_char c = false.
Lemma sw_app a b : closed_word a -> scan_words None (a ++ b) = scan_words None a ++ scan_words None b.
Proof.
  intros C. destruct a as [|x a _] using rev_ind; auto. rewrite <- app_assoc. simpl.
  rewrite (sw_sep x b (C a x eq_refl)). rewrite (sw_sep x [] (C a x eq_refl)). simpl. now rewrite app_nil_r.
Qed.
Lemma sw_digits ds b : Forall (fun c => ascii_digit c = true) ds -> scan_words None (ds ++ b) = scan_words None b.
Proof.
  induction 1 as [|c ds H _ IH]; simpl; auto.
  assert (W : word_start c = false).
  { destruct (word_start c) eqn:E; auto. apply word_start_iff in E as (_ & E). congruence. }
  now rewrite W.
Qed.
Lemma sw_at pre name post : loose_word_at pre post -> plain_name name ->
  scan_words None (pre ++ name ++ post) = scan_words None pre ++ name :: scan_words None post.
Proof.
  intros (a & ds & -> & D & W1 & W2) P.
  assert (C : closed_word a) by (intros a' c E; apply word_char_not; eauto).
  assert (O : open_word post) by (now apply open_word_iff).
  rewrite <- app_assoc. rewrite (sw_app a (ds ++ name ++ post)), (sw_app a ds) by auto. rewrite (sw_digits ds (name ++ post)) by auto.
  assert (Z : scan_words None ds = []) by (rewrite <- (app_nil_r ds); now rewrite (sw_digits ds [])).
  rewrite Z, app_nil_r. now rewrite sw_word.
Qed.
Lemma span_word_len f t : length (snd (span f t)) <= length t.
Proof. induction t as [|c t IH]; simpl; auto. destruct (f c); simpl; auto. destruct (span f t); simpl in *. lia. Qed.
Lemma sw_inv n : forall l w1 name w2, length l <= n -> scan_words None l = w1 ++ name :: w2 ->
  exists pre post, l = pre ++ name ++ post /\ loose_word_at pre post /\ w1 = scan_words None pre /\ plain_name name.
Proof.
  induction n as [|n IH]; intros l w1 name w2 L E.
  - destruct l; [|simpl in L; lia]. simpl in E. destruct w1; discriminate.
  - destruct l as [|c l]; [destruct w1; discriminate|]. simpl in L. simpl in E.
    destruct (word_start c) eqn:Wc.
    + pose proof (span_spec word_char l) as S. pose proof (span_word_len word_char l) as SL.
      destruct (span word_char l) as [u b]. simpl in SL. destruct S as (-> & F & O).
      assert (Ob : open_word b) by exact O.
      assert (E2 : (rev [c] ++ u) :: scan_words None b = w1 ++ name :: w2) by (rewrite <- E; symmetry; apply sw_some; auto).
      clear E. rename E2 into E. simpl in E.
      apply word_start_iff in Wc as (Wc & Dc).
      assert (Pn : plain_name (c :: u)).
      { split; [|eauto]. constructor; auto. eapply Forall_impl; [|exact F]. intros. now apply word_char_iff. }
      destruct w1 as [|x w1].
      * injection E as <- <-. exists [], b. simpl. split; [reflexivity|]. split; [|auto].
        exists [], []. repeat split; auto. { intros a' d H. destruct a'; discriminate. } now apply open_word_iff.
      * injection E as <- E. destruct (IH b w1 name w2) as (pre & post & Eb & (a & ds & Ep & D & W1 & W2) & Ew & P); auto; [lia|].
        assert (Na : a <> []).
        { intros ->. simpl in Ep. subst ds. destruct pre as [|y pre].
          - destruct P as (Wn & z & nr & -> & _). simpl in Eb. inversion Wn as [|? ? Wz _]; subst.
            apply word_char_iff in Wz. rewrite (Ob z _ eq_refl) in Wz. discriminate.
          - simpl in Eb. inversion D as [|? ? Dy _]; subst. assert (wordy y) as Wy.
            { left. unfold ascii_alnum. now rewrite Dy, orb_true_r. }
            apply word_char_iff in Wy. rewrite (Ob y _ eq_refl) in Wy. discriminate. }
        exists (c :: u ++ pre), post. split; [simpl; rewrite Eb, <- app_assoc; reflexivity|]. split; [|split; auto].
        -- exists (c :: u ++ a), ds. split; [simpl; rewrite Ep, app_assoc; reflexivity|]. split; auto. split; auto.
           intros a' d H. destruct a as [|y a _] using rev_ind; [congruence|].
           rewrite app_assoc, app_comm_cons in H. apply app_inj_tail in H as (_ & <-). eapply W1. reflexivity.
        -- rewrite Ew. rewrite Ep. simpl.
           assert (Oab : open_word (a ++ ds)).
           { intros y r H. destruct a as [|z a]; [congruence|]. simpl in H. injection H as -> _.
             apply (Ob y ((a ++ ds) ++ name ++ post)). rewrite Eb, Ep. reflexivity. }
           assert (Wst : word_start c = true) by now apply word_start_iff. rewrite Wst.
           symmetry. exact (sw_some (a ++ ds) Oab u [c] F).
    + destruct (IH l w1 name w2) as (pre & post & -> & (a & ds & -> & D & W1 & W2) & Ew & P); auto; [lia|].
      exists (c :: a ++ ds), post. split; [reflexivity|]. split; [|split; auto].
      * destruct a as [|y a].
        -- destruct (ascii_digit c) eqn:Dc.
           ++ exists [], (c :: ds). repeat split; auto. 
           ++ exists [c], ds. repeat split; auto. intros a' d H. destruct a' as [|? []]; try discriminate.
              injection H as <-. intros Wd. assert (word_start c = true) by now apply word_start_iff. congruence.
        -- exists (c :: y :: a), ds. repeat split; auto. intros a' d H. destruct a' as [|? a']; [discriminate|].
           injection H as -> H. eapply W1. exact H.
      * simpl. now rewrite Wc.
Qed.
(** ** One line *)
Lemma count_app n a b : count n (a ++ b) = count n a + count n b.
Proof. unfold count. now rewrite filter_app, app_length. Qed.
Lemma count_cons_same n a : count n (n :: a) = S (count n a).
Proof. unfold count. simpl. now rewrite teqb_refl. Qed.
Lemma count_pos n l : 1 <= count n l -> exists a b, l = a ++ n :: b.
Proof.
  unfold count. induction l as [|x l IH]; simpl; [lia|]. destruct (teqb n x) eqn:E.
  - apply teqb_eq in E. subst. intros _. exists [], l. auto.
  - intros H. destruct (IH H) as (a & b & ->). exists (x :: a), b. auto.
Qed.
Definition occ (name a : text) : nat := if comment_line a then 0 else count name (scan_words None a).
Lemma head_prefix (c d : char) p q : c :: p = d :: q -> c = d. Proof. congruence. Qed.
Lemma comment_iff mid name q : plain_name name -> ~ In nl mid ->
  comment_line (mid ++ name ++ q) = true <->
  exists ws r, mid = ws ++ 35%N :: r /\ Forall blank ws /\ forall r', r <> 39%N :: r'.
Proof.
  intros P N. destruct P as (Wn & c & nr & -> & _). assert (Wc : wordy c) by now inversion Wn.
  unfold comment_line. rewrite andb_true_iff, negb_true_iff. split.
  - destruct (trim_start_spec (mid ++ (c :: nr) ++ q)) as (ws & E & W).
    set (t := trim_start (mid ++ (c :: nr) ++ q)) in *. intros (H1 & H2).
    apply starts_with_iff in H1 as (r & Er). rewrite Er in E. simpl in E.
    assert (K : exists r', mid = ws ++ 35%N :: r').
    { clear -E W Wc. revert ws E W. induction mid as [|x mid IH]; intros ws E W.
      - exfalso. simpl in E. destruct ws as [|w ws]; simpl in E; injection E as E1 E2.
        + subst c. unfold wordy in Wc. destruct Wc as [H|[H|H]]; discriminate.
        + simpl in W. apply andb_true_iff in W as (W & _). subst w. now apply ws_not_wordy in W.
      - destruct ws as [|w ws]; simpl in E; injection E as E1 E2.
        + subst x. exists mid. auto.
        + simpl in W. apply andb_true_iff in W as (_ & W). destruct (IH ws E2 W) as (r' & ->). exists r'. now subst. }
    destruct K as (r' & ->). exists ws, r'. repeat split; auto.
    + apply forallb_ws_blank; auto. intros I. apply N. apply in_or_app. now left.
    + intros r'' ->. rewrite <- app_assoc in E. apply app_inv_head in E. simpl in E. injection E as E.
      apply not_true_iff_false in H2. apply H2. rewrite Er, <- E. apply starts_with_iff. now exists (r'' ++ c :: nr ++ q).
  - intros (ws & r & -> & B & H). rewrite <- app_assoc. rewrite trim_start_ws by now apply blank_ws.
    simpl. split; [reflexivity|].
    apply not_true_iff_false. intros K. apply starts_with_iff in K as (z & K). simpl in K. injection K as K.
    destruct r as [|x r]; simpl in K; injection K as K1 K2.
    + subst c. unfold wordy in Wc. destruct Wc as [X|[X|X]]; discriminate.
    + subst x. eapply H. reflexivity.
Qed.

Section Count.
Variable ia : char -> bool.
Hypothesis U : unicode_alnum ia.
Notation line_defines := (line_defines ia).

Lemma word_ident c : wordy c -> ident_char ia c = true.
Proof. intros H. rewrite (ascii_ident ia U) by now apply wordy_ascii. now apply word_char_iff. Qed.
Lemma not_ident_word c : ident_char ia c = false -> word_char c = false.
Proof. intros H. destruct (word_char c) eqn:E; auto. apply word_char_iff, word_ident in E. congruence. Qed.
Lemma assigned_open rest : assigned ia rest -> open_word rest.
Proof. intros A c r E. apply not_ident_word. eapply assigned_head; eauto. Qed.
Lemma plain_names name : plain_name name -> name <> [] /\ Forall (name_char ia) name.
Proof.
  intros (F & c & r & -> & _). split; [discriminate|]. eapply Forall_impl; [|exact F].
  intros a H. apply ident_iff. now apply word_ident.
Qed.
(** A definition line mentions the name; if only once, then at its beginning. *)
Lemma def_occ name a : plain_name name -> ~ In nl a -> line_defines name a -> 1 <= occ name a.
Proof.
  intros P N (_ & _ & rest & -> & A). unfold occ.
  destruct (comment_line (name ++ rest)) eqn:C.
  - exfalso. apply (comment_iff [] name rest P) in C as (ws & r & E & _); [|easy]. destruct ws; discriminate.
  - rewrite sw_word by auto using assigned_open. rewrite count_cons_same. lia.
Qed.
(** Reference inside one line. *)
Definition line_ref (name a : text) : Prop :=
  exists pre post, a = pre ++ name ++ post /\ loose_word_at pre post /\ comment_line a = false /\
    ~ (pre = [] /\ line_defines name a).
Definition defs_in (name a : text) (l : text) : nat :=
  match scan_line ia (strip_eol l) with Some n => if teqb name n then 1 else 0 | None => 0 end.
Lemma line_ref_iff name a : plain_name name -> ~ In nl a ->
  (line_defines name a -> (line_ref name a <-> 2 <= occ name a)) /\
  (~ line_defines name a -> (line_ref name a <-> 1 <= occ name a)).
Proof.
  intros P N. split; intros D; unfold occ, line_ref.
  - split.
    + intros (pre & post & E & L & C & Np). rewrite C.
      destruct pre as [|x pre]; [exfalso; auto|].
      destruct D as (_ & _ & rest & Ea & A).
      rewrite E, (sw_at _ _ _ L P), count_app, count_cons_same.
      assert (O : open_word rest) by now apply assigned_open.
      (* the first word lies in the prefix *)
      assert (K : exists p', x :: pre = name ++ p' /\ open_word p').
      { rewrite Ea in E. destruct L as (b & ds & Eb & Dd & W1 & W2).
        destruct b as [|y b].
        { exfalso. simpl in Eb. subst ds. destruct P as (_ & c & r & -> & Dc). simpl in E. injection E as -> _.
          inversion Dd; subst. congruence. }
        assert (J : forall (u v w z : text), u ++ v = w ++ z -> (exists t, u = w ++ t /\ z = t ++ v) \/ (exists t, w = u ++ t /\ v = t ++ z)).
        { clear. induction u as [|c u IH]; intros v w z E; simpl in *; [right; eauto|].
          destruct w as [|d w]; simpl in *; [left; exists (c :: u); auto|].
          injection E as -> E. destruct (IH _ _ _ E) as [(t & -> & ->)|(t & -> & ->)]; [left|right]; eauto. }
        rewrite Eb in E. rewrite <- app_assoc in E.
        destruct (J name rest (y :: b) (ds ++ name ++ post) E) as [(t & E1 & E2)|(t & E1 & E2)].
        - (* name covers the prefix [y :: b], whose last character is not wordy *)
          exfalso. destruct (exists_last (l := y :: b)) as (b' & c & Ec); [discriminate|].
          rewrite Ec in *. assert (Hc : ~ wordy c) by (eapply W1; reflexivity).
          destruct P as (Wn & _). rewrite E1 in Wn. apply Forall_app in Wn as (Wn & _).
          apply Forall_app in Wn as (_ & Wn). inversion Wn; auto.
        - exists (t ++ ds). rewrite Eb, E1, <- app_assoc. split; auto.
          intros c r Ec. destruct t as [|z t].
          + exfalso. simpl in E1. rewrite app_nil_r in E1.
            destruct (exists_last (l := y :: b)) as (b' & d & Ed); [discriminate|].
            assert (Hd : ~ wordy d) by (eapply W1; eauto). destruct P as (Wn & _). rewrite <- E1, Ed in Wn.
            apply Forall_app in Wn as (_ & Wn). inversion Wn; auto.
          + simpl in Ec. injection Ec as -> _. eapply O. rewrite E2. reflexivity. }
      destruct K as (p' & -> & Op). rewrite sw_word by auto. rewrite count_cons_same. lia.
    + intros H. destruct (comment_line a) eqn:C; [lia|].
      assert (K : exists w1 w2, scan_words None a = w1 ++ name :: w2 /\ w1 <> []).
      { revert H. unfold count. generalize (scan_words None a). intros l. destruct l as [|x l]; simpl; [lia|].
        destruct (teqb name x) eqn:T.
        - intros H. destruct (count_pos name l) as (w1 & w2 & ->); [unfold count; simpl in H; lia|].
          exists (x :: w1), w2. split; auto. discriminate.
        - intros H. destruct (count_pos name l) as (w1 & w2 & ->); [unfold count; lia|].
          exists (x :: w1), w2. split; auto. discriminate. }
      destruct K as (w1 & w2 & E & Nw). destruct (sw_inv _ _ _ _ _ (le_n _) E) as (pre & post & Ea & L & Ew & _).
      exists pre, post. repeat split; auto. intros (-> & _). now apply Nw.
  - split.
    + intros (pre & post & -> & L & C & _). rewrite C, (sw_at _ _ _ L P), count_app, count_cons_same. lia.
    + destruct (comment_line a) eqn:C; [lia|]. intros H. destruct (count_pos _ _ H) as (w1 & w2 & E).
      destruct (sw_inv _ _ _ _ _ (le_n _) E) as (pre & post & Ea & L & _ & _).
      exists pre, post. repeat split; auto. intros (_ & K). auto.
Qed.

(** ** A whole file *)
Definition line_end (l a tl : text) : Prop := l = a ++ tl /\ (tl = [] \/ tl = [nl] \/ tl = [13%N; nl]).
Lemma strip_suffix1_some x t u : strip_suffix1 x t = Some u -> t = u ++ [x].
Proof.
  unfold strip_suffix1. destruct (rev t) as [|c r] eqn:E; [discriminate|]. destruct (N.eqb c x) eqn:C; [|discriminate].
  intros [= <-]. apply N.eqb_eq in C. subst. apply (f_equal (@rev _)) in E. rewrite rev_involutive in E. exact E.
Qed.
Lemma strip_suffix1_snoc x t : strip_suffix1 x (t ++ [x]) = Some t.
Proof. unfold strip_suffix1. rewrite rev_app_distr. simpl. now rewrite N.eqb_refl, rev_involutive. Qed.
Lemma strip_suffix1_no x t : ~ In x t -> strip_suffix1 x t = None.
Proof.
  intros H. destruct (strip_suffix1 x t) eqn:E; auto. apply strip_suffix1_some in E. exfalso. apply H. rewrite E.
  apply in_or_app. right. now left.
Qed.
(** [chomp] of a line of [split_incl]. *)
Lemma chomp_spec b l : ~ In nl b -> (l = b ++ [nl] \/ l = b) ->
  exists tl, line_end l (chomp l) tl /\ ~ In nl (chomp l) /\ (exists c, b = chomp l ++ c /\ forallb is_ws c = true) /\
    (tl = [] -> l = b).
Proof.
  intros N [->| ->]; unfold chomp.
  - rewrite strip_suffix1_snoc. destruct (strip_suffix1 13%N b) as [u|] eqn:E.
    + apply strip_suffix1_some in E. subst b. exists [13%N; nl]. split; [|split; [|split; [|discriminate]]].
      * split; [now rewrite <- app_assoc|auto].
      * intros I. apply N. apply in_or_app. now left.
      * now exists [13%N].
    + exists [nl]. split; [split; auto|]. split; auto. split; [|discriminate]. exists []. now rewrite app_nil_r.
  - rewrite strip_suffix1_no by auto. exists []. split; [split; [now rewrite app_nil_r|auto]|].
    split; auto. split; auto. exists []. now rewrite app_nil_r.
Qed.
Lemma def_chomp b l name : ~ In nl b -> (l = b ++ [nl] \/ l = b) ->
  scan_line ia (strip_eol l) = Some name <-> line_defines name (chomp l).
Proof.
  intros N H. destruct (chomp_spec b l N H) as (_ & _ & _ & (c & E & W) & _).
  rewrite (scan_strip ia U b l name N H). rewrite E. now apply line_defines_ws.
Qed.
(** The last line start. *)
Lemma last_line t : exists p mid, t = p ++ mid /\ at_line_start p /\ ~ In nl mid.
Proof.
  induction t as [|c t IH] using rev_ind.
  - exists [], []. repeat split; auto. now left.
  - destruct (N.eq_dec c nl) as [->|H].
    + exists (t ++ [nl]), []. rewrite app_nil_r. repeat split; auto. right. eauto.
    + destruct IH as (p & mid & -> & L & N). exists p, (mid ++ [c]). rewrite app_assoc. repeat split; auto.
      rewrite in_app_iff. intros [I|[I|[]]]; auto.
Qed.
Lemma last_line_unique p mid p' mid' : p ++ mid = p' ++ mid' -> at_line_start p -> at_line_start p' ->
  ~ In nl mid -> ~ In nl mid' -> p = p' /\ mid = mid'.
Proof.
  intros E L L' N N'.
  assert (J : forall (u v w z : text), u ++ v = w ++ z -> (exists t, u = w ++ t /\ z = t ++ v) \/ (exists t, w = u ++ t /\ v = t ++ z)).
  { clear. induction u as [|c u IH]; intros v w z E; simpl in *; [right; eauto|].
    destruct w as [|d w]; simpl in *; [left; exists (c :: u); auto|].
    injection E as -> E. destruct (IH _ _ _ E) as [(t & -> & ->)|(t & -> & ->)]; [left|right]; eauto. }
  assert (Z : forall p t : text, at_line_start (p ++ t) -> ~ In nl t -> t = []).
  { clear. intros p t L N. destruct t as [|c t _] using rev_ind; auto. exfalso. destruct L as [L|[q L]].
    - destruct p; [destruct t|]; discriminate.
    - rewrite app_assoc in L. apply app_inj_tail in L as (_ & ->). apply N, in_or_app. right. now left. }
  destruct (J _ _ _ _ E) as [(t & -> & ->)|(t & -> & ->)].
  - assert (t = []) by (apply (Z p'); auto; intros I; apply N', in_or_app; now left). subst. now rewrite app_nil_r.
  - assert (t = []) by (apply (Z p); auto; intros I; apply N, in_or_app; now left). subst. now rewrite app_nil_r.
Qed.
Lemma in_comment_iff p mid name q : at_line_start p -> ~ In nl mid -> plain_name name ->
  in_comment (p ++ mid) <-> comment_line (mid ++ name ++ q) = true.
Proof.
  intros L N P. rewrite comment_iff by auto. split.
  - intros (p' & ws & r & E & L' & B & Nr & H).
    assert (p = p' /\ mid = ws ++ 35%N :: r) as (-> & ->).
    { apply last_line_unique; auto. rewrite in_app_iff. simpl. intros [I|[I|I]]; auto; [|discriminate].
      rewrite Forall_forall in B. destruct (B _ I) as (_ & K). auto. }
    eauto.
  - intros (ws & r & -> & B & H). exists p, ws, r. repeat split; auto.
    intros I. apply N. apply in_or_app. right. now right.
Qed.
Lemma loose_word_line p mid post : at_line_start p -> ~ In nl mid ->
  loose_word_at (p ++ mid) post <-> loose_word_at mid post.
Proof.
  intros L N. split.
  - intros (a & ds & E & D & W1 & W2).
    assert (J : forall (u v w z : text), u ++ v = w ++ z -> (exists t, u = w ++ t /\ z = t ++ v) \/ (exists t, w = u ++ t /\ v = t ++ z)).
    { clear. induction u as [|c u IH]; intros v w z E; simpl in *; [right; eauto|].
      destruct w as [|d w]; simpl in *; [left; exists (c :: u); auto|].
      injection E as -> E. destruct (IH _ _ _ E) as [(t & -> & ->)|(t & -> & ->)]; [left|right]; eauto. }
    destruct (J _ _ _ _ E) as [(t & -> & ->)|(t & -> & ->)].
    + (* the digits would contain a newline unless the line starts there *)
      assert (t = []).
      { destruct t as [|c t _] using rev_ind; auto. exfalso. destruct L as [L|[q L]].
        - destruct a; [destruct t|]; discriminate.
        - rewrite app_assoc in L. apply app_inj_tail in L as (_ & ->).
          rewrite <- app_assoc in D. apply Forall_app in D as (_ & D). inversion D; discriminate. }
      subst t. simpl in D. exists [], mid. repeat split; auto. intros a' c H. destruct a'; discriminate.
    + exists t, ds. repeat split; auto. intros a' c ->. eapply W1. rewrite app_assoc. reflexivity.
  - intros (a & ds & -> & D & W1 & W2). exists (p ++ a), ds. rewrite app_assoc. repeat split; auto.
    intros a' c E. destruct a as [|x a _] using rev_ind.
    + rewrite app_nil_r in E. subst p. destruct L as [L|[q L]]; [destruct a'; discriminate|].
      apply app_inj_tail in L as (_ & ->). intros W. now apply wordy_not_nl in W.
    + rewrite app_assoc in E. apply app_inj_tail in E as (_ & <-). eapply W1. reflexivity.
Qed.
Lemma plain_no_nl name : plain_name name -> ~ In nl name.
Proof. intros (F & _) I. rewrite Forall_forall in F. now apply F, wordy_not_nl in I. Qed.
Lemma at_start_mid p mid : at_line_start (p ++ mid) -> at_line_start p -> ~ In nl mid -> mid = [].
Proof.
  intros L L' N. destruct (last_line_unique p mid (p ++ mid) []) as (_ & E); auto. now rewrite app_nil_r.
Qed.
(** The rest of the line and what follows. *)
Definition rest_of (post q r : text) : Prop := post = q ++ r /\ ~ In nl q /\ (r = [] \/ exists b, r = nl :: b).
Lemma rest_exists post : exists q r, rest_of post q r.
Proof.
  destruct (find_char nl post) as [[a b]|] eqn:E.
  - apply find_char_some in E as (-> & N). exists a, (nl :: b). repeat split; eauto.
  - apply find_char_none in E. exists post, []. unfold rest_of. rewrite app_nil_r. auto.
Qed.
Lemma rest_open post q r : rest_of post q r -> open_word q <-> open_word post.
Proof.
  intros (-> & N & H). split; intros O c t E.
  - destruct q as [|x q].
    + destruct H as [->|[b ->]]; [discriminate|]. simpl in E. injection E as <- _. reflexivity.
    + simpl in E. injection E as -> _. eapply O. reflexivity.
  - subst q. eapply O. reflexivity.
Qed.
Lemma assigned_rest post q r name : plain_name name -> rest_of post q r -> assigned ia post <-> line_defines name (name ++ q).
Proof.
  intros P (-> & N & H). destruct (plain_names name P) as (P1 & P2). pose proof (plain_no_nl name P) as P3.
  assert (K : line_defines name (name ++ q ++ r) <-> line_defines name (name ++ q)).
  { destruct H as [->|[b ->]]; [now rewrite app_nil_r|]. rewrite app_assoc. apply line_defines_nl; auto.
    rewrite in_app_iff. tauto. }
  rewrite <- K. split.
  - intros A. repeat split; auto. exists (q ++ r). auto.
  - intros (_ & _ & rest & E & A). apply app_inv_head in E. now rewrite E.
Qed.
Lemma split_line (content p X : text) : content = p ++ X -> at_line_start p -> X <> [] -> forall q r, X = q ++ r -> ~ In nl q ->
  (r = [] \/ exists b, r = nl :: b) -> exists l, In l (split_incl content) /\ (l = q ++ [nl] \/ l = q).
Proof.
  intros -> L X0 q r -> N H. rewrite split_incl_at by auto.
  destruct H as [->|[b ->]].
  - rewrite app_nil_r in *. exists q. split; auto. apply in_or_app. right.
    assert (S : split_incl q = [q]).
    { pose proof (split_incl_of [q]) as S. simpl concat in S. rewrite app_nil_r in S. apply S. simpl. split; eauto. }
    rewrite S. now left.
  - exists (q ++ [nl]). split; auto. apply in_or_app. right. rewrite split_incl_line' by auto. now left.
Qed.

(** An occurrence in the file is an occurrence in one of its lines. *)
Lemma file_line (content name : text) pre post : plain_name name -> content = pre ++ name ++ post -> loose_word_at pre post ->
  exists l mid q, In l (split_incl content) /\ chomp l = mid ++ name ++ q /\ loose_word_at mid q /\
    (in_comment pre <-> comment_line (chomp l) = true) /\
    (at_line_start pre /\ assigned ia post <-> mid = [] /\ line_defines name (chomp l)).
Proof.
  intros P E W. destruct (last_line pre) as (p & mid & -> & L & N). destruct (rest_exists post) as (q & r & R).
  pose proof R as R0. destruct R as (-> & Nq & Hr). pose proof (plain_no_nl name P) as Nn.
  assert (NN : ~ In nl (mid ++ name ++ q)) by (rewrite !in_app_iff; tauto).
  destruct (split_line content p (mid ++ name ++ q ++ r)) with (q := mid ++ name ++ q) (r := r) as (l & Il & Hl); auto.
  { rewrite E, <- app_assoc. reflexivity. }
  { intros Z. destruct P as (_ & c & nr & -> & _). destruct mid; discriminate. }
  { rewrite <- !app_assoc. reflexivity. }
  destruct (chomp_spec _ l NN Hl) as (tl & LE & Nc & (c & Ec & Wc) & _).
  (* [chomp] removes at most a carriage return after the name *)
  assert (K : exists q', chomp l = mid ++ name ++ q' /\ q = q' ++ c).
  { assert (Nm : name <> []) by (destruct P as (_ & ? & ? & -> & _); discriminate).
    destruct (exists_last Nm) as (nm & x & En).
    assert (Wx : is_ws x = false).
    { destruct P as (Wn & _). rewrite En in Wn. apply Forall_app in Wn as (_ & Wn). inversion Wn; subst. now apply wordy_not_ws. }
    rewrite En in Ec |- *. rewrite <- app_assoc in Ec. simpl in Ec. rewrite app_assoc in Ec.
    destruct (app_suffix (mid ++ nm) q (chomp l) c x Ec Wc Wx) as (q' & -> & ->). exists q'. split; auto.
    rewrite <- !app_assoc. reflexivity. }
  destruct K as (q' & Ek & Eq). exists l, mid, q'. split; auto. split; auto.
  assert (W' : loose_word_at mid q').
  { apply (loose_word_line p mid) in W; auto. destruct W as (a & ds & -> & D & W1 & W2). exists a, ds. repeat split; auto.
    intros y b ->. apply (W2 y (b ++ c ++ r)). rewrite Eq. simpl. now rewrite <- app_assoc. }
  split; auto. split.
  - rewrite Ek. now apply in_comment_iff.
  - assert (R' : rest_of (q ++ r) q r) by (repeat split; auto).
    rewrite (assigned_rest _ _ _ name P R'), Ek.
    assert (Q : line_defines name (name ++ q) <-> line_defines name (name ++ q')).
    { rewrite Eq, app_assoc. now apply line_defines_ws. }
    rewrite Q. split.
    + intros (S & D). assert (mid = []) by (eapply at_start_mid; eauto). subst mid. auto.
    + intros (-> & D). rewrite app_nil_r. auto.
Qed.
Lemma line_file (content name : text) l mid q : plain_name name -> In l (split_incl content) ->
  chomp l = mid ++ name ++ q -> loose_word_at mid q ->
  exists pre post, content = pre ++ name ++ post /\ loose_word_at pre post /\
    (in_comment pre <-> comment_line (chomp l) = true) /\
    (at_line_start pre /\ assigned ia post <-> mid = [] /\ line_defines name (chomp l)).
Proof.
  intros P Il E W. apply in_split in Il as (ls1 & ls2 & S).
  destruct (split_incl_pre _ _ _ _ S) as (C & L & _ & (a & Na & Hl) & _).
  assert (Hl' : l = a ++ [nl] \/ l = a) by tauto.
  destruct (chomp_spec a l Na Hl') as (tl & (El & Ht) & Nc & (c & Ec & Wc) & T0).
  set (p := concat ls1) in *.
  assert (Nm : ~ In nl mid) by (intros I; apply Nc; rewrite E; apply in_or_app; auto).
  assert (Nq : ~ In nl q) by (intros I; apply Nc; rewrite E, !in_app_iff; auto).
  exists (p ++ mid), (q ++ tl ++ concat ls2).
  assert (Tws : forallb is_ws tl = true) by (destruct Ht as [->|[->| ->]]; reflexivity).
  assert (Te : tl = [] -> concat ls2 = []).
  { intros ->. specialize (T0 eq_refl). subst l. destruct Hl as [Hl|(_ & ->)]; auto.
    exfalso. apply (f_equal (@length _)) in Hl. rewrite app_length in Hl. simpl in Hl. lia. }
  split; [rewrite C, El, E, <- !app_assoc; reflexivity|].
  assert (W' : loose_word_at mid (q ++ tl ++ concat ls2)).
  { destruct W as (b & ds & -> & D & W1 & W2). exists b, ds. repeat split; auto.
    intros y z H. destruct q as [|x q].
    - simpl in H. destruct tl as [|t tl].
      + rewrite (Te eq_refl) in H. discriminate.
      + simpl in H. injection H as -> _. simpl in Tws. apply andb_true_iff in Tws as (Tw & _). now apply ws_not_wordy.
    - simpl in H. injection H as -> _. eapply W2. reflexivity. }
  split; [now apply loose_word_line|]. split; [rewrite E; now apply in_comment_iff|].
  assert (R : exists q2 r, rest_of (q ++ tl ++ concat ls2) q2 r /\ (line_defines name (name ++ q2) <-> line_defines name (name ++ q))).
  { destruct Ht as [->|[->| ->]].
    - rewrite (Te eq_refl). simpl. exists q, []. split; [repeat split; auto|reflexivity].
    - exists q, (nl :: concat ls2). split; [repeat split; eauto|reflexivity].
    - exists (q ++ [13%N]), (nl :: concat ls2). split.
      + split; [now rewrite <- app_assoc|]. split; eauto. rewrite in_app_iff. intros [I|[I|[]]]; auto. discriminate.
      + rewrite app_assoc. now apply line_defines_ws. }
  destruct R as (q2 & r & R & D). rewrite (assigned_rest _ _ _ name P R), D, E. split.
  - intros (Hs & Hd). assert (mid = []) by (eapply at_start_mid; eauto). subst mid. auto.
  - intros (-> & Hd). rewrite app_nil_r. auto.
Qed.
Theorem file_ref content name : plain_name name ->
  maybe_referenced ia content name <-> exists l, In l (split_incl content) /\ line_ref name (chomp l).
Proof.
  intros P. split.
  - intros (pre & post & E & W & C & D). destruct (file_line content name pre post P E W) as (l & mid & q & Il & El & Wl & Hc & Hd).
    exists l. split; auto. exists mid, q. split; auto. split; auto. split; [|tauto].
    destruct (comment_line (chomp l)); auto. exfalso. tauto.
  - intros (l & Il & mid & q & El & Wl & C & D). destruct (line_file content name l mid q P Il El Wl) as (pre & post & E & W & Hc & Hd).
    exists pre, post. split; auto. split; auto. split; [|tauto]. rewrite Hc, C. discriminate.
Qed.
Theorem file_mention content name : plain_name name ->
  maybe_mentioned content name <-> In name (scan_symbols content).
Proof.
  intros P. unfold scan_symbols, lines. rewrite in_flat_map. split.
  - intros (pre & post & E & W & C). destruct (file_line content name pre post P E W) as (l & mid & q & Il & El & Wl & Hc & Hd).
    exists (chomp l). split; [now apply in_map|]. destruct (comment_line (chomp l)); [exfalso; tauto|].
    rewrite El, (sw_at _ _ _ Wl P). apply in_or_app. right. now left.
  - intros (x & Ix & H). apply in_map_iff in Ix as (l & <- & Il). destruct (comment_line (chomp l)) eqn:C; [destruct H|].
    apply in_split in H as (w1 & w2 & H). destruct (sw_inv _ _ _ _ _ (le_n _) H) as (mid & q & El & Wl & _).
    destruct (line_file content name l mid q P Il El Wl) as (pre & post & E & W & Hc & Hd).
    exists pre, post. split; auto. split; auto. rewrite Hc, C. discriminate.
Qed.

(** ** Counting *)
Definition sum {A} (f : A -> nat) (l : list A) : nat := fold_right (fun x n => f x + n) 0 l.
Definition def_n (name l : text) : nat :=
  match scan_line ia (strip_eol l) with Some n => if teqb name n then 1 else 0 | None => 0 end.
Lemma words_sum name content : count name (scan_symbols content) = sum (fun l => occ name (chomp l)) (split_incl content).
Proof.
  unfold scan_symbols, lines. induction (split_incl content) as [|l ls IH]; simpl; auto.
  rewrite count_app, IH. f_equal. unfold occ. destruct (comment_line (chomp l)); auto.
Qed.
Lemma defs_sum name ls : forall off n, count name (map ad_name (scan_from ia off n ls)) = sum (def_n name) ls.
Proof.
  induction ls as [|l ls IH]; intros off n; simpl; auto. unfold def_n at 1.
  destruct (scan_line ia (strip_eol l)) as [m|]; [|simpl; apply IH]. simpl. unfold count in *. simpl.
  destruct (teqb name m); simpl; now rewrite IH.
Qed.
Lemma sum_le {A} (f g : A -> nat) l : (forall x, In x l -> g x <= f x) -> sum g l <= sum f l.
Proof.
  induction l as [|x l IH]; intros H; simpl; auto. specialize (IH (fun y I => H y (or_intror I))).
  specialize (H x (or_introl eq_refl)). lia.
Qed.
Lemma sum_eq {A} (f g : A -> nat) l : (forall x, In x l -> g x <= f x) ->
  sum f l <= sum g l <-> forall x, In x l -> f x <= g x.
Proof.
  intros H. split; [|apply sum_le]. induction l as [|x l IH]; simpl; [intros _ ? []|].
  intros S y Hy. assert (Hx := H x (or_introl eq_refl)). assert (H' : forall y, In y l -> g y <= f y) by (intros; apply H; now right).
  pose proof (sum_le f g l H'). destruct Hy as [<-|Hy]; [lia|]. apply (IH H'); auto. lia.
Qed.
Lemma line_shape content l : In l (split_incl content) -> exists b, ~ In nl b /\ (l = b ++ [nl] \/ l = b).
Proof.
  intros Il. apply in_split in Il as (ls1 & ls2 & S).
  destruct (split_incl_pre _ _ _ _ S) as (_ & _ & _ & (a & Na & Hl) & _). exists a. split; auto. tauto.
Qed.
Lemma line_count content name l : plain_name name -> In l (split_incl content) ->
  def_n name l <= occ name (chomp l) /\ (occ name (chomp l) <= def_n name l <-> ~ line_ref name (chomp l)).
Proof.
  intros P Il. destruct (line_shape content l Il) as (b & Nb & Hl).
  destruct (chomp_spec b l Nb Hl) as (_ & _ & Nc & _).
  pose proof (def_chomp b l name Nb Hl) as D. destruct (line_ref_iff name (chomp l) P Nc) as (R1 & R2).
  unfold def_n. destruct (scan_line ia (strip_eol l)) as [m|] eqn:Sl.
  - destruct (teqb name m) eqn:T.
    + apply teqb_eq in T. subst m. assert (Ld : line_defines name (chomp l)) by now apply D.
      pose proof (def_occ name _ P Nc Ld). split; auto. rewrite (R1 Ld). lia.
    + apply teqb_neq in T. assert (Ld : ~ line_defines name (chomp l)) by (intros K; apply D in K; congruence).
      split; [lia|]. rewrite (R2 Ld). lia.
  - assert (Ld : ~ line_defines name (chomp l)) by (intros K; apply D in K; congruence).
    split; [lia|]. rewrite (R2 Ld). lia.
Qed.
Theorem count_iff (fs : list pfile) name : plain_name name -> (forall f, In f fs -> pf_scope f <> SSrc) ->
  count name (words_of fs) <= count name (names_of ia fs) <->
  forall f, In f fs -> ~ maybe_referenced ia (pf_content f) name.
Proof.
  intros P Ns. set (O := fun f => sum (fun l => occ name (chomp l)) (split_incl (pf_content f))).
  set (D := fun f => sum (def_n name) (split_incl (pf_content f))).
  assert (E1 : count name (words_of fs) = sum O fs).
  { unfold words_of. clear Ns. induction fs as [|f fs IH]; simpl; auto. rewrite count_app, IH, words_sum. reflexivity. }
  assert (E2 : count name (names_of ia fs) = sum D fs).
  { unfold names_of. revert Ns. clear E1. induction fs as [|f fs IH]; intros Ns; simpl; auto.
    rewrite count_app, IH by (intros; apply Ns; now right). f_equal. unfold assignments, scan_top_level_assignments.
    assert (pf_scope f <> SSrc) by (apply Ns; now left). destruct (pf_scope f); try congruence; apply defs_sum. }
  rewrite E1, E2.
  assert (LE : forall f, D f <= O f).
  { intros f. apply sum_le. intros l Il. now apply (line_count (pf_content f)). }
  rewrite sum_eq by auto. split; intros H f If.
  - rewrite file_ref by auto. intros (l & Il & R). specialize (H f If). unfold O, D in H.
    rewrite sum_eq in H by (intros; now apply (line_count (pf_content f))).
    specialize (H l Il). apply (line_count (pf_content f)) in H; auto.
  - apply sum_eq; [intros; now apply (line_count (pf_content f))|]. intros l Il.
    apply (line_count (pf_content f)); auto. intros R. apply (H f If). apply file_ref; eauto.
Qed.
End Count.
