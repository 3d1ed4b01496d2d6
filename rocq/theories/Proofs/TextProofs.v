(** Lemmas about texts. *)
From Verif Require Import Model.Text.

Lemma u8len_pos c : 1 <= u8len c <= 4.
Proof.
  unfold u8len.
  destruct (c <? 128)%N; [lia|]. destruct (c <? 2048)%N; [lia|].
  destruct (c <? 65536)%N; lia.
Qed.

Lemma blen_app a b : blen (a ++ b) = blen a + blen b.
Proof. induction a; cbn; lia. Qed.

Lemma length_le_blen t : length t <= blen t.
Proof. induction t as [|c t IH]; cbn; [lia|]. pose proof (u8len_pos c). lia. Qed.

Lemma blen_0 t : blen t = 0 -> t = [].
Proof. destruct t as [|c t]; cbn; [auto|]. pose proof (u8len_pos c). lia. Qed.

Lemma bsplit_0 t : bsplit 0 t = Some ([], t).
Proof. destruct t; reflexivity. Qed.

Lemma bsplit_some n t a b : bsplit n t = Some (a, b) -> t = a ++ b /\ blen a = n.
Proof.
  revert n a b; induction t as [|c r IH]; intros n a b; destruct n; cbn [bsplit].
  - intros [= <- <-]; auto.
  - discriminate.
  - intros [= <- <-]; auto.
  - destruct (u8len c <=? S n) eqn:E; [|discriminate].
    destruct (bsplit (S n - u8len c) r) as [[a' b']|] eqn:F; [|discriminate].
    intros [= <- <-]. apply IH in F as [-> F].
    apply Nat.leb_le in E. cbn. split; [auto|lia].
Qed.

Lemma bsplit_app a b : bsplit (blen a) (a ++ b) = Some (a, b).
Proof.
  induction a as [|c a IH]; [destruct b; reflexivity|].
  cbn [blen app bsplit]. pose proof (u8len_pos c).
  destruct (u8len c + blen a) eqn:E; [lia|]. rewrite <- E.
  destruct (u8len c <=? u8len c + blen a) eqn:F; [|apply Nat.leb_gt in F; lia].
  replace (u8len c + blen a - u8len c) with (blen a) by lia. now rewrite IH.
Qed.

Lemma bsplit_iff n t a b : bsplit n t = Some (a, b) <-> t = a ++ b /\ blen a = n.
Proof.
  split; [apply bsplit_some|]. intros [-> <-]. apply bsplit_app.
Qed.

Lemma bslice_iff a b t m :
  bslice a b t = Some m <-> exists p q, t = p ++ m ++ q /\ blen p = a /\ blen (p ++ m) = b.
Proof.
  unfold bslice. split.
  - destruct (a <=? b) eqn:E; [|discriminate].
    destruct (bsplit b t) as [[p q]|] eqn:F; [|discriminate].
    destruct (bsplit a p) as [[p' m']|] eqn:G; [|discriminate].
    intros [= <-]. apply bsplit_some in F as [-> F]. apply bsplit_some in G as [-> G].
    exists p', q. rewrite app_assoc. auto.
  - intros (p & q & -> & <- & <-).
    destruct (blen p <=? blen (p ++ m)) eqn:E.
    2: { apply Nat.leb_gt in E. rewrite blen_app in E. lia. }
    now rewrite app_assoc, bsplit_app, bsplit_app.
Qed.

Lemma breplace_iff a b new t out :
  breplace a b new t = Some out <->
  exists p m q, t = p ++ m ++ q /\ blen p = a /\ blen p + blen m = b /\ out = p ++ new ++ q.
Proof.
  unfold breplace. split.
  - destruct (a <=? b) eqn:E; [|discriminate]. apply Nat.leb_le in E.
    destruct (bsplit a t) as [[p r]|] eqn:F; [|discriminate].
    destruct (bsplit (b - a) r) as [[m q]|] eqn:G; [|discriminate].
    intros [= <-]. apply bsplit_some in F as [-> F]. apply bsplit_some in G as [-> G].
    exists p, m, q. repeat split; auto; lia.
  - intros (p & m & q & -> & <- & <- & ->).
    destruct (blen p <=? blen p + blen m) eqn:E; [|apply Nat.leb_gt in E; lia].
    rewrite bsplit_app. replace (blen p + blen m - blen p) with (blen m) by lia.
    now rewrite bsplit_app.
Qed.

Lemma teqb_eq a b : teqb a b = true <-> a = b.
Proof.
  revert b; induction a as [|x a IH]; destruct b as [|y b]; cbn; split; try easy.
  - rewrite andb_true_iff. intros [H1 H2]. apply N.eqb_eq in H1. apply IH in H2. congruence.
  - intros [= -> ->]. rewrite N.eqb_refl. cbn. now apply IH.
Qed.
Lemma teqb_refl a : teqb a a = true. Proof. now apply teqb_eq. Qed.
Lemma teqb_neq a b : teqb a b = false <-> a <> b.
Proof. rewrite <- teqb_eq. destruct (teqb a b); split; congruence. Qed.

Lemma strip_prefix_iff p t r : strip_prefix p t = Some r <-> t = p ++ r.
Proof.
  revert t r; induction p as [|x p IH]; intros t r; cbn.
  - split; congruence.
  - destruct t as [|y t]; [split; discriminate|].
    destruct (N.eqb x y) eqn:E.
    + apply N.eqb_eq in E; subst. rewrite IH. split; [intros ->; auto|intros [= ->]; auto].
    + apply N.eqb_neq in E. split; [discriminate|intros [= -> _]; congruence].
Qed.
Lemma strip_prefix_app p r : strip_prefix p (p ++ r) = Some r.
Proof. now apply strip_prefix_iff. Qed.
Lemma starts_with_iff p t : starts_with p t = true <-> exists r, t = p ++ r.
Proof.
  unfold starts_with. destruct (strip_prefix p t) eqn:E.
  - apply strip_prefix_iff in E. split; eauto.
  - split; [discriminate|]. intros [r H]. apply strip_prefix_iff in H. congruence.
Qed.

Lemma contains_iff p t : contains p t = true <-> exists a b, t = a ++ p ++ b.
Proof.
  induction t as [|c t IH]; cbn [contains]; rewrite orb_true_iff, starts_with_iff.
  - split.
    + intros [[r H]|]; [|discriminate]. exists [], r; auto.
    + intros (a & b & H). left. symmetry in H. apply app_eq_nil in H as [-> H].
      exists b; auto.
  - split.
    + intros [[r H]|H].
      * exists [], r; auto.
      * apply IH in H as (a & b & ->). exists (c :: a), b; auto.
    + intros (a & b & H). destruct a as [|x a].
      * left; exists b; auto.
      * right. injection H as -> ->. apply IH. eauto.
Qed.

Lemma find_char_some x t a b :
  find_char x t = Some (a, b) <-> t = a ++ x :: b /\ ~ In x a.
Proof.
  revert a b; induction t as [|c t IH]; intros a b; cbn [find_char].
  - split; [discriminate|]. intros [H _]. destruct a; discriminate.
  - destruct (N.eqb c x) eqn:E.
    + apply N.eqb_eq in E; subst c. split.
      * intros [= <- <-]. split; auto.
      * intros [H Hn]. destruct a as [|y a].
        { injection H as ->; auto. }
        { injection H as -> H. exfalso; apply Hn; left; auto. }
    + apply N.eqb_neq in E. destruct (find_char x t) as [[a' b']|] eqn:F.
      * split.
        { intros [= <- <-]. destruct (proj1 (IH a' b') eq_refl) as [-> Hn].
          split; [auto|]. intros [Hc|Hc]; [congruence|auto]. }
        { intros [H Hn]. destruct a as [|y a]; [injection H as H _; congruence|].
          injection H as -> H.
          assert (Hf : Some (a', b') = Some (a, b)).
          { apply IH. split; [auto|]. intros Hi; apply Hn; right; auto. }
          injection Hf as -> ->; auto. }
      * split; [discriminate|]. intros [H Hn]. destruct a as [|y a]; [injection H as H _; congruence|].
        injection H as -> H.
        assert (Hf : None = Some (a, b)) by (apply IH; split; [auto|intros Hi; apply Hn; right; auto]).
        discriminate.
Qed.
Lemma find_char_none x t : find_char x t = None <-> ~ In x t.
Proof.
  induction t as [|c t IH]; cbn [find_char]; [split; auto|].
  destruct (N.eqb c x) eqn:E.
  - apply N.eqb_eq in E; subst. split; [discriminate|]. intros H; exfalso; apply H; left; auto.
  - apply N.eqb_neq in E. destruct (find_char x t) as [[a b]|].
    + split; [discriminate|]. intros H. exfalso.
      assert (None = Some (a,b)) by (symmetry; apply IH; intros Hi; apply H; right; auto).
      discriminate.
    + split; [|auto]. intros _ [H|H]; [congruence|]. now apply IH in H.
Qed.

(** Trimming. *)
Lemma trim_start_spec t :
  exists w, t = w ++ trim_start t /\ forallb is_ws w = true.
Proof.
  induction t as [|c t IH]; cbn [trim_start]; [exists []; auto|].
  destruct (is_ws c) eqn:E.
  - destruct IH as (w & H & Hw). exists (c :: w). cbn. rewrite E, <- H. auto.
  - exists []; auto.
Qed.
Lemma trim_start_head t c r : trim_start t = c :: r -> is_ws c = false.
Proof.
  induction t as [|x t IH]; cbn [trim_start]; [discriminate|].
  destruct (is_ws x) eqn:E; [auto|]. intros [= -> ->]; auto.
Qed.
Lemma trim_start_nil t : trim_start t = [] <-> forallb is_ws t = true.
Proof.
  induction t as [|c t IH]; cbn; [tauto|]. destruct (is_ws c); cbn; [auto|split; discriminate].
Qed.
Lemma trim_start_id c r : is_ws c = false -> trim_start (c :: r) = c :: r.
Proof. cbn. now intros ->. Qed.
Lemma trim_start_ws w t : forallb is_ws w = true -> trim_start (w ++ t) = trim_start t.
Proof.
  induction w as [|c w IH]; cbn; [auto|]. rewrite andb_true_iff. intros [-> H]; auto.
Qed.
Lemma forallb_rev {A} (f : A -> bool) l : forallb f (rev l) = forallb f l.
Proof.
  induction l as [|a l IH]; cbn; [auto|]. rewrite forallb_app, IH. cbn.
  rewrite andb_true_r. apply andb_comm.
Qed.
Lemma trim_end_spec t :
  exists w, t = trim_end t ++ w /\ forallb is_ws w = true.
Proof.
  unfold trim_end. destruct (trim_start_spec (rev t)) as (w & H & Hw).
  exists (rev w). split; [|now rewrite forallb_rev].
  rewrite <- rev_app_distr, <- H. now rewrite rev_involutive.
Qed.
Lemma trim_end_nil t : trim_end t = [] <-> forallb is_ws t = true.
Proof.
  unfold trim_end. rewrite <- (forallb_rev is_ws t), <- trim_start_nil.
  destruct (trim_start (rev t)); cbn; [tauto|]. split; [|discriminate].
  intros H. apply app_eq_nil in H as [_ H]. discriminate.
Qed.
Lemma trim_end_last t c : is_ws c = false -> trim_end (t ++ [c]) = t ++ [c].
Proof.
  intros H. unfold trim_end. rewrite rev_app_distr. cbn. rewrite H. cbn.
  now rewrite rev_involutive.
Qed.
Lemma trim_nil t : trim t = [] <-> forallb is_ws t = true.
Proof.
  unfold trim. rewrite trim_end_nil. destruct (trim_start_spec t) as (w & H & Hw).
  rewrite H at 2. now rewrite forallb_app, Hw.
Qed.
(** The trimmed text is the text without a white-space prefix and suffix. *)
Lemma trim_spec t :
  exists w1 w2, t = w1 ++ trim t ++ w2 /\ forallb is_ws w1 = true /\ forallb is_ws w2 = true.
Proof.
  destruct (trim_start_spec t) as (w1 & H1 & Hw1).
  destruct (trim_end_spec (trim_start t)) as (w2 & H2 & Hw2).
  exists w1, w2. unfold trim. rewrite <- H2. auto.
Qed.
(** Both ends of [m] are not white space. *)
Definition tight (m : text) : Prop :=
  (forall c r, m = c :: r -> is_ws c = false) /\ (forall r c, m = r ++ [c] -> is_ws c = false).

Lemma trim_tight t : tight (trim t).
Proof.
  unfold tight, trim, trim_end. split.
  - intros c r H.
    destruct (trim_start (rev (trim_start t))) as [|y ys] eqn:E; [discriminate|].
    pose proof (trim_start_spec (rev (trim_start t))) as (w & Hw & _).
    rewrite E in Hw. apply (f_equal (@rev _)) in Hw. rewrite rev_involutive, rev_app_distr in Hw.
    rewrite H in Hw. apply (trim_start_head t c (r ++ rev w)). rewrite Hw; reflexivity.
  - intros r c H.
    apply (f_equal (@rev _)) in H. rewrite rev_involutive, rev_app_distr in H. cbn in H.
    now apply trim_start_head in H.
Qed.
Lemma trim_unique w1 m w2 :
  forallb is_ws w1 = true -> forallb is_ws w2 = true -> tight m -> trim (w1 ++ m ++ w2) = m.
Proof.
  intros H1 H2 [Hh Hl]. unfold trim. rewrite trim_start_ws by auto.
  destruct m as [|c m].
  - cbn. apply trim_start_nil in H2. rewrite H2. reflexivity.
  - cbn [app]. rewrite trim_start_id by (eapply Hh; eauto).
    unfold trim_end. rewrite app_comm_cons, rev_app_distr.
    rewrite trim_start_ws by now rewrite forallb_rev.
    destruct (rev (c :: m)) as [|y ys] eqn:E.
    { apply (f_equal (@length _)) in E. rewrite rev_length in E. discriminate. }
    assert (Hy : c :: m = rev ys ++ [y]).
    { rewrite <- (rev_involutive (c :: m)), E. reflexivity. }
    rewrite trim_start_id by (eapply Hl; eauto). now rewrite <- E, rev_involutive.
Qed.
Lemma trim_id m : tight m -> trim m = m.
Proof. intros H. rewrite <- (app_nil_r m) at 1. apply (trim_unique [] m []); auto. Qed.
Lemma tight_nil : tight [].
Proof. split; [discriminate|]. intros r c H. symmetry in H. apply app_eq_nil in H as [_ H]; discriminate. Qed.

Lemma ascii_u8len c : ascii_char c = true -> u8len c = 1.
Proof. unfold ascii_char, u8len. now intros ->. Qed.
Lemma ascii_blen t : ascii_text t = true -> blen t = length t.
Proof.
  induction t as [|c t IH]; cbn; [auto|]. rewrite andb_true_iff. intros [H1 H2].
  rewrite ascii_u8len by auto. unfold ascii_text in IH. rewrite IH; auto.
Qed.
Lemma ascii_app a b : ascii_text (a ++ b) = (ascii_text a && ascii_text b)%bool.
Proof. apply forallb_app. Qed.
