From Verif Require Import Model.Text Model.RowCol Spec.RowColSpec Proofs.TextProofs.

Lemma new_lines_app p a b :
  new_lines_from p (a ++ b) = new_lines_from p a ++ new_lines_from (p + blen a) b.
Proof.
  revert p; induction a as [|c a IH]; intros p; cbn; [now rewrite Nat.add_0_r|].
  replace (p + (u8len c + blen a)) with (p + u8len c + blen a) by lia.
  destruct (N.eqb c nl); cbn; rewrite IH; reflexivity.
Qed.
Lemma new_lines_bounds p a x : In x (new_lines_from p a) -> p <= x < p + blen a.
Proof.
  revert p; induction a as [|c a IH]; intros p; cbn; [tauto|].
  pose proof (u8len_pos c).
  destruct (N.eqb c nl); cbn.
  - intros [<-|H1]; [lia|]. apply IH in H1. lia.
  - intros H1. apply IH in H1. lia.
Qed.
Lemma new_lines_count p a : length (new_lines_from p a) = count_nl a.
Proof. revert p; induction a as [|c a IH]; intros p; cbn; [auto|]. destruct (N.eqb c nl); cbn; rewrite IH; auto. Qed.

Lemma filter_all {A} (f : A -> bool) l : (forall x, In x l -> f x = true) -> filter f l = l.
Proof.
  induction l as [|a l IH]; cbn; intros H; [auto|]. rewrite H by auto. f_equal. apply IH. auto.
Qed.
Lemma filter_none {A} (f : A -> bool) l : (forall x, In x l -> f x = false) -> filter f l = [].
Proof.
  induction l as [|a l IH]; cbn; intros H; [auto|]. rewrite H by auto. apply IH. auto.
Qed.

Lemma existsb_nl_new_lines p a : existsb (N.eqb nl) a = false <-> new_lines_from p a = [].
Proof.
  revert p; induction a as [|c a IH]; intros p; cbn [existsb new_lines_from]; [tauto|].
  rewrite N.eqb_sym. destruct (N.eqb c nl); cbn; [split; discriminate|]. apply IH.
Qed.

(** The last newline of [a] is followed by [last_line a]. *)
Lemma last_new_line p a :
  new_lines_from p a <> [] ->
  List.last (new_lines_from p a) 0 + 1 + blen (last_line a) = p + blen a.
Proof.
  revert p; induction a as [|c a IH]; intros p; [cbn; congruence|].
  cbn [new_lines_from last_line blen].
  destruct (existsb (N.eqb nl) a) eqn:E.
  - assert (Hn : new_lines_from (p + u8len c) a <> []).
    { intros H. apply existsb_nl_new_lines in H. congruence. }
    intros _. specialize (IH _ Hn).
    destruct (N.eqb c nl).
    + destruct (new_lines_from (p + u8len c) a) eqn:F; [congruence|]. cbn [List.last] in *. lia.
    + lia.
  - apply (existsb_nl_new_lines (p + u8len c)) in E. rewrite E.
    destruct (N.eqb c nl) eqn:F; [|congruence]. intros _. cbn [List.last].
    apply N.eqb_eq in F; subst c. change (u8len nl) with 1. lia.
Qed.
Lemma last_line_none a : existsb (N.eqb nl) a = false -> last_line a = a.
Proof.
  destruct a as [|c a]; cbn [last_line existsb]; [auto|].
  rewrite orb_false_iff, N.eqb_sym. intros [-> ->]. auto.
Qed.

(** The only newline before the position is the very first byte of the file. *)
Definition only_newline_at_0 (a : text) : Prop := exists r, a = nl :: r /\ ~ In nl r.

Lemma find_row_col_ok a b :
  (forall r, b <> nl :: r) -> ~ only_newline_at_0 a ->
  find_row_col (blen a) (find_new_lines_from_content (a ++ b)) = Some (true_row a, true_col a).
Proof.
  intros Hb Ha. unfold find_row_col, find_new_lines_from_content, true_row, true_col.
  rewrite new_lines_app. cbn [Nat.add]. rewrite filter_app.
  rewrite filter_all.
  2: { intros x Hx. apply new_lines_bounds in Hx. apply Nat.leb_le. lia. }
  rewrite filter_none.
  2: { intros x Hx. apply Nat.leb_gt.
       destruct b as [|c b]; [contradiction|]. cbn in Hx.
       destruct (N.eqb c nl) eqn:E. { apply N.eqb_eq in E; subst. exfalso. eapply Hb; eauto. }
       apply new_lines_bounds in Hx. pose proof (u8len_pos c). lia. }
  rewrite app_nil_r, new_lines_count.
  destruct (existsb (N.eqb nl) a) eqn:E.
  - assert (Hn : new_lines_from 0 a <> []).
    { intros H. apply existsb_nl_new_lines in H. congruence. }
    pose proof (last_new_line 0 a Hn) as HL.
    destruct (List.last (new_lines_from 0 a) 0 =? 0) eqn:Z.
    + exfalso. apply Nat.eqb_eq in Z. apply Ha. destruct a as [|c a]; [discriminate|].
      exists a. cbn [new_lines_from] in Hn, Z. destruct (N.eqb c nl) eqn:F.
      * apply N.eqb_eq in F; subst c. split; [auto|]. intros Hi.
        assert (K : existsb (N.eqb nl) a = true) by (apply existsb_exists; exists nl; split; [auto|apply N.eqb_refl]).
        destruct (new_lines_from (0 + u8len nl) a) as [|y ys] eqn:G.
        { apply existsb_nl_new_lines in G. congruence. }
        assert (In (List.last (0 :: y :: ys) 0) (y :: ys)).
        { clear. cbn [List.last]. revert y. induction ys as [|z ys IH]; intros y; [left; auto|].
          right. apply IH. }
        rewrite Z in H. rewrite <- G in H. apply new_lines_bounds in H. change (u8len nl) with 1 in H. lia.
      * assert (In (List.last (new_lines_from (0 + u8len c) a) 0) (new_lines_from (0 + u8len c) a)).
        { clear -Hn. destruct (new_lines_from (0 + u8len c) a) as [|y ys]; [congruence|]. clear.
          revert y. induction ys as [|z ys IH]; intros y; [left; auto|]. right. apply IH. }
        rewrite Z in H. apply new_lines_bounds in H. pose proof (u8len_pos c). lia.
    + destruct (_ <=? blen a) eqn:L; [|apply Nat.leb_gt in L; lia].
      f_equal. f_equal; lia.
  - rewrite (last_line_none a E). apply (existsb_nl_new_lines 0) in E. rewrite E. cbn.
    rewrite <- (new_lines_count 0 a), E. reflexivity.
Qed.

(** In an R file, newlines are taken from the text of the expression list only; exact for
    positions inside it. *)
Lemma find_row_col_body body tail a b :
  body = a ++ b -> (forall r, b <> nl :: r) -> ~ only_newline_at_0 a ->
  bsplit (blen a) (body ++ tail) = Some (a, b ++ tail) /\
  find_row_col (blen a) (find_new_lines body) = Some (true_row a, true_col a).
Proof.
  intros -> Hb Ha. split.
  - rewrite <- app_assoc. apply bsplit_app.
  - now apply find_row_col_ok.
Qed.

(** Refutations. *)
Lemma first_line_empty_refuted :
  exists a b, (forall r, b <> nl :: r) /\
    find_row_col (blen a) (find_new_lines_from_content (a ++ b)) <> Some (true_row a, true_col a).
Proof.
  exists [nl], (lit "any(is.na(x))"). split; [discriminate|]. vm_compute. congruence.
Qed.
Lemma trailing_comment_refuted :
  exists body tail a b, body ++ tail = a ++ b /\ (forall r, b <> nl :: r) /\ ~ only_newline_at_0 a /\
    find_row_col (blen a) (find_new_lines body) <> Some (true_row a, true_col a).
Proof.
  exists (lit "x <- 1"), ([nl; nl] ++ lit "# jarl-ignore"), (lit "x <- 1" ++ [nl; nl]), (lit "# jarl-ignore").
  split; [reflexivity|]. split; [discriminate|]. split.
  - intros (r & H & _). vm_compute in H. discriminate.
  - vm_compute. congruence.
Qed.
