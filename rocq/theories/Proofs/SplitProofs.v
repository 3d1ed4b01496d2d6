From Verif Require Import Model.Text Model.Base Model.Rules Model.Description Proofs.TextProofs.
From Coq Require Decimal DecimalString DecimalN DecimalFacts.

Lemma split_on_nonempty x t : split_on x t <> [].
Proof. destruct t as [|c r]; cbn; [discriminate|]. destruct (N.eqb c x); [discriminate|]. destruct (split_on x r); discriminate. Qed.
Lemma split_on_single x t : ~ In x t -> split_on x t = [t].
Proof.
  induction t as [|c r IH]; cbn; auto. intros H. destruct (N.eqb_spec c x) as [->|_]; [exfalso; auto|].
  rewrite IH; auto.
Qed.
Lemma split_on_app x a b : ~ In x a -> split_on x (a ++ x :: b) = a :: split_on x b.
Proof.
  induction a as [|c r IH]; cbn; intros H.
  - now rewrite N.eqb_refl.
  - destruct (N.eqb_spec c x) as [->|_]; [exfalso; auto|]. rewrite IH; auto.
Qed.
(** Joining the pieces with the separator gives back the text, and no piece contains it. *)
Fixpoint join_with (x : char) (l : list text) : text :=
  match l with [] => [] | [p] => p | p :: r => p ++ x :: join_with x r end.
Lemma split_on_join x t : join_with x (split_on x t) = t.
Proof.
  induction t as [|c r IH]; cbn; auto. destruct (N.eqb_spec c x) as [->|_].
  - cbn. destruct (split_on x r) eqn:E; [now apply split_on_nonempty in E|]. now rewrite IH.
  - destruct (split_on x r) as [|p ps] eqn:E; [now apply split_on_nonempty in E|].
    destruct ps; cbn in *; congruence.
Qed.
Lemma split_on_pieces x t p : In p (split_on x t) -> ~ In x p.
Proof.
  revert p. induction t as [|c r IH]; cbn; intros p H.
  - destruct H as [<-|[]]; auto.
  - destruct (N.eqb_spec c x) as [->|n].
    + destruct H as [<-|H]; auto.
    + destruct (split_on x r) as [|q qs]; [destruct H as [<-|[]]; cbn; intuition congruence|].
      destruct H as [<-|H].
      * cbn. intros [e|e]; [congruence|]. apply (IH q); cbn; auto.
      * apply (IH p); cbn; auto.
Qed.

Lemma split_incl_concat t : concat (split_incl t) = t.
Proof.
  induction t as [|c r IH]; cbn; auto. destruct (N.eqb c nl); cbn; [now rewrite IH|].
  destruct (split_incl r); cbn in *; congruence.
Qed.
Lemma split_incl_nonempty t p : In p (split_incl t) -> p <> [].
Proof.
  revert p. induction t as [|c r IH]; cbn; intros p H; [destruct H|].
  destruct (N.eqb c nl).
  - destruct H as [<-|H]; [discriminate|auto].
  - destruct (split_incl r) as [|q qs]; [destruct H as [<-|[]]; discriminate|].
    destruct H as [<-|H]; [discriminate|]. apply IH. cbn. auto.
Qed.

(** Decimal notation of a number (standard library). *)
Definition show_nat (n : nat) : text := lit (DecimalString.NilEmpty.string_of_uint (N.to_uint (N.of_nat n))).

Lemma digits_val_acc d p :
  digits_val (Npos p) (lit (DecimalString.NilEmpty.string_of_uint d)) = Some (Npos (Pos.of_uint_acc d p)).
Proof.
  revert p. induction d; intros p; cbn [DecimalString.NilEmpty.string_of_uint lit digits_val]; [reflexivity|..];
  match goal with |- context [digit ?c] => let v := eval vm_compute in (digit c) in change (digit c) with v end;
  cbn iota beta;
  match goal with |- digits_val ?a _ = Some (N.pos (Pos.of_uint_acc ?u _)) =>
    let q := constr:(Pos.of_uint_acc u p) in
    match q with _ => cbn [Pos.of_uint_acc]; rewrite <- IHd; f_equal; lia end end.
Qed.
Lemma digits_val_show d : digits_val 0 (lit (DecimalString.NilEmpty.string_of_uint d)) = Some (N.of_uint d).
Proof.
  unfold N.of_uint. induction d; cbn [DecimalString.NilEmpty.string_of_uint lit digits_val Pos.of_uint]; [reflexivity|..];
  match goal with |- context [digit ?c] => let v := eval vm_compute in (digit c) in change (digit c) with v end;
  cbn iota beta.
  - replace (10 * 0 + 0)%N with 0%N by lia. exact IHd.
  - apply (digits_val_acc d 1).
  - apply (digits_val_acc d 2).
  - apply (digits_val_acc d 3).
  - apply (digits_val_acc d 4).
  - apply (digits_val_acc d 5).
  - apply (digits_val_acc d 6).
  - apply (digits_val_acc d 7).
  - apply (digits_val_acc d 8).
  - apply (digits_val_acc d 9).
Qed.
Lemma show_chars d c : In c (lit (DecimalString.NilEmpty.string_of_uint d)) -> (48 <= c <= 57)%N.
Proof.
  induction d; cbn [DecimalString.NilEmpty.string_of_uint lit]; [intros []|..];
  (intros [<-|H]; [vm_compute; split; discriminate|auto]).
Qed.
Lemma show_nonempty n : show_nat n <> [].
Proof.
  unfold show_nat. assert (H : N.to_uint (N.of_nat n) <> Decimal.Nil).
  { intros H. pose proof (DecimalN.Unsigned.of_to (N.of_nat n)) as E. rewrite H in E.
    destruct (N.of_nat n) as [|p] eqn:En; [discriminate H|]. discriminate E. }
  destruct (N.to_uint (N.of_nat n)); [congruence|discriminate..].
Qed.
Lemma parse_show n : (N.of_nat n < 4294967296)%N -> parse_u32 (show_nat n) = Some n.
Proof.
  intros H. unfold parse_u32. pose proof (show_nonempty n) as NE.
  assert (E : match show_nat n with c :: r => if N.eqb c 43 then r else show_nat n | [] => [] end = show_nat n).
  { destruct (show_nat n) as [|c r] eqn:E; auto.
    destruct (N.eqb_spec c 43) as [->|]; auto.
    assert (X : (48 <= 43 <= 57)%N). { apply (show_chars (N.to_uint (N.of_nat n))). fold (show_nat n). rewrite E. cbn. auto. }
    lia. }
  rewrite E. destruct (show_nat n) as [|c r] eqn:E2; [congruence|]. rewrite <- E2. unfold show_nat.
  rewrite digits_val_show, DecimalN.Unsigned.of_to.
  destruct (N.ltb_spec (N.of_nat n) 4294967296); [|lia]. now rewrite Nat2N.id.
Qed.
Lemma show_no_dot n : ~ In 46%N (show_nat n).
Proof. intros H. apply show_chars in H. lia. Qed.

Lemma parse_version_show3 a b c :
  (N.of_nat a < 4294967296)%N -> (N.of_nat b < 4294967296)%N -> (N.of_nat c < 4294967296)%N ->
  parse_r_version (show_nat a ++ lit "." ++ show_nat b ++ lit "." ++ show_nat c) = ROk (a, b, c).
Proof.
  intros. unfold parse_r_version. change (lit ".") with [46%N]. cbn [app].
  rewrite !split_on_app, split_on_single by apply show_no_dot. rewrite !parse_show by assumption. reflexivity.
Qed.
Lemma parse_version_show2 a b :
  (N.of_nat a < 4294967296)%N -> (N.of_nat b < 4294967296)%N ->
  parse_r_version (show_nat a ++ lit "." ++ show_nat b) = ROk (a, b, 0).
Proof.
  intros. unfold parse_r_version. change (lit ".") with [46%N]. cbn [app].
  rewrite !split_on_app, split_on_single by apply show_no_dot. rewrite !parse_show by assumption. reflexivity.
Qed.
