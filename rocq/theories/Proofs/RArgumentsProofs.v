(** The argument a rule looks at, and the argument R passes. *)
From Verif Require Import Spec.RArguments Proofs.TextProofs Proofs.RStopsProofs.

Definition named_b (args : list arg) (n : text) : bool := existsb (teqb n) (given_names_of args).
Lemma given_names_in : forall args m, In m (given_names_of args) <-> exists v, In (Some m, v) args.
Proof.
  intros args m. unfold given_names_of. rewrite in_flat_map. split.
  - intros [[n v] [I J]]. cbn in J. destruct n as [n|]; [|destruct J]. destruct J as [ <- |[]]. exists v. exact I.
  - intros [v I]. exists (Some m, v). split; [exact I|left; reflexivity].
Qed.
Lemma named_b_iff : forall args n, named_b args n = true <-> exists v, In (Some n, v) args.
Proof.
  intros args n. unfold named_b. rewrite <- given_names_in, existsb_exists. split.
  - intros [x [I E]]. apply teqb_eq in E. subst. exact I.
  - intro I. exists n. split; [exact I|apply teqb_refl].
Qed.
Lemma plain_passed : forall formals args n a, plain_names formals args -> In n formals ->
  (passed_by_name formals args n a <-> In a args /\ fst a = Some n).
Proof.
  intros formals args n a [_ P] I. unfold passed_by_name. split.
  - intros [J [E|[_ [m [u [E [K ->]]]]]]]; [auto|]. exfalso.
    destruct a as [x v]. cbn in E. subst x.
    destruct (P m (proj2 (given_names_in args m) (ex_intro _ v J))) as [H|H]; [exact (K H)|exact (H u I)].
  - intros [J E]. auto.
Qed.
Lemma plain_free : forall formals args n, plain_names formals args -> In n formals ->
  ((forall a, ~ passed_by_name formals args n a) <-> named_b args n = false).
Proof.
  intros formals args n P I. rewrite <- Bool.not_true_iff_false, named_b_iff. split.
  - intros H [v J]. apply (H (Some n, v)). apply plain_passed; auto.
  - intros H [x v] K. apply plain_passed in K; auto. cbn in K. destruct K as [K ->]. apply H. exists v. exact K.
Qed.
Lemma left_over_iff : forall formals args l k, plain_names formals args -> incl l formals ->
  (left_over formals args l k <-> k = length (filter (fun n => negb (named_b args n)) l)).
Proof.
  intros formals args l k P. revert k. induction l as [|n l IH]; intros k I.
  - split; [intro H; inversion H; reflexivity|intros ->; constructor].
  - assert (In n formals) as J by (apply I; left; reflexivity).
    assert (incl l formals) as K by (intros x Hx; apply I; right; exact Hx).
    cbn [filter]. split.
    + intro H. inversion H as [|n' l' k' a A B|n' l' k' A B]; subst.
      * apply plain_passed in A; auto. destruct a as [x v]. cbn in A. destruct A as [A ->].
        rewrite (proj2 (named_b_iff args n) (ex_intro _ v A)). cbn. apply IH; auto.
      * apply plain_free in A; auto. rewrite A. cbn. f_equal. apply IH; auto.
    + intros ->. destruct (named_b args n) eqn:E; cbn.
      * apply named_b_iff in E. destruct E as [v E]. apply left_taken with (a := (Some n, v)); [apply plain_passed; auto|].
        apply IH; auto.
      * apply left_free; [apply plain_free; auto|apply IH; auto].
Qed.

Lemma filter_all : forall {A} (k : A -> bool) l, (forall x, In x l -> k x = true) -> filter k l = l.
Proof.
  intros A k l. induction l as [|x l IH]; intro H; [reflexivity|]. cbn. rewrite (H x (or_introl eq_refl)). f_equal. apply IH.
  intros y J. apply H. right. exact J.
Qed.
Lemma NoDup_app_iff_local : forall {A} (a b : list A), NoDup (a ++ b) <-> NoDup a /\ NoDup b /\ forall x, In x a -> ~ In x b.
Proof.
  intros A a b. induction a as [|x a IH]; cbn.
  - split; [intro H; repeat split; [constructor|exact H|intros y []]|tauto].
  - split.
    + intro H. inversion H as [|y l I J]; subst. apply IH in J. destruct J as [J1 [J2 J3]]. repeat split.
      * constructor; [|exact J1]. intro K. apply I, in_or_app. left. exact K.
      * exact J2.
      * intros y [ <- |K] B; [apply I, in_or_app; right; exact B|exact (J3 y K B)].
    + intros [H1 [H2 H3]]. inversion H1 as [|y l I J]; subst. constructor.
      * intro K. apply in_app_or in K. destruct K as [K|K]; [exact (I K)|exact (H3 x (or_introl eq_refl) K)].
      * apply IH. repeat split; [exact J|exact H2|]. intros y K. apply H3. right. exact K.
Qed.

(** One of the name [n], if names are given once. *)
Lemma once : forall args n v w, NoDup (given_names_of args) -> In (Some n, v) args -> In (Some n, w) args -> v = w.
Proof.
  intros args n v w. induction args as [|[m x] args IH]; [intros _ []|].
  cbn. intros N [H|H] [K|K].
  - congruence.
  - injection H as -> ->. cbn in N. inversion N as [|y l A B]. exfalso. apply A. apply given_names_in. exists w. exact K.
  - injection K as -> ->. cbn in N. inversion N as [|y l A B]. exfalso. apply A. apply given_names_in. exists v. exact H.
  - apply IH; auto. destruct m; [cbn in N; inversion N; assumption|exact N].
Qed.
Lemma first_named : forall args n v, In (Some n, v) args -> exists pre w post, args = pre ++ (Some n, w) :: post /\ not_named n pre.
Proof.
  intros args n v. induction args as [|a args IH]; [intros []|]. intros [H|H].
  - subst a. exists [], v, args. split; [reflexivity|intros w []].
  - destruct (has_name n a) eqn:E.
    + apply has_name_iff in E. destruct a as [m w]. cbn in E. subst m. exists [], w, args. split; [reflexivity|intros x []].
    + destruct (IH H) as [pre [w [post [-> N]]]]. exists (a :: pre), w, post. split; [reflexivity|].
      intros x [K|K]; [subst a; rewrite (proj2 (has_name_iff n (Some n, x)) eq_refl) in E; discriminate|exact (N x K)].
Qed.

(** The formals before [n] are the first [i]. *)
Lemma split_nth : forall {A} (l : list A) i n, nth_error l i = Some n ->
  exists before after, l = before ++ n :: after /\ length before = i.
Proof. intros A l i n H. destruct (nth_error_split l i H) as [b [a [E L]]]. eauto. Qed.
Lemma NoDup_split_eq : forall {A} (a b c d : list A) x, NoDup (a ++ x :: b) -> a ++ x :: b = c ++ x :: d -> a = c.
Proof.
  intros A a. induction a as [|y a IH]; intros b c d x N E.
  - destruct c as [|z c]; [reflexivity|]. cbn in E. injection E as <- E. exfalso.
    cbn in N. inversion N as [|? ? H _]. apply H. rewrite E. apply in_or_app. right. left. reflexivity.
  - destruct c as [|z c].
    + cbn in E. injection E as <- E. exfalso. cbn in N. inversion N as [|? ? H _]. apply H. apply in_or_app. right. left. reflexivity.
    + cbn in E. injection E as <- E. f_equal. apply (IH b c d x); [cbn in N; inversion N; assumption|exact E].
Qed.

(** *** The choice and R's agree if no formal before is given by name. *)
Theorem chosen_is_r_arg : forall formals args i n a, NoDup formals -> plain_names formals args ->
  nth_error formals i = Some n ->
  (forall j m, j < i -> nth_error formals j = Some m -> not_named m args) ->
  (chosen args n (S i) a <-> r_arg formals args n a).
Proof.
  intros formals args i n a D P E H.
  assert (In n formals) as I by (eapply nth_error_In; exact E).
  destruct (split_nth _ _ _ E) as [before [after [F L]]].
  assert (filter (fun m => negb (named_b args m)) before = before) as Fr.
  { apply filter_all. intros m J. destruct (named_b args m) eqn:B; [|reflexivity].
    apply named_b_iff in B. destruct B as [v B]. destruct (In_nth_error _ _ J) as [j Hj].
    assert (j < i) as Lj by (rewrite <- L; apply nth_error_Some; congruence).
    exfalso. refine (H j m Lj _ v B). rewrite F, nth_error_app1 by lia. exact Hj. }
  split.
  - intros [pre v post EA N|b N EB].
    + apply r_named; [exact I|]. split; [rewrite EA; apply in_or_app; right; left; reflexivity|left; reflexivity].
    + apply r_unnamed with (before := before) (after := after) (k := i); auto.
      * apply plain_free; auto. apply Bool.not_true_iff_false. rewrite named_b_iff. intros [v J]. exact (N v J).
      * apply left_over_iff; auto; [rewrite F; apply incl_appl, incl_refl|]. rewrite Fr. auto.
      * rewrite Nat.sub_succ, Nat.sub_0_r in EB. exact EB.
  - intros [b _ Pn|b' a' k b F' N K EB].
    + apply plain_passed in Pn; auto. destruct Pn as [J Eb]. destruct b as [x v]. cbn in Eb. subst x.
      destruct (first_named _ _ _ J) as [pre [w [post [EA Np]]]].
      assert (v = w) as -> by (apply (once args n); [apply P|exact J|rewrite EA; apply in_or_app; right; left; reflexivity]).
      exact (by_name args n (S i) pre w post EA Np).
    + apply by_position.
      * intros v J. apply (N (Some n, v)). apply plain_passed; auto.
      * assert (b' = before) as -> by (symmetry; apply (NoDup_split_eq before after b' a' n); congruence).
        apply left_over_iff in K; auto; [|rewrite F; apply incl_appl, incl_refl]. rewrite Fr in K. subst k.
        rewrite Nat.sub_succ, Nat.sub_0_r, <- L. exact EB.
Qed.

(** *** An argument chosen by position never goes to an earlier formal. *)
Lemma filter_none : forall {A} (k : A -> bool) l, (forall x, In x l -> k x = false) -> filter k l = [].
Proof.
  intros A k l. induction l as [|x l IH]; intro H; [reflexivity|]. cbn. rewrite (H x (or_introl eq_refl)). apply IH.
  intros y J. apply H. right. exact J.
Qed.

(** *** Calls with as many arguments as formals *)
Lemma names_and_others : forall args, length args = length (given_names_of args) + length (unnamed_args args).
Proof.
  unfold given_names_of, unnamed_args. induction args as [|[[m|] v] args IH]; [reflexivity| |];
    cbn [flat_map filter fst app length] in *; rewrite IH; lia.
Qed.
Lemma filter_split_length : forall {A} (k : A -> bool) l, length l = length (filter k l) + length (filter (fun x => negb (k x)) l).
Proof. induction l as [|x l IH]; [reflexivity|]. cbn. destruct (k x); cbn; lia. Qed.
Lemma filter_app_length : forall {A} (k : A -> bool) p l, length (filter k l) = length (filter k (firstn p l)) + length (filter k (skipn p l)).
Proof. intros A k p l. rewrite <- (firstn_skipn p l) at 1. rewrite filter_app, app_length. reflexivity. Qed.
(** If everything outside [k] comes early enough, it comes first. *)
Lemma early_first : forall {A} (k : A -> bool) l,
  (forall i x, nth_error l i = Some x -> k x = true -> i < length (filter k l)) ->
  forall i j x y, j < i -> nth_error l i = Some x -> k x = true -> nth_error l j = Some y -> k y = true.
Proof.
  intros A k l H i j x y L X K Y. destruct (k y) eqn:E; [reflexivity|exfalso].
  set (p := length (filter k l)) in *. assert (i < p) as Li by (apply (H i x); assumption).
  assert (p <= length l) as Lp by (unfold p; rewrite (filter_split_length k l); lia).
  assert (filter k (skipn p l) = []) as S.
  { apply filter_none. intros z Z. destruct (k z) eqn:Ez; [|reflexivity]. exfalso.
    destruct (In_nth_error _ _ Z) as [q Q].
    assert (nth_error l (p + q) = Some z) as Q'.
    { rewrite <- Q. rewrite <- (firstn_skipn p l) at 1. rewrite nth_error_app2 by (rewrite firstn_length; lia).
      rewrite firstn_length. f_equal. lia. }
    specialize (H _ _ Q' Ez). lia. }
  assert (length (filter k (firstn p l)) < p) as T.
  { assert (length (firstn p l) = p) as F by (rewrite firstn_length; lia).
    rewrite <- F at 2. rewrite (filter_split_length k (firstn p l)).
    assert (In y (filter (fun z => negb (k z)) (firstn p l))) as I.
    { apply filter_In. split; [|rewrite E; reflexivity]. apply (nth_error_In _ j).
      rewrite <- Y. rewrite <- (firstn_skipn p l) at 2. rewrite nth_error_app1 by lia. reflexivity. }
    destruct (filter (fun z => negb (k z)) (firstn p l)) as [|z w]; [destruct I|cbn; lia]. }
  pose proof (filter_app_length k p l) as R. rewrite S in R. cbn in R. fold p in R. lia.
Qed.

Theorem full_call : forall needed rest extra args, NoDup (needed ++ rest) -> NoDup (extra ++ needed) ->
  plain_names (needed ++ rest) args ->
  incl extra (given_names_of args) -> length args <= length extra + length needed ->
  (forall i n, nth_error needed i = Some n -> exists a, chosen args n (S i) a) ->
  forall i n a, nth_error needed i = Some n -> chosen args n (S i) a -> r_arg (needed ++ rest) args n a.
Proof.
  intros needed rest extra args Df D P X L H i n a E C.
  assert (nth_error (needed ++ rest) i = Some n) as E' by (rewrite nth_error_app1; [exact E|apply nth_error_Some; congruence]).
  destruct (named_b args n) eqn:B.
  - apply r_named; [eapply nth_error_In; exact E'|].
    apply named_b_iff in B. destruct B as [v B]. inversion C as [pre w post EA N|b N EB]; subst.
    + split; [apply in_or_app; right; left; reflexivity|left; reflexivity].
    + destruct (N v B).
  - apply (chosen_is_r_arg (needed ++ rest) args i n a); auto.
    intros j m Lj Em. assert (nth_error needed j = Some m) as Em'.
    { rewrite nth_error_app1 in Em; [exact Em|]. assert (i < length needed) by (apply nth_error_Some; congruence). lia. }
    assert (negb (named_b args m) = true) as K.
    { refine (early_first (fun m => negb (named_b args m)) needed _ i j n m Lj E _ Em'); [|rewrite B; reflexivity].
      intros q x Q K. destruct (H q x Q) as [b Cb]. inversion Cb as [pre w post EA N|b' N EB]; subst.
      - exfalso. apply Bool.negb_true_iff in K. rewrite (proj2 (named_b_iff _ x)) in K; [discriminate|].
        exists w. apply in_or_app. right. left. reflexivity.
      - rewrite Nat.sub_succ, Nat.sub_0_r in EB.
        assert (q < length (unnamed_args args)) as Lu by (apply nth_error_Some; congruence).
        pose proof (names_and_others args) as T.
        assert (length (extra ++ filter (named_b args) needed) <= length (given_names_of args)) as U.
        { apply NoDup_incl_length.
          - apply NoDup_app_iff_local in D. destruct D as [D1 [D2 D3]].
            apply NoDup_app_iff_local. split; [exact D1|]. split; [apply NoDup_filter; exact D2|].
            intros z Z W. apply filter_In in W. exact (D3 z Z (proj1 W)).
          - intros z Z. apply in_app_or in Z. destruct Z as [Z|Z]; [apply X; exact Z|].
            apply filter_In in Z. apply given_names_in. apply named_b_iff. apply Z. }
        rewrite app_length in U. pose proof (filter_split_length (named_b args) needed) as V. lia. }
    intros v J. apply Bool.negb_true_iff in K. rewrite (proj2 (named_b_iff args m)) in K; [discriminate|]. exists v. exact J.
Qed.
