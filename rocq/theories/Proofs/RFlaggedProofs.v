(** Each rule reports exactly the code of Spec/RFlagged.v. *)
From Verif Require Import Spec.RFlagged Proofs.TextProofs Proofs.RulesProofs Proofs.RContext Proofs.RSearchProofs
  Proofs.LintConstant Proofs.RStopsProofs.

Definition some {A} (o : option A) : Prop := exists r, o = Some r.
Lemma some_yes : forall {A} (x : A), some (Some x).
Proof. intros. eexists. reflexivity. Qed.
Lemma some_no : forall {A}, ~ some (@None A).
Proof. intros A [x H]. discriminate. Qed.
Lemma some_yes_iff : forall {A} (x : A) (P : Prop), P -> (some (Some x) <-> P).
Proof. intros A x P H. split; [intros _; exact H|intros _; apply some_yes]. Qed.
Lemma some_no_iff : forall {A} (P : Prop), ~ P -> (some (@None A) <-> P).
Proof. intros A P H. split; [intro F; destruct (some_no F)|intro F; destruct (H F)]. Qed.
Lemma some_if : forall {A} (b : bool) (x : A) (P : Prop), (b = true <-> P) -> (some (if b then Some x else None) <-> P).
Proof.
  intros A b x P H. destruct b.
  - apply some_yes_iff, H. reflexivity.
  - apply some_no_iff. intro F. apply H in F. discriminate.
Qed.
(** A call, for the specification. *)
Lemma calls_iff : forall n f args a, calls n (ECall f args) a <-> a = args /\ function_name f n.
Proof.
  intros n f args a. split.
  - intros (g & E & H). injection E as -> ->. auto.
  - intros [-> H]. exists f. auto.
Qed.
Lemma calls_one_iff : forall l f args a, ~ In [] l ->
  (calls_one_of l (ECall f args) a <-> a = args /\ mem (get_function_name f) l = true).
Proof.
  intros l f args a Hl. rewrite (named_in f l Hl). split.
  - intros (n & Hn & H). apply calls_iff in H. destruct H. eauto.
  - intros [-> (n & Hn & H)]. exists n. split; [exact Hn|]. apply calls_iff. auto.
Qed.
Lemma is_call_iff : forall n f args, n <> [] -> (is_call_of n (ECall f args) <-> teqb (get_function_name f) n = true).
Proof.
  intros n f args Hn. rewrite (named_is f n Hn). split.
  - intros [a H]. apply calls_iff in H. apply H.
  - intro H. exists args. apply calls_iff. auto.
Qed.
Lemma is_call_inv : forall n e, is_call_of n e -> exists f args, e = ECall f args.
Proof. intros n e (args & f & -> & _). eauto. Qed.
Lemma call_named_iff : forall n e, n <> [] -> (is_call_named n e = true <-> is_call_of n e).
Proof.
  intros n e Hn. destruct e as [ | | | |f args| | | | | | | | ];
    try (split; [discriminate|intro H; destruct (is_call_inv _ _ H) as (? & ? & E); discriminate E]).
  cbn [is_call_named]. symmetry. apply is_call_iff, Hn.
Qed.
Lemma calls_name : forall n f, n <> [] -> function_name f n -> teqb (get_function_name f) n = true.
Proof. intros n f Hn H. apply named_is; auto. Qed.
Ltac nl := let H := fresh in intros [H|H]; [discriminate H|]; repeat (destruct H as [H|H]; [discriminate H|]); destruct H.
(** [e] is not a call: both sides are false. *)
Ltac not_call :=
  apply some_no_iff; unfold equal_expectation, is_call_of, calls_one_of, calls; intro;
  repeat match goal with
  | H : exists _, _ |- _ => destruct H
  | H : _ /\ _ |- _ => destruct H
  end; congruence.
Lemma named_among_iff : forall names f, mem (get_function_name f) names = true <-> named_among names f.
Proof.
  intros names f. rewrite mem_iff. split.
  - intro H. destruct (get_function_name f) as [|c n] eqn:E.
    + destruct f as [a| | | | | |x op b| | | | | | ]; try (right; split; [exact H|intros n F; inversion F; fail]).
      * destruct a; try (right; split; [exact H|intros n F; inversion F; fail]).
        -- left. exists []. split; [exact H|]. cbn in E. subst. constructor.
        -- left. exists []. split; [exact H|]. cbn in E. subst. constructor.
        -- right. split; [exact H|]. intros n F. inversion F; subst. discriminate E.
      * destruct x as [a| | | | | | | | | | | | ]; try (right; split; [exact H|intros n F; inversion F; fail]).
        destruct a; try (right; split; [exact H|intros n F; inversion F; fail]).
        left. exists []. split; [exact H|]. cbn [get_function_name] in E. rewrite <- E. constructor.
    + left. exists (c :: n). split; [exact H|]. apply function_name_iff; [discriminate|exact E].
  - intros [(n & Hn & H)|[H N]].
    + destruct H; exact Hn.
    + replace (get_function_name f) with (@nil char); [exact H|].
      destruct (get_function_name f) as [|c n] eqn:E; [reflexivity|]. exfalso. apply (N (c :: n)).
      apply function_name_iff; [discriminate|exact E].
Qed.

(** ** Simple shapes *)
Ltac off := apply some_no_iff; intro Hoff; repeat match goal with
  | H : exists _, _ |- _ => destruct H
  | H : _ /\ _ |- _ => destruct H
  end; try congruence.
Lemma comparison_negation_flags : forall fs e, some (comparison_negation fs e) <-> flags_comparison_negation fs e.
Proof.
  intros fs e. unfold flags_comparison_negation. destruct e as [ | |u x| | | | | | | | | | ]; try (off; fail).
  destruct u; try (off; fail). destruct x as [ |y| | | | | | | | | | | ]; try (off; fail).
  destruct y as [ | | |o nl l r| | | | | | | | | ]; try (off; fail). destruct o; try (off; fail).
  apply some_yes_iff. eauto 6.
Qed.
Lemma repeat_flags : forall fs e, some (repeat_loop fs e) <-> flags_repeat fs e.
Proof.
  intros fs e. unfold flags_repeat. destruct e as [ | | | | | | | | | |c b| | ]; try (off; fail).
  destruct c as [a| | | | | | | | | | | | ]; try (off; fail). destruct a; try (off; fail). apply some_yes_iff. eauto.
Qed.
Lemma unnecessary_nesting_flags : forall fs e, some (unnecessary_nesting fs e) <-> flags_unnecessary_nesting fs e.
Proof.
  intros fs e. unfold flags_unnecessary_nesting. destruct e as [ | | | | | | |a x el| | | | | ]; try (off; fail).
  destruct x as [ | | | | | | | | | | | |es]; try (off; fail).
  destruct es as [|y es]; try (off; fail). destruct y as [ | | | | | | |b t el2| | | | | ]; try (off; fail).
  destruct el2; try (off; fail). destruct es; try (off; fail). destruct el; try (off; fail). apply some_yes_iff. eauto.
Qed.
Lemma internal_function_flags : forall fs e, some (internal_function fs e) <-> flags_internal_function fs e.
Proof.
  intros fs e. unfold flags_internal_function. destruct e as [a| | | | | | | | | | | | ]; try (off; fail).
  destruct a; try (off; fail). destruct internal; try (off; fail). apply some_yes_iff. eauto.
Qed.
Lemma true_false_variable_flags : forall fs e, some (true_false_symbol_for fs e) <-> flags_true_false_variable fs e.
Proof.
  intros fs e. unfold flags_true_false_variable. destruct e; try (off; fail).
  cbn [true_false_symbol_for]. apply some_if. rewrite Bool.orb_true_iff, !teqb_eq. split.
  - intro H. eauto 6.
  - intros (w & q & c & E & H). injection E as -> _ _. exact H.
Qed.
Lemma true_false_flags : forall fs e, some (true_false_symbol fs e) <-> flags_true_false_symbol fs e.
Proof.
  intros fs e. unfold flags_true_false_symbol. destruct e as [a| | | | | | | | | | | | ]; try (off; destruct H; congruence).
  destruct a; try (off; destruct H; congruence).
  cbn [true_false_symbol]. destruct (teqb x (lit "T") || teqb x (lit "F")) eqn:E.
  - apply Bool.orb_true_iff in E. rewrite !teqb_eq in E.
    assert (K : EAtom (AId x) = EAtom (AId (lit "T")) \/ EAtom (AId x) = EAtom (AId (lit "F"))) by (destruct E; subst; auto).
    destruct fs as [|f fs]; [apply some_yes_iff; auto|].
    destruct f; try (apply some_yes_iff; auto; fail); try (apply some_no_iff; intros [_ []]; fail).
    + destruct o; try (apply some_yes_iff; auto; fail); try (apply some_no_iff; intros [_ []]; fail).
    + destruct o; try (apply some_yes_iff; auto; fail); try (apply some_no_iff; intros [_ []]; fail).
  - apply some_no_iff. intros [K _]. apply Bool.orb_false_iff in E. rewrite !teqb_neq in E.
    destruct E as [E1 E2]. destruct K as [K|K]; injection K as K; auto.
Qed.
Lemma numeric_leading_zero_flags : forall fs e, some (numeric_leading_zero fs e) <-> flags_numeric_leading_zero fs e.
Proof.
  intros fs e. unfold flags_numeric_leading_zero. destruct e as [a| | | | | | | | | | | | ]; try (off; fail).
  destruct a; try (off; fail). cbn [numeric_leading_zero]. apply some_if.
  rewrite Bool.andb_true_iff, Bool.negb_true_iff. split.
  - intros [Hi Hs]. apply starts_point in Hs. destruct Hs as [u ->]. exists u. split; [reflexivity|].
    intros v ->. assert (is_integer_lit (lit "." ++ v ++ lit "L") = true) by (apply integer_iff; exists (lit "." ++ v); apply app_assoc).
    congruence.
  - intros (u & E & H). injection E as ->. split.
    + change (46%N :: u) with (lit "." ++ u). destruct (is_integer_lit (lit "." ++ u)) eqn:E; [|reflexivity].
      apply integer_iff in E. destruct E as [a Ha].
      exfalso. destruct a as [|c a]; [discriminate Ha|]. cbn in Ha. injection Ha as _ Ha. exact (H a Ha).
    + apply starts_with_iff. exists u. reflexivity.
Qed.
Lemma assignment_flags : forall arrow fs e, some (assignment arrow fs e) <-> flags_assignment arrow fs e.
Proof.
  intros arrow fs e. unfold flags_assignment.
  assert (K : forall b, ~ match b with true => False | false => False end) by (intros []; auto).
  destruct e as [ | | |o nl l r| | | | | | | | | ]; try (off; fail).
  assert (Z : forall P : Prop, ((exists o' nl' l' r', EBin o nl l r = EBin o' nl' l' r' /\
     (o' = BRAssign (lit "->") \/ if arrow then o' = BEq else o' = BAssign (lit "<-"))) <->
     (o = BRAssign (lit "->") \/ if arrow then o = BEq else o = BAssign (lit "<-")))).
  { intros _. split; [intros (o' & nl' & l' & r' & E & H); injection E as -> _ _ _; exact H|intro H; eauto 8]. }
  rewrite (Z True). destruct o as [ |t|t| | | | | | | | | | | | | | ]; try (apply some_no_iff; intros [K'|K']; [discriminate K'|destruct arrow; discriminate K']).
  - destruct arrow; [apply some_yes_iff; auto|apply some_no_iff; intros [K'|K']; discriminate K'].
  - cbn [assignment]. apply some_if. rewrite Bool.andb_true_iff, teqb_eq. destruct arrow; split.
    + intros [_ H]. discriminate H.
    + intros [H|H]; discriminate H.
    + intros [-> _]. auto.
    + intros [H|H]; [discriminate H|]. injection H as ->. auto.
  - cbn [assignment]. apply some_if. rewrite teqb_eq. split.
    + intros ->. auto.
    + intros [H|H]; [congruence|]. destruct arrow; discriminate H.
Qed.
Lemma empty_assignment_flags : forall fs e, some (empty_assignment fs e) <-> flags_empty_assignment fs e.
Proof.
  assert (B : forall x, is_empty_block x = true <-> x = EBraces []).
  { intro x. destruct x; try (split; discriminate). destruct es; split; try discriminate; reflexivity. }
  intros fs e. unfold flags_empty_assignment.
  destruct e as [ | | |o nl l r| | | | | | | | | ]; try (apply some_no_iff; intros (? & ? & ? & [[_ E]|[_ E]]); discriminate E).
  destruct o as [ |t|t| | | | | | | | | | | | | | ];
    try (apply some_no_iff; intros (? & ? & ? & [[[K|K] E]|[K E]]); subst; discriminate E).
  - cbn [empty_assignment]. apply some_if. rewrite B. split.
    + intros ->. exists BEq, nl, l. auto.
    + intros (o & nl' & x & [[_ E]|[-> E]]); [|discriminate E]. injection E as _ _ _ ->. reflexivity.
  - cbn [empty_assignment]. apply some_if. rewrite Bool.andb_true_iff, teqb_eq, B. split.
    + intros [-> ->]. exists (BAssign (lit "<-")), nl, l. auto.
    + intros (o & nl' & x & [[[ -> | -> ] E]|[-> E]]); try discriminate E. injection E as -> _ _ ->. auto.
  - cbn [empty_assignment]. apply some_if. rewrite Bool.andb_true_iff, teqb_eq, B. split.
    + intros [-> ->]. exists (BRAssign (lit "->")), nl, r. auto.
    + intros (o & nl' & x & [[[ -> | -> ] E]|[-> E]]); try discriminate E. injection E as -> _ -> _. auto.
Qed.
