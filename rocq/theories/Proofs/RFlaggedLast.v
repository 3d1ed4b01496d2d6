(** The remaining rules: exactly what they report. *)
From Verif Require Import Spec.RFlagged Proofs.TextProofs Proofs.RulesProofs Proofs.RStopsProofs Proofs.LintConstant Proofs.RFlaggedProofs
  Proofs.RFlaggedCompare Proofs.RFlaggedCalls Proofs.RFlaggedMore Proofs.RFlaggedTestthat Proofs.RSearchProofs.

(** ** ifelse() *)
Lemma ifelse_formals_iff : forall f abc, ifelse_formals (get_function_name f) = Some abc <->
  exists n, In (n, abc)
      [ (lit "ifelse", (lit "test", lit "yes", lit "no"));
        (lit "if_else", (lit "condition", lit "true", lit "false"));
        (lit "fifelse", (lit "test", lit "yes", lit "no")) ] /\ function_name f n.
Proof.
  intros f abc. unfold ifelse_formals. split.
  - intro H. exists (get_function_name f).
    destruct (teqb (get_function_name f) (lit "ifelse")) eqn:E1; [|destruct (teqb (get_function_name f) (lit "if_else")) eqn:E2;
      [|destruct (teqb (get_function_name f) (lit "fifelse")) eqn:E3; [|discriminate H]]].
    + apply teqb_eq in E1. split; [left; f_equal; [congruence|congruence]|]. rewrite E1. apply named_is; [nn|]. rewrite E1. reflexivity.
    + apply teqb_eq in E2. split; [right; left; f_equal; congruence|]. rewrite E2. apply named_is; [nn|]. rewrite E2. reflexivity.
    + apply teqb_eq in E3. split; [right; right; left; f_equal; congruence|]. rewrite E3. apply named_is; [nn|]. rewrite E3. reflexivity.
  - intros (n & H & Hf). apply function_name_iff in Hf.
    + rewrite Hf. destruct H as [H|[H|[H|[]]]]; assert (H1 := f_equal fst H); assert (H2 := f_equal snd H); cbn [fst snd] in H1, H2;
        rewrite <- H1, <- H2; reflexivity.
    + destruct H as [H|[H|[H|[]]]]; assert (H1 := f_equal fst H); cbn [fst] in H1; rewrite <- H1; nn.
Qed.
Lemma redundant_ifelse_flags : forall fs e, some (redundant_ifelse fs e) <-> flags_redundant_ifelse fs e.
Proof.
  intros fs e. unfold flags_redundant_ifelse. destruct e as [ | | | |f args| | | | | | | | ]; try (not_call).
  match goal with |- _ <-> ?G => assert (K : G <-> exists a b c, ifelse_formals (get_function_name f) = Some (a, b, c) /\
     length args = 3 /\ exists x y z, arg_value (get_arg_by_name_then_position args a 1) = Some x /\
       arg_value (get_arg_by_name_then_position args b 2) = Some y /\ arg_value (get_arg_by_name_then_position args c 3) = Some z /\
       is_boolean y = true /\ is_boolean z = true) end.
  { split.
    - intros (n & a & b & c & l & x & y & z & Hin & H & L & A & B & C & Y & Z). apply calls_iff in H. destruct H as [-> H].
      exists a, b, c. split; [apply ifelse_formals_iff; eauto|]. split; [exact L|]. exists x, (EAtom y), (EAtom z).
      apply given_iff in A, B, C. rewrite !is_boolean_iff. split; [exact A|]. split; [exact B|]. split; [exact C|]. split; eauto.
    - intros (a & b & c & H & L & x & y & z & A & B & C & Y & Z). apply ifelse_formals_iff in H. destruct H as (n & Hin & H).
      apply is_boolean_iff in Y, Z. destruct Y as (y' & Y & ->). destruct Z as (z' & Z & ->).
      exists n, a, b, c, args, x, y', z'. split; [exact Hin|]. split; [apply calls_iff; auto|]. split; [exact L|].
      split; [apply given_iff, A|]. split; [apply given_iff, B|]. split; [apply given_iff, C|]. auto. }
  rewrite K. clear K. cbn [redundant_ifelse].
  destruct (ifelse_formals (get_function_name f)) as [[[a b] c]|]; [|apply some_no_iff; intros (? & ? & ? & F & _); discriminate F].
  match goal with |- _ <-> ?G => assert (K : G <-> length args = 3 /\ exists x y z, arg_value (get_arg_by_name_then_position args a 1) = Some x /\
       arg_value (get_arg_by_name_then_position args b 2) = Some y /\ arg_value (get_arg_by_name_then_position args c 3) = Some z /\
       is_boolean y = true /\ is_boolean z = true) end.
  { split; [intros (a' & b' & c' & E & H); injection E as -> -> ->; exact H|intro H; exists a, b, c; auto]. }
  rewrite K. clear K. destruct (length args =? 3) eqn:L; cbn [negb].
  2:{ apply some_no_iff. intros [F _]. apply Nat.eqb_neq in L. auto. }
  apply Nat.eqb_eq in L.
  destruct (get_arg_by_name_then_position args a 1) as [[ma [x|]]|]; cbn [arg_value];
    try (apply some_no_iff; intros (_ & ? & ? & ? & H & _); discriminate H).
  destruct (get_arg_by_name_then_position args b 2) as [[mb [y|]]|]; cbn [arg_value];
    try (apply some_no_iff; intros (_ & ? & ? & ? & _ & H & _); discriminate H).
  destruct (get_arg_by_name_then_position args c 3) as [[mc [z|]]|]; cbn [arg_value];
    try (apply some_no_iff; intros (_ & ? & ? & ? & _ & _ & H & _); discriminate H).
  match goal with |- _ <-> ?G => assert (K : G <-> is_boolean y = true /\ is_boolean z = true) end.
  { split; [intros (_ & x' & y' & z' & E1 & E2 & E3 & H); injection E2 as ->; injection E3 as ->; exact H|].
    intro H. split; [exact L|]. exists x, y, z. auto. }
  rewrite K. clear K.
  destruct y as [ay| | | | | | | | | | | | ]; try (apply some_no_iff; intros [F _]; discriminate F).
  destruct ay; try (apply some_no_iff; intros [F _]; discriminate F);
    (destruct z as [az| | | | | | | | | | | | ]; try (apply some_no_iff; intros [_ F]; discriminate F);
     destruct az; try (apply some_no_iff; intros [_ F]; discriminate F); apply some_yes_iff; auto).
Qed.

(** ** if (is.null(x)) y else x *)
Lemma only_value_iff : forall args x, given_values args = [x] <-> only_value args x.
Proof.
  assert (N : forall args, given_values args = [] <-> forall m v, ~ In (m, Some v) args).
  { induction args as [|[n [v|]] args IH]; cbn.
    - split; [intros _ m v []|reflexivity].
    - split; [discriminate|]. intro H. destruct (H n v (or_introl eq_refl)).
    - fold (given_values args). rewrite IH. split; intros H m w; [intros [E|E]; [discriminate E|exact (H m w E)]|intro E; exact (H m w (or_intror E))]. }
  assert (A : forall a b, given_values (a ++ b) = given_values a ++ given_values b).
  { intros a b. apply flat_map_app. }
  intros args x. unfold only_value. split.
  - induction args as [|[n [v|]] args IH]; intro H; [discriminate H| |].
    + change (v :: given_values args = [x]) in H. injection H as -> H. exists [], n, args. split; [reflexivity|]. apply N, H.
    + change (given_values args = [x]) in H. destruct (IH H) as (pre & m & post & -> & K).
      exists ((n, None) :: pre), m, post. split; [reflexivity|]. intros k w [E|E]; [discriminate E|exact (K k w E)].
  - intros (pre & n & post & -> & K). rewrite A.
    assert (K1 : given_values pre = []) by (apply N; intros m w Hw; apply (K m w), in_or_app; auto).
    assert (K2 : given_values post = []) by (apply N; intros m w Hw; apply (K m w), in_or_app; auto).
    rewrite K1. change ((x :: given_values post) = [x]). rewrite K2. reflexivity.
Qed.
Lemma unwrapped_iff : forall e x, unwrapped e x <-> single_expression e = x.
Proof.
  intros e x. unfold unwrapped. split.
  - intros [ -> | [-> H] ]; [reflexivity|]. destruct x; try reflexivity. destruct es as [|y [|z es]]; try reflexivity.
    destruct (H y eq_refl).
  - intro H. destruct e; try (right; split; [exact H|intros y F; discriminate F]).
    destruct es as [|y [|z es]]; [right|left|right]; try (split; [exact H|intros w F; discriminate F]).
    cbn in H. congruence.
Qed.
Lemma same_as : forall x e, (exists y, unwrapped e y /\ same_code x y) <-> same_text (toks x) (toks (single_expression e)) = true.
Proof.
  intros x e. rewrite same_text_iff. unfold same_code. split.
  - intros (y & H & E). apply unwrapped_iff in H. congruence.
  - intro E. exists (single_expression e). split; [apply unwrapped_iff; reflexivity|exact E].
Qed.
Lemma coalesce_flags : forall fs e, some (coalesce fs e) <-> flags_coalesce fs e.
Proof.
  intros fs e. unfold flags_coalesce. destruct e as [ | | | | | | |c t el| | | | | ];
    try (apply some_no_iff; intros (? & ? & ? & ? & ? & F & _); discriminate F).
  destruct el as [el|]; [|apply some_no_iff; intros (? & ? & ? & ? & ? & F & _); discriminate F].
  match goal with |- _ <-> ?G => assert (K : G <-> exists args x, only_value args x /\
     (calls (lit "is.null") c args /\ same_text (toks x) (toks (single_expression el)) = true \/
      (exists d, c = EUn UNot d /\ calls (lit "is.null") d args /\ same_text (toks x) (toks (single_expression t)) = true))) end.
  { split.
    - intros (c' & t' & el' & args & x & E & O & H). injection E as <- <- <-. exists args, x. split; [exact O|].
      destruct H as [[H S]|(d & E & H & S)]; [left|right; exists d]; (split; [auto|]; try split; try exact H; apply same_as, S).
    - intros (args & x & O & H). exists c, t, el, args, x. split; [reflexivity|]. split; [exact O|].
      destruct H as [[H S]|(d & E & H & S)]; [left|right; exists d]; (split; [auto|]; try split; try exact H; apply same_as, S). }
  rewrite K. clear K. cbn [coalesce].
  destruct c as [ | |u d| |f args| | | | | | | | ];
    try (apply some_no_iff; intros (? & ? & _ & [[(? & F & _) _]|(? & F & _)]); discriminate F).
  - destruct u; try (apply some_no_iff; intros (? & ? & _ & [[(? & F & _) _]|(? & F & _)]); discriminate F).
    destruct d as [ | | | |f args| | | | | | | | ];
      try (apply some_no_iff; intros (? & ? & _ & [[(? & F & _) _]|(? & E & (? & F & _) & _)]); [discriminate F|subst; discriminate E]).
    destruct (teqb (get_function_name f) (lit "is.null")) eqn:Q.
    2:{ apply some_no_iff. intros (? & ? & _ & [[(? & F & _) _]|(? & E & F & _)]); [discriminate F|]. injection E as <-.
        apply calls_iff in F. destruct F as [_ F]. apply calls_name in F; [congruence|nn]. }
    apply named_is in Q; [|nn].
    destruct (given_values args) as [|x [|y l]] eqn:G.
    1,3: apply some_no_iff; intros (a & x' & O & [[(? & F & _) _]|(? & E & F & _)]); [discriminate F|]; injection E as <-;
        apply calls_iff in F; destruct F as [-> _]; apply only_value_iff in O; congruence.
    apply some_if. split.
    + intro S. exists args, x. split; [apply only_value_iff, G|]. right. exists (ECall f args). split; [reflexivity|].
      split; [apply calls_iff; auto|exact S].
    + intros (a & x' & O & [[(? & F & _) _]|(? & E & F & S)]); [discriminate F|]. injection E as <-.
      apply calls_iff in F. destruct F as [-> _]. apply only_value_iff in O. replace x with x' by congruence. exact S.
  - destruct (teqb (get_function_name f) (lit "is.null")) eqn:Q.
    2:{ apply some_no_iff. intros (? & ? & _ & [[F _]|(? & F & _)]); [|discriminate F].
        apply calls_iff in F. destruct F as [_ F]. apply calls_name in F; [congruence|nn]. }
    apply named_is in Q; [|nn].
    destruct (given_values args) as [|x [|y l]] eqn:G.
    1,3: apply some_no_iff; intros (a & x' & O & [[F _]|(? & F & _)]); [|discriminate F];
        apply calls_iff in F; destruct F as [-> _]; apply only_value_iff in O; congruence.
    apply some_if. split.
    + intro S. exists args, x. split; [apply only_value_iff, G|]. left.
      split; [apply calls_iff; auto|exact S].
    + intros (a & x' & O & [[F S]|(? & F & _)]); [|discriminate F].
      apply calls_iff in F. destruct F as [-> _]. apply only_value_iff in O. replace x with x' by congruence. exact S.
Qed.

(** ** Arguments given twice *)
Lemma spelling_written : forall ts, spelling ts = written ts.
Proof.
  intro ts. unfold spelling, written. apply f_equal. apply map_ext. intro k.
  destruct k as [a| |o| | |d|d| | | | |op n| | | | | | |]; try reflexivity; try (destruct d; reflexivity).
Qed.
Lemma callee_iff : forall f n, callee_text f = ROk n <-> called_as f n.
Proof.
  intros f n. split.
  - intro H. destruct f as [a| | | | | | | | | | | | ]; try discriminate H;
      try (cbn [callee_text] in H; rewrite ?spelling_written in H; injection H as <-; constructor; fail).
    destruct a; try discriminate H; try (injection H as <-; constructor; fail). cbn [callee_text] in H.
      destruct (teqb t (lit "return")) eqn:E; [|discriminate H]. apply teqb_eq in E. subst t. injection H as <-. constructor.
  - intro H. destruct H; cbn [callee_text]; rewrite ?spelling_written; reflexivity.
Qed.
Lemma bare_name_iff : forall a b, bare_name a = bare_name b <-> same_name a b.
Proof.
  intros a b. unfold same_name. cbv zeta.
  assert (F : forall x, filter (fun c => negb (is_quote c)) x = unquoted x).
  { intro x. unfold unquoted. apply filter_ext. intro c. unfold is_quote, ceqb. cbn [existsb]. rewrite Bool.orb_false_r, Bool.orb_assoc. reflexivity. }
  unfold bare_name. rewrite !F. reflexivity.
Qed.
Lemma given_names_in : forall args x, In x (given_names args) <-> exists n v, In (Some n, v) args /\ bare_name n = x.
Proof.
  intros args x. unfold given_names. rewrite in_flat_map. split.
  - intros ([[n|] v] & H & K); [|destruct K]. destruct K as [<-|[]]. eauto.
  - intros (n & v & H & <-). exists (Some n, v). split; [exact H|left; reflexivity].
Qed.
Lemma has_duplicate_iff : forall args, has_duplicate (given_names args) = true <->
  exists pre a v mid b w post, args = pre ++ (Some a, v) :: mid ++ (Some b, w) :: post /\ same_name a b.
Proof.
  induction args as [|[[n|] v] args IH].
  - split; [discriminate|]. intros (pre & ? & ? & ? & ? & ? & ? & E & _). destruct pre; discriminate E.
  - change (given_names ((Some n, v) :: args)) with (bare_name n :: given_names args). cbn [has_duplicate].
    rewrite Bool.orb_true_iff, mem_iff, IH, given_names_in. split.
    + intros [(m & w & Hin & E)|(pre & a & u & mid & b & w & post & -> & S)].
      * apply in_split in Hin. destruct Hin as (mid & post & ->).
        exists [], n, v, mid, m, w, post. split; [reflexivity|]. apply bare_name_iff. congruence.
      * exists ((Some n, v) :: pre), a, u, mid, b, w, post. split; [reflexivity|exact S].
    + intros (pre & a & u & mid & b & w & post & E & S). destruct pre as [|p pre].
      * injection E as <- <- ->. left. exists b, w. split; [apply in_or_app; right; left; reflexivity|]. apply bare_name_iff in S. congruence.
      * injection E as <- ->. right. exists pre, a, u, mid, b, w, post. auto.
  - change (given_names ((None, v) :: args)) with (given_names args). rewrite IH. split.
    + intros (pre & a & u & mid & b & w & post & -> & S). exists ((None, v) :: pre), a, u, mid, b, w, post. auto.
    + intros (pre & a & u & mid & b & w & post & E & S). destruct pre as [|p pre]; [discriminate E|].
      injection E as <- ->. exists pre, a, u, mid, b, w, post. auto.
Qed.
Lemma duplicated_arguments_flags : forall skipped fs e,
  ok_some (duplicated_arguments skipped fs e) <-> flags_duplicated_arguments skipped fs e.
Proof.
  intros skipped fs e. unfold flags_duplicated_arguments. destruct e as [ | | | |f args| | | | | | | | ]; try (ok_off; fail).
  match goal with |- _ <-> ?G => assert (K : G <-> exists n, callee_text f = ROk n /\ mem n skipped || starts_with (lit "cli_") n = false /\
    has_duplicate (given_names args) = true) end.
  { split.
    - intros (f' & a & n & E & H & S & C & D). injection E as <- <-. exists n. split; [apply callee_iff, H|].
      split; [|apply has_duplicate_iff, D]. apply Bool.orb_false_iff. split.
      + destruct (mem n skipped) eqn:M; [|reflexivity]. apply mem_iff in M. destruct (S M).
      + destruct (starts_with (lit "cli_") n) eqn:M; [|reflexivity]. apply starts_with_iff in M. destruct M as [r M]. destruct (C r M).
    - intros (n & H & S & D). apply Bool.orb_false_iff in S. destruct S as [S C]. exists f, args, n. split; [reflexivity|].
      split; [apply callee_iff, H|]. split; [|split; [|apply has_duplicate_iff, D]].
      + intro M. apply mem_iff in M. congruence.
      + intros r M. assert (starts_with (lit "cli_") n = true) by (apply starts_with_iff; eauto). congruence. }
  rewrite K. clear K. cbn [duplicated_arguments]. destruct (callee_text f) as [n| |]; cbn [rbind].
  - destruct (mem n skipped || starts_with (lit "cli_") n) eqn:S.
    + apply ok_no_iff; [auto|]. intros (n' & E & S' & _). injection E as ->. congruence.
    + destruct (has_duplicate (given_names args)) eqn:D.
      * apply ok_yes_iff. eauto.
      * apply ok_no_iff; [auto|]. intros (n' & _ & _ & F). discriminate F.
  - apply ok_no_iff; [auto|]. intros (n' & F & _). discriminate F.
  - apply ok_no_iff; [auto|]. intros (n' & F & _). discriminate F.
Qed.

(** ** Loops *)
Lemma for_loop_dup_index_flags : forall fs e, some (for_loop_dup_index fs e) <-> flags_for_loop_dup_index fs e.
Proof.
  intros fs e. unfold flags_for_loop_dup_index. destruct e as [ | | | | | | | | |v q b| | | ]; try (off; fail).
  cbn [for_loop_dup_index]. apply some_if. rewrite existsb_exists. split.
  - intros (f & Hin & H). exists v, q, b. split; [reflexivity|]. exists f. split; [exact Hin|].
    destruct f; try discriminate H; apply teqb_eq in H; subst; eauto.
  - intros (v' & q' & b' & E & f & Hin & H). injection E as -> -> ->. exists f. split; [exact Hin|].
    destruct H as [[x ->]|[x ->]]; apply teqb_refl.
Qed.
Lemma contains_iff : forall x e, contains_identifier x e = true <-> mentions x e.
Proof.
  intros x. fix IH 1. intro e.
  destruct e as [a| | | |f args| | | | | | | | ]; try (split; [discriminate|intro H; inversion H]).
  - destruct a; try (split; [discriminate|intro H; inversion H; fail]). cbn [contains_identifier]. rewrite teqb_eq.
    split; [intros ->; constructor|intro H; inversion H; reflexivity].
  - cbn [contains_identifier]. rewrite Bool.orb_true_iff, !existsb_exists.
    assert (V : (exists a : arg, In a args /\ match snd a with Some v => contains_identifier x v | None => false end = true) <->
      exists n v, In (n, Some v) args /\ mentions x v).
    { clear f. induction args as [|[n [v|]] args IHl].
      - split; [intros (? & [] & _)|intros (? & ? & [] & _)].
      - specialize (IH v). split.
        + intros (a & [<-|Ha] & H).
          * exists n, v. split; [left; reflexivity|]. apply IH, H.
          * destruct (proj1 IHl (ex_intro _ a (conj Ha H))) as (m & w & Hin & M). exists m, w. split; [right; exact Hin|exact M].
        + intros (m & w & [E|Hin] & M).
          * injection E as <- <-. exists (n, Some v). split; [left; reflexivity|]. apply IH, M.
          * destruct (proj2 IHl (ex_intro _ m (ex_intro _ w (conj Hin M)))) as (a & Ha & H). exists a. split; [right; exact Ha|exact H].
      - split.
        + intros (a & [<-|Ha] & H); [discriminate H|].
          destruct (proj1 IHl (ex_intro _ a (conj Ha H))) as (m & w & Hin & M). exists m, w. split; [right; exact Hin|exact M].
        + intros (m & w & [E|Hin] & M); [discriminate E|].
          destruct (proj2 IHl (ex_intro _ m (ex_intro _ w (conj Hin M)))) as (a & Ha & H). exists a. split; [right; exact Ha|exact H]. }
    rewrite V. split.
    + intros [([[n|] v] & Hin & H)|(n & v & Hin & M)]; [|discriminate H|].
      * cbn [fst] in H. apply teqb_eq in H. subst n. apply mentions_name with v. exact Hin.
      * apply mentions_value with n v; auto.
    + intro H. inversion H as [|f' args' v Hin|f' args' n v Hin M]; subst.
      * left. exists (Some x, v). split; [exact Hin|]. apply teqb_refl.
      * right. eauto.
Qed.
Lemma for_loop_index_flags : forall fs e, some (for_loop_index fs e) <-> flags_for_loop_index fs e.
Proof.
  intros fs e. unfold flags_for_loop_index. destruct e as [ | | | | | | | | |v q b| | | ]; try (off; fail).
  cbn [for_loop_index]. apply some_if. rewrite contains_iff. split.
  - intro H. eauto 6.
  - intros (v' & q' & b' & E & H). injection E as -> -> ->. exact H.
Qed.

(** ** substr() *)
Lemma literal_one_iff : forall e, is_literal_one e = true <-> literal_one e.
Proof.
  intro e. unfold literal_one. destruct e as [a| | | | | | | | | | | | ]; try (split; [discriminate|intros (? & _ & E); discriminate E]).
  destruct a; try (split; [discriminate|intros (? & _ & E); discriminate E]). cbn [is_literal_one]. rewrite mem_iff. split.
  - eauto.
  - intros (u & H & E). injection E as ->. exact H.
Qed.
Lemma nchar_iff : forall stop x, is_nchar_of stop x = true <-> exists m v, calls (lit "nchar") stop [(m, Some v)] /\ same_code v x.
Proof.
  intros stop x. destruct stop as [ | | | |f args| | | | | | | | ]; try (split; [discriminate|intros (? & ? & (? & E & _) & _); discriminate E]).
  destruct args as [|[m [v|]] [|b args]]; try (split; [discriminate|intros (? & ? & H & _); apply calls_iff in H; destruct H as [H _]; discriminate H]).
  cbn [is_nchar_of]. rewrite Bool.andb_true_iff, same_text_iff, (named_is f (lit "nchar")) by nn. unfold same_code. split.
  - intros [H E]. exists m, v. split; [apply calls_iff; auto|exact E].
  - intros (m' & v' & H & E). apply calls_iff in H. destruct H as [H1 H2]. injection H1 as -> ->. auto.
Qed.
Lemma string_boundary_flags : forall fs e, some (string_boundary fs e) <-> flags_string_boundary fs e.
Proof.
  intros fs e. unfold flags_string_boundary.
  destruct e as [ | | |o nl l r| | | | | | | | | ]; try (apply some_no_iff; intros (? & ? & ? & ? & ? & ? & F & _); discriminate F).
  destruct o as [ | | | | | | | |c| | | | | | | | ]; try (apply some_no_iff; intros (? & ? & ? & ? & ? & ? & F & _); discriminate F).
  assert (L : ~ In (@nil char) [lit "substr"; lit "substring"]) by nl.
  set (found := fun s : expr => exists args, calls_one_of [lit "substr"; lit "substring"] s args /\
    exists n1 x n2 start n3 stop more, args = (n1, Some x) :: (n2, Some start) :: (n3, Some stop) :: more /\
      (literal_one start \/ exists m v, calls (lit "nchar") stop [(m, Some v)] /\ same_code v x)).
  match goal with |- _ <-> ?G => assert (K : G <-> (c = CEq \/ c = CNe) /\ (found l \/ found r /\ forall f a, l <> ECall f a)) end.
  { unfold found. split.
    - intros (c' & nl' & l' & r' & s & args & E & C & S & H & R). injection E as <- <- <- <-. split; [exact C|].
      destruct S as [ -> | [-> S] ]; [left|right; split; [|exact S]]; exists args; (split; [exact H|exact R]).
    - intros [C [(args & H & R)|[(args & H & R) S]]]; [exists c, nl, l, r, l, args|exists c, nl, l, r, r, args];
        (split; [reflexivity|]; split; [exact C|]; split; [auto|]; split; [exact H|exact R]). }
  rewrite K. clear K.
  assert (LK : forall f args (g h : expr -> expr -> expr -> report),
    some (if mem (get_function_name f) [lit "substr"; lit "substring"] then
              match args with
              | (_, Some x) :: (_, Some start) :: (_, Some stop) :: _ =>
                  if is_literal_one start then Some (g x start stop)
                  else if is_nchar_of stop x then Some (h x start stop)
                  else None
              | _ => None
              end
            else None) <-> found (ECall f args)).
  { intros f args g h. unfold found. rewrite call_one_is by exact L.
    destruct (mem (get_function_name f) [lit "substr"; lit "substring"]); [|apply some_no_iff; intros [F _]; discriminate F].
    rewrite true_and.
    destruct args as [|[n1 [x|]] [|[n2 [start|]] [|[n3 [stop|]] more]]];
      try (apply some_no_iff; intros (? & ? & ? & ? & ? & ? & ? & F & _); discriminate F).
    match goal with |- _ <-> ?G => assert (K : G <-> is_literal_one start || is_nchar_of stop x = true) end.
    { rewrite Bool.orb_true_iff, literal_one_iff, nchar_iff. split.
      - intros (n1' & x' & n2' & start' & n3' & stop' & more' & E & H). injection E as _ -> _ -> _ -> _. exact H.
      - intro H. exists n1, x, n2, start, n3, stop, more. auto. }
    rewrite K. clear K. destruct (is_literal_one start); cbn [orb]; [apply some_yes_iff; reflexivity|]. apply some_if. reflexivity. }
  assert (NF : forall s, (forall f a, s <> ECall f a) -> ~ found s).
  { intros s H (args & (n & _ & f & -> & _) & _). exact (H f args eq_refl). }
  destruct c; try (apply some_no_iff; intros [[F|F] _]; discriminate F); cbn [string_boundary].
  - destruct l as [ | | | |f args| | | | | | | | ].
    5:{ unfold fixed_as. rewrite (LK f args). split; [intro H; auto|]. intros [_ [H|[_ H]]]; [exact H|destruct (H _ _ eq_refl)]. }
    all: destruct r as [ | | | |g gargs| | | | | | | | ];
      try (apply some_no_iff; intros [_ [H|[H _]]]; revert H; apply NF; intros ? ? F; discriminate F);
      unfold fixed_as; rewrite (LK g gargs); (split; [intro H; split; [auto|]; right; split; [exact H|intros ? ? F; discriminate F]|]);
      (intros [_ [H|[H _]]]; [|exact H]); exfalso; revert H; apply NF; intros ? ? F; discriminate F.
  - destruct l as [ | | | |f args| | | | | | | | ].
    5:{ unfold fixed_as. rewrite (LK f args). split; [intro H; auto|]. intros [_ [H|[_ H]]]; [exact H|destruct (H _ _ eq_refl)]. }
    all: destruct r as [ | | | |g gargs| | | | | | | | ];
      try (apply some_no_iff; intros [_ [H|[H _]]]; revert H; apply NF; intros ? ? F; discriminate F);
      unfold fixed_as; rewrite (LK g gargs); (split; [intro H; split; [auto|]; right; split; [exact H|intros ? ? F; discriminate F]|]);
      (intros [_ [H|[H _]]]; [|exact H]); exfalso; revert H; apply NF; intros ? ? F; discriminate F.
Qed.
