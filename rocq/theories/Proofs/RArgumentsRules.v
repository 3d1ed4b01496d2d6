(** Rules that look at all the arguments of a call read them as R does. *)
From Verif Require Import Spec.RArguments Proofs.TextProofs Proofs.RulesProofs Proofs.RStopsProofs Proofs.RArgumentsProofs.

Lemma called_name : forall n f args args', calls n (ECall f args) args' -> n <> [] -> args' = args /\ get_function_name f = n.
Proof. intros n f args args' [g [E F]] N. injection E as <- <-. split; [reflexivity|]. apply function_name_iff; assumption. Qed.
Lemma in3 : forall {A} (P : nat -> A -> Prop) a b c, P 0 a -> P 1 b -> P 2 c -> forall i n, nth_error [a; b; c] i = Some n -> P i n.
Proof. intros A P a b c Ha Hb Hc [|[|[|i]]] n E; cbn in E; try (injection E as <-; assumption). destruct i; discriminate. Qed.
Lemma in2 : forall {A} (P : nat -> A -> Prop) a b, P 0 a -> P 1 b -> forall i n, nth_error [a; b] i = Some n -> P i n.
Proof. intros A P a b Ha Hb [|[|i]] n E; cbn in E; try (injection E as <-; assumption). destruct i; discriminate. Qed.

Lemma three_read : forall a b c rest args x y z, NoDup ([a; b; c] ++ rest) -> plain_names ([a; b; c] ++ rest) args -> length args <= 3 ->
  chosen args a 1 x -> chosen args b 2 y -> chosen args c 3 z ->
  r_arg ([a; b; c] ++ rest) args a x /\ r_arg ([a; b; c] ++ rest) args b y /\ r_arg ([a; b; c] ++ rest) args c z.
Proof.
  intros a b c rest args x y z D P L X Y Z.
  assert (NoDup ([] ++ [a; b; c])) as D' by (apply NoDup_app_iff_local in D; apply D).
  pose proof (full_call [a; b; c] rest [] args D D' P (incl_nil_l _) L) as H.
  assert (forall i n, nth_error [a; b; c] i = Some n -> exists v, chosen args n (S i) v) as G.
  { refine (in3 (fun i n => exists v, chosen args n (S i) v) a b c _ _ _); eauto. }
  specialize (H G).
  split; [exact (H 0 a x eq_refl X)|]. split; [exact (H 1 b y eq_refl Y)|exact (H 2 c z eq_refl Z)].
Qed.
Lemma two_read : forall a b rest args x y, NoDup ([a; b] ++ rest) -> plain_names ([a; b] ++ rest) args -> length args <= 2 ->
  chosen args a 1 x -> chosen args b 2 y ->
  r_arg ([a; b] ++ rest) args a x /\ r_arg ([a; b] ++ rest) args b y.
Proof.
  intros a b rest args x y D P L X Y.
  assert (NoDup ([] ++ [a; b])) as D' by (apply NoDup_app_iff_local in D; apply D).
  pose proof (full_call [a; b] rest [] args D D' P (incl_nil_l _) L) as H.
  assert (forall i n, nth_error [a; b] i = Some n -> exists v, chosen args n (S i) v) as G.
  { refine (in2 (fun i n => exists v, chosen args n (S i) v) a b _ _); eauto. }
  specialize (H G).
  split; [exact (H 0 a x eq_refl X)|exact (H 1 b y eq_refl Y)].
Qed.
Ltac names_differ := repeat constructor; cbn [In]; intuition discriminate.

Theorem ifelse_reads : forall fs e r n args a b c, calls n e args ->
  In (n, [a; b; c]) ifelse_functions -> plain_names [a; b; c] args -> redundant_ifelse fs e = Some r ->
  exists mx x my yes mz no,
    r_arg [a; b; c] args a (mx, Some x) /\ r_arg [a; b; c] args b (my, Some (truth yes)) /\ r_arg [a; b; c] args c (mz, Some (truth no)) /\
    at_node r = e /\ at_frames r = fs /\
    new_text r = if yes then if no then None else Some (toks x)
                 else if no then Some (TBang :: TLp :: toks x ++ [TRp]) else None.
Proof.
  intros fs e r n args a b c C F P R. destruct e as [| | | |f args0| | | | | | | |]; try discriminate R.
  assert (n <> [] /\ ifelse_formals n = Some (a, b, c) /\ NoDup [a; b; c]) as [N [J D]].
  { repeat (destruct F as [F|F]; [injection F as <- <- <- <-; split; [discriminate|split; [reflexivity|names_differ]]|]). destruct F. }
  destruct (called_name _ _ _ _ C N) as [-> G]. unfold redundant_ifelse in R. rewrite G in R.
  rewrite J in R. destruct (length args0 =? 3) eqn:L; [|discriminate R]. cbn [negb] in R. apply Nat.eqb_eq in L.
  destruct (get_arg_by_name_then_position args0 a 1) as [[mx [x|]]|] eqn:X; try discriminate R.
  destruct (get_arg_by_name_then_position args0 b 2) as [[my [y|]]|] eqn:Y; try discriminate R.
  destruct (get_arg_by_name_then_position args0 c 3) as [[mz [z|]]|] eqn:Z; try discriminate R.
  apply chosen_iff in X, Y, Z.
  destruct (three_read a b c [] args0 _ _ _ D P (Nat.eq_le_incl _ _ L) X Y Z) as [X' [Y' Z']].
  exists mx, x, my.
  destruct y as [[]| | | | | | | | | | | |]; try discriminate R;
    destruct z as [[]| | | | | | | | | | | |]; try discriminate R; injection R as <-; cbn [at_node at_frames new_text].
  - exists true, mz, true. repeat split; assumption.
  - exists true, mz, false. repeat split; assumption.
  - exists false, mz, true. repeat split; assumption.
  - exists false, mz, false. repeat split; assumption.
Qed.

Theorem apply_reads : forall fs e r args, calls (lit "apply") e args ->
  plain_names [lit "X"; lit "MARGIN"; lit "FUN"] args -> matrix_apply fs e = Some r ->
  exists mx x mm m mf row sum na,
    r_arg [lit "X"; lit "MARGIN"; lit "FUN"] args (lit "X") (mx, Some x) /\
    r_arg [lit "X"; lit "MARGIN"; lit "FUN"] args (lit "MARGIN") (mm, Some m) /\ (if row : bool then one m else two m) /\
    r_arg [lit "X"; lit "MARGIN"; lit "FUN"] args (lit "FUN") (mf, Some (EAtom (AId (if sum : bool then lit "sum" else lit "mean")))) /\
    at_node r = e /\ at_frames r = fs /\
    new_text r = Some (call_text (margin_function row sum) (toks x ++ na)) /\
    (na = [] /\ not_named (lit "na.rm") args \/ exists v, In (Some (lit "na.rm"), v) args /\ na = TComma :: arg_toks (Some (lit "na.rm"), v)).
Proof.
  intros fs e r args C P R. destruct e as [| | | |f args0| | | | | | | |]; try discriminate R.
  destruct (called_name _ _ _ _ C ltac:(discriminate)) as [-> G]. unfold matrix_apply in R. rewrite G, teqb_refl in R.
  set (na_rm := get_arg_by_name args0 (lit "na.rm")) in *.
  destruct ((match na_rm with Some _ => 4 | None => 3 end) <? length args0) eqn:L; [discriminate R|]. apply Nat.ltb_ge in L.
  destruct (get_arg_by_name_then_position args0 (lit "X") 1) as [[mx [x|]]|] eqn:X; try discriminate R.
  destruct (get_arg_by_name_then_position args0 (lit "FUN") 3) as [[mf [g|]]|] eqn:Y; try discriminate R.
  destruct (get_arg_by_name_then_position args0 (lit "MARGIN") 2) as [[mm [m|]]|] eqn:Z; try discriminate R.
  apply chosen_iff in X, Y, Z.
  assert (exists extra, NoDup (extra ++ [lit "X"; lit "MARGIN"; lit "FUN"]) /\ incl extra (given_names_of args0) /\
    length args0 <= length extra + 3) as [extra [D [I L']]].
  { destruct na_rm as [[q v]|] eqn:Q.
    - exists [lit "na.rm"]. split; [names_differ|]. split; [|exact L].
      unfold na_rm, get_arg_by_name in Q. apply find_some in Q. destruct Q as [Q K]. apply has_name_iff in K. cbn in K. subst q.
      intros z [ <- |[]]. apply given_names_in. exists v. exact Q.
    - exists []. split; [names_differ|]. split; [apply incl_nil_l|exact L]. }
  assert (NoDup ([lit "X"; lit "MARGIN"; lit "FUN"] ++ [])) as D' by names_differ.
  pose proof (full_call [lit "X"; lit "MARGIN"; lit "FUN"] [] extra args0 D' D P I L') as H.
  assert (forall i n, nth_error [lit "X"; lit "MARGIN"; lit "FUN"] i = Some n -> exists v, chosen args0 n (S i) v) as E.
  { refine (in3 (fun i n => exists v, chosen args0 n (S i) v) _ _ _ _ _ _); eauto. }
  specialize (H E).
  pose proof (H 0 _ _ eq_refl X) as X'. pose proof (H 1 _ _ eq_refl Z) as Z'. pose proof (H 2 _ _ eq_refl Y) as Y'.
  clear H E D D' I L' extra.
  set (na := match na_rm with Some a => TComma :: arg_toks a | None => [] end) in *.
  assert (na = [] /\ not_named (lit "na.rm") args0 \/ exists v, In (Some (lit "na.rm"), v) args0 /\ na = TComma :: arg_toks (Some (lit "na.rm"), v)) as NA.
  { unfold na. destruct na_rm as [[q v]|] eqn:Q.
    - right. unfold na_rm, get_arg_by_name in Q. apply find_some in Q. destruct Q as [Q K]. apply has_name_iff in K. cbn in K. subst q. eauto.
    - left. split; [reflexivity|]. apply not_named_iff. exact Q. }
  assert (forall l, lit_in l m = true -> exists t, In t l /\ m = EAtom (ANum t)) as LI.
  { intros l H. destruct m as [[]| | | | | | | | | | | |]; try discriminate H. cbn in H. apply mem_iff in H. eauto. }
  assert (forall n, is_id n g = true -> g = EAtom (AId n)) as ID.
  { intros n H. destruct g as [[]| | | | | | | | | | | |]; try discriminate H. cbn in H. apply teqb_eq in H. subst. reflexivity. }
  assert (lit_in [lit "1"; lit "1L"] m = true -> one m) as O.
  { intro H. apply LI in H. destruct H as [t [[ <- |[ <- |[]]] ->]]; [left|right]; reflexivity. }
  assert (lit_in [lit "2"; lit "2L"] m = true -> two m) as T.
  { intro H. apply LI in H. destruct H as [t [[ <- |[ <- |[]]] ->]]; [left|right]; reflexivity. }
  exists mx, x, mm, m, mf.
  destruct (is_id (lit "mean") g) eqn:Gm; [|destruct (is_id (lit "sum") g) eqn:Gs; [|discriminate R]];
    (destruct (lit_in [lit "1"; lit "1L"] m) eqn:L1; [|destruct (lit_in [lit "2"; lit "2L"] m) eqn:L2; [|discriminate R]]);
    injection R as <-; cbn [at_node at_frames new_text].
  1: exists true, false, na; rewrite (ID _ Gm) in Y'.
  2: exists false, false, na; rewrite (ID _ Gm) in Y'.
  3: exists true, true, na; rewrite (ID _ Gs) in Y'.
  4: exists false, true, na; rewrite (ID _ Gs) in Y'.
  all: split; [exact X'|]; split; [exact Z'|]; split; [first [exact (O eq_refl)|exact (T eq_refl)]|];
       split; [exact Y'|]; split; [reflexivity|]; split; [reflexivity|]; split; [reflexivity|exact NA].
Qed.

Theorem do_call_reads : forall fs e r args, calls (lit "do.call") e args ->
  plain_names [lit "what"; lit "args"; lit "quote"; lit "envir"] args -> list2df fs e = Some r ->
  exists mw what ml l,
    r_arg [lit "what"; lit "args"; lit "quote"; lit "envir"] args (lit "what") (mw, Some what) /\
    (what = EAtom (AId (lit "cbind.data.frame")) \/ string_of (in_quotes (lit "cbind.data.frame")) what) /\
    r_arg [lit "what"; lit "args"; lit "quote"; lit "envir"] args (lit "args") (ml, Some l) /\
    at_node r = e /\ at_frames r = fs /\ new_text r = Some (call_text (lit "list2DF") (toks l)).
Proof.
  intros fs e r args C P R. destruct e as [| | | |f args0| | | | | | | |]; try discriminate R.
  destruct (called_name _ _ _ _ C ltac:(discriminate)) as [-> G]. unfold list2df in R. rewrite G, teqb_refl in R.
  destruct (get_arg_by_name_then_position args0 (lit "what") 1) as [[mw [w|]]|] eqn:X; try discriminate R.
  destruct (get_arg_by_name_then_position args0 (lit "args") 2) as [[ml [l|]]|] eqn:Y; try discriminate R.
  destruct (get_arg_by_position args0 3) eqn:L; [discriminate R|].
  destruct (is_cbind_df w) eqn:W; [|discriminate R]. injection R as <-.
  apply chosen_iff in X, Y. unfold get_arg_by_position in L. apply nth_error_None in L. cbn in L.
  destruct (two_read (lit "what") (lit "args") [lit "quote"; lit "envir"] args0 _ _ ltac:(names_differ) P L X Y) as [X' Y'].
  exists mw, w, ml, l. split; [exact X'|]. split; [|split; [exact Y'|repeat split]].
  destruct w as [[]| | | | | | | | | | | |]; try discriminate W; cbn in W.
  - apply teqb_eq in W. subst. left. reflexivity.
  - right. apply Bool.orb_true_iff in W. eexists. split; [|reflexivity].
    destruct W as [W|W]; apply teqb_eq in W; rewrite W; [left|right; left]; reflexivity.
Qed.

Lemma object_expected_reads : forall args a b, length args <= 2 -> plain_names [lit "object"; lit "expected"] args ->
  object_expected args = Some (a, b) -> exists ma mb,
    r_arg [lit "object"; lit "expected"] args (lit "object") (ma, Some a) /\
    r_arg [lit "object"; lit "expected"] args (lit "expected") (mb, Some b).
Proof.
  intros args a b L P H. unfold object_expected in H.
  destruct (get_arg_by_name_then_position args (lit "object") 1) as [[ma [a'|]]|] eqn:X; try discriminate H.
  destruct (get_arg_by_name_then_position args (lit "expected") 2) as [[mb [b'|]]|] eqn:Y; try discriminate H.
  injection H as -> ->. apply chosen_iff in X, Y. exists ma, mb.
  exact (two_read (lit "object") (lit "expected") [] args _ _ ltac:(names_differ) P L X Y).
Qed.

Lemma x_of_chosen : forall n c x, is_call_named n c = true -> n <> [] -> x_of c = Some x ->
  exists gargs mx, calls n c gargs /\ chosen gargs (lit "x") 1 (mx, Some x).
Proof.
  intros n c x C N X. destruct c as [| | | |g gargs| | | | | | | |]; try discriminate C.
  cbn [is_call_named x_of] in C, X. apply teqb_eq in C. unfold arg_value in X. destruct (get_arg_by_name_then_position gargs (lit "x") 1) as [[mx v]|] eqn:A; [|discriminate X]. subst v.
  apply chosen_iff in A. exists gargs, mx. split; [|exact A]. exists g. split; [reflexivity|]. apply function_name_iff; assumption.
Qed.
Lemma is_expect_equal_iff : forall f n, In n [lit "expect_equal"; lit "expect_identical"] -> get_function_name f = n -> is_expect_equal f = true.
Proof. intros f n I E. unfold is_expect_equal. rewrite E. apply mem_iff. exact I. Qed.
Lemma expect_not_empty : forall n, In n [lit "expect_equal"; lit "expect_identical"] -> n <> [].
Proof. intros n [ <- |[ <- |[]]]; discriminate. Qed.

Theorem expect_length_reads : forall fs e r n args, calls n e args -> In n [lit "expect_equal"; lit "expect_identical"] ->
  plain_names [lit "object"; lit "expected"] args -> expect_length fs e = Some r -> two_arguments_read (lit "length") (lit "expect_length") args e fs r.
Proof.
  intros fs e r n args C I P R. destruct e as [| | | |f args0| | | | | | | |]; try discriminate R.
  destruct (called_name _ _ _ _ C (expect_not_empty n I)) as [-> G]. unfold expect_length in R. rewrite (is_expect_equal_iff f n I G) in R.
  destruct (object_expected args0) as [[a b]|] eqn:O; [|discriminate R].
  destruct (2 <? length args0) eqn:L; [discriminate R|]. apply Nat.ltb_ge in L.
  destruct (object_expected_reads args0 a b L P O) as [ma [mb [A B]]].
  exists f, ma, a, mb, b.
  destruct (is_call_named (lit "length") a) eqn:Ca.
  - destruct (is_call_named (lit "length") b) eqn:Cb; [discriminate R|].
    destruct (x_of a) as [x|] eqn:X; [|discriminate R]. injection R as <-.
    destruct (x_of_chosen _ _ _ Ca ltac:(discriminate) X) as [gargs [mx [K H]]].
    exists a, b, gargs, mx, x. repeat split; auto.
  - destruct (is_call_named (lit "length") b) eqn:Cb; [|discriminate R].
    destruct (x_of b) as [x|] eqn:X; [|discriminate R]. injection R as <-.
    destruct (x_of_chosen _ _ _ Cb ltac:(discriminate) X) as [gargs [mx [K H]]].
    exists b, a, gargs, mx, x. repeat split; auto.
Qed.
Theorem expect_s3_class_reads : forall fs e r n args, calls n e args -> In n [lit "expect_equal"; lit "expect_identical"] ->
  plain_names [lit "object"; lit "expected"] args -> expect_s3_class fs e = Some r -> two_arguments_read (lit "class") (lit "expect_s3_class") args e fs r.
Proof.
  intros fs e r n args C I P R. destruct e as [| | | |f args0| | | | | | | |]; try discriminate R.
  destruct (called_name _ _ _ _ C (expect_not_empty n I)) as [-> G]. unfold expect_s3_class in R. rewrite (is_expect_equal_iff f n I G) in R.
  destruct (object_expected args0) as [[a b]|] eqn:O; [|discriminate R].
  destruct (2 <? length args0) eqn:L; [discriminate R|]. apply Nat.ltb_ge in L.
  destruct (object_expected_reads args0 a b L P O) as [ma [mb [A B]]].
  exists f, ma, a, mb, b.
  destruct (is_call a) eqn:Ca; [|destruct (is_call b) eqn:Cb; [|discriminate R]].
  - destruct (is_call_named (lit "class") a) eqn:N; [|discriminate R]. destruct (is_s3_class b); [|discriminate R]. cbn [andb] in R.
    destruct (x_of a) as [x|] eqn:X; [|discriminate R]. injection R as <-.
    destruct (x_of_chosen _ _ _ N ltac:(discriminate) X) as [gargs [mx [K H]]]. exists a, b, gargs, mx, x. repeat split; auto.
  - destruct (is_call_named (lit "class") b) eqn:N; [|discriminate R]. destruct (is_s3_class a); [|discriminate R]. cbn [andb] in R.
    destruct (x_of b) as [x|] eqn:X; [|discriminate R]. injection R as <-.
    destruct (x_of_chosen _ _ _ N ltac:(discriminate) X) as [gargs [mx [K H]]]. exists b, a, gargs, mx, x. repeat split; auto.
Qed.
Theorem expect_type_reads : forall fs e r n args, calls n e args -> In n [lit "expect_equal"; lit "expect_identical"] ->
  plain_names [lit "object"; lit "expected"] args -> expect_type fs e = Some r -> two_arguments_read (lit "typeof") (lit "expect_type") args e fs r.
Proof.
  intros fs e r n args C I P R. destruct e as [| | | |f args0| | | | | | | |]; try discriminate R.
  destruct (called_name _ _ _ _ C (expect_not_empty n I)) as [-> G]. unfold expect_type in R. rewrite (is_expect_equal_iff f n I G) in R.
  destruct (2 <? length args0) eqn:L; [discriminate R|]. apply Nat.ltb_ge in L.
  destruct (object_expected args0) as [[a b]|] eqn:O; [|discriminate R].
  destruct (object_expected_reads args0 a b L P O) as [ma [mb [A B]]].
  exists f, ma, a, mb, b.
  destruct (is_call_named (lit "typeof") a) eqn:Ca; [|destruct (is_call_named (lit "typeof") b) eqn:Cb; [|discriminate R]].
  - destruct (x_of a) as [x|] eqn:X; try discriminate R. injection R as <-.
    destruct (x_of_chosen _ _ _ Ca ltac:(discriminate) X) as [gargs [mx [K H]]]. exists a, b, gargs, mx, x. repeat split; auto.
  - destruct (x_of b) as [x|] eqn:X; try discriminate R. injection R as <-.
    destruct (x_of_chosen _ _ _ Cb ltac:(discriminate) X) as [gargs [mx [K H]]]. exists b, a, gargs, mx, x. repeat split; auto.
Qed.
