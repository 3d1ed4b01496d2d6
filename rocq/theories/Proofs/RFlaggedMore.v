(** More rules on calls, loops and conditions: exactly what they report. *)
From Verif Require Import Spec.RFlagged Proofs.TextProofs Proofs.RulesProofs Proofs.RStopsProofs Proofs.LintConstant Proofs.RFlaggedProofs
  Proofs.RFlaggedCompare Proofs.RFlaggedCalls.

Lemma true_and : forall P : Prop, (true = true /\ P) <-> P.
Proof. intro P. tauto. Qed.
Ltac name_off := apply some_no_iff; let H := fresh in intros [H _]; discriminate H.
Lemma cbind_iff : forall e, is_cbind_df e = true <->
  e = EAtom (AId (lit "cbind.data.frame")) \/ string_of (in_quotes (lit "cbind.data.frame")) e.
Proof.
  intro e. unfold string_of. destruct e as [a| | | | | | | | | | | | ];
    try (split; [discriminate|intros [E|(t & _ & E)]; discriminate E]).
  destruct a; try (split; [discriminate|intros [E|(u & _ & E)]; discriminate E]); cbn [is_cbind_df].
  - rewrite teqb_eq. split; [intros ->; auto|]. intros [E|(t & _ & E)]; [congruence|discriminate E].
  - rewrite Bool.orb_true_iff, !teqb_eq. split.
    + intros [ -> | -> ]; right; eexists; (split; [|reflexivity]); [left|right; left]; reflexivity.
    + intros [E|(u & H & E)]; [discriminate E|]. injection E as ->.
      destruct H as [<-|[<-|[]]]; auto.
Qed.
Lemma list2df_flags : forall fs e, some (list2df fs e) <-> flags_list2df fs e.
Proof.
  intros fs e. unfold flags_list2df. destruct e as [ | | | |f args| | | | | | | | ]; try (not_call).
  assert (K : (exists a what l, calls (lit "do.call") (ECall f args) a /\ length a < 3 /\
      given a (lit "what") 1 what /\ given a (lit "args") 2 l /\
      (what = EAtom (AId (lit "cbind.data.frame")) \/ string_of (in_quotes (lit "cbind.data.frame")) what)) <->
    teqb (get_function_name f) (lit "do.call") = true /\ exists what l, length args < 3 /\
      arg_value (get_arg_by_name_then_position args (lit "what") 1) = Some what /\
      arg_value (get_arg_by_name_then_position args (lit "args") 2) = Some l /\ is_cbind_df what = true).
  { rewrite (named_is f (lit "do.call")) by nn. split.
    - intros (a & what & l & H & N & W & L & C). apply calls_iff in H. destruct H as [-> H]. split; [exact H|].
      exists what, l. rewrite cbind_iff. apply given_iff in W. apply given_iff in L. auto.
    - intros (H & what & l & N & W & L & C). exists args, what, l. rewrite cbind_iff in C.
      apply given_iff in W. apply given_iff in L. split; [apply calls_iff; auto|auto]. }
  rewrite K. clear K. cbn [list2df]. destruct (teqb (get_function_name f) (lit "do.call")); [|name_off].
  rewrite true_and.
  destruct (get_arg_by_name_then_position args (lit "what") 1) as [[m [w|]]|]; cbn [arg_value];
    try (apply some_no_iff; intros (? & ? & _ & H & _); discriminate H).
  destruct (get_arg_by_name_then_position args (lit "args") 2) as [[m2 [l|]]|]; cbn [arg_value];
    try (apply some_no_iff; intros (? & ? & _ & _ & H & _); discriminate H).
  destruct (get_arg_by_position args 3) as [a|] eqn:E; unfold get_arg_by_position in E.
  - apply (@some_no_iff report). intros (? & ? & H & _). assert (2 < length args) by (apply (proj1 (@nth_error_Some arg args 2)); cbn [Nat.sub] in E; rewrite E; discriminate). lia.
  - apply (proj1 (@nth_error_None arg args _)) in E. apply some_if. split.
    + intro H. exists w, l. cbn [Nat.sub] in E. unfold arg in E. split; [lia|auto].
    + intros (w' & l' & _ & E' & _ & H). injection E' as ->. exact H.
Qed.
Lemma lit_in_iff : forall l e, lit_in l e = true <-> exists t, In t l /\ e = EAtom (ANum t).
Proof.
  intros l e. destruct e as [a| | | | | | | | | | | | ]; try (split; [discriminate|intros (t & _ & E); discriminate E]).
  destruct a; try (split; [discriminate|intros (u & _ & E); discriminate E]).
  cbn [lit_in]. rewrite mem_iff. split; [eauto|]. intros (u & H & E). injection E as ->. exact H.
Qed.
Lemma is_id_iff : forall n e, is_id n e = true <-> e = EAtom (AId n).
Proof. exact is_call_to_iff. Qed.
Lemma one_iff : forall e, lit_in [lit "1"; lit "1L"] e = true <-> one e.
Proof.
  intro e. rewrite lit_in_iff. unfold one. split.
  - intros (t & [<-|[<-|[]]] & ->); auto.
  - intros [ -> | -> ]; eexists; (split; [|reflexivity]); [left|right; left]; reflexivity.
Qed.
Lemma two_iff : forall e, lit_in [lit "2"; lit "2L"] e = true <-> two e.
Proof.
  intro e. rewrite lit_in_iff. unfold two. split.
  - intros (t & [<-|[<-|[]]] & ->); auto.
  - intros [ -> | -> ]; eexists; (split; [|reflexivity]); [left|right; left]; reflexivity.
Qed.
Lemma named_arg_iff : forall args n, some (get_arg_by_name args n) <-> exists v, In (Some n, v) args.
Proof.
  intros args n. unfold get_arg_by_name. split.
  - intros [[m v] H]. apply find_some in H. destruct H as [Hin Hn]. apply has_name_iff in Hn. cbn in Hn. subst. eauto.
  - intros [v H]. destruct (find (has_name n) args) as [a|] eqn:E; [apply some_yes|].
    exfalso. apply (find_none _ _ E) in H. assert (has_name n (Some n, v) = true) by (apply has_name_iff; reflexivity). congruence.
Qed.
Lemma matrix_apply_flags : forall fs e, some (matrix_apply fs e) <-> flags_matrix_apply fs e.
Proof.
  intros fs e. unfold flags_matrix_apply. destruct e as [ | | | |f args| | | | | | | | ]; try (not_call).
  set (V := fun n k => arg_value (get_arg_by_name_then_position args n k)).
  assert (K : (exists a x g m, calls (lit "apply") (ECall f args) a /\
      given a (lit "X") 1 x /\ given a (lit "MARGIN") 2 m /\ given a (lit "FUN") 3 g /\
      (one m \/ two m) /\ (g = EAtom (AId (lit "mean")) \/ g = EAtom (AId (lit "sum"))) /\
      (length a <= 3 \/ length a = 4 /\ exists v, In (Some (lit "na.rm"), v) a)) <->
    teqb (get_function_name f) (lit "apply") = true /\ (exists x g m, V (lit "X") 1 = Some x /\ V (lit "MARGIN") 2 = Some m /\ V (lit "FUN") 3 = Some g /\
      lit_in [lit "1"; lit "1L"] m || lit_in [lit "2"; lit "2L"] m = true /\
      is_id (lit "mean") g || is_id (lit "sum") g = true) /\
      (length args <= 3 \/ length args = 4 /\ some (get_arg_by_name args (lit "na.rm")))).
  { rewrite (named_is f (lit "apply")) by nn. unfold V. split.
    - intros (a & x & g & m & H & X & M & G & O & F & N). apply calls_iff in H. destruct H as [-> H]. split; [exact H|].
      split; [|rewrite named_arg_iff; exact N]. exists x, g, m. rewrite !Bool.orb_true_iff, one_iff, two_iff, !is_id_iff.
      apply given_iff in X, M, G. auto 6.
    - intros (H & (x & g & m & X & M & G & O & F) & N). rewrite !Bool.orb_true_iff, one_iff, two_iff, !is_id_iff in *.
      rewrite named_arg_iff in N. apply given_iff in X, M, G. exists args, x, g, m. split; [apply calls_iff; auto|auto 8]. }
  etransitivity; [|symmetry; exact K]. clear K. cbn [matrix_apply]. destruct (teqb (get_function_name f) (lit "apply")); [|name_off].
  rewrite true_and. unfold V. clear V.
  assert (N : (length args <= 3 \/ length args = 4 /\ some (get_arg_by_name args (lit "na.rm"))) <->
    (match get_arg_by_name args (lit "na.rm") with Some _ => 4 | None => 3 end <? length args) = false).
  { rewrite Nat.ltb_ge. destruct (get_arg_by_name args (lit "na.rm")) as [a|].
    - split; [intros [H|[H _]]; lia|]. intro H. assert (length args <= 3 \/ length args = 4) as [Q|Q] by lia; [auto|right; split; [exact Q|apply some_yes]].
    - split; [intros [H|[_ H]]; [lia|destruct (some_no H)]|auto]. }
  rewrite N. clear N.
  destruct (match get_arg_by_name args (lit "na.rm") with Some _ => 4 | None => 3 end <? length args).
  { apply some_no_iff. intros [_ H]. discriminate H. }
  destruct (get_arg_by_name_then_position args (lit "X") 1) as [[mx [x|]]|]; cbn [arg_value];
    try (apply some_no_iff; intros [(? & ? & ? & H & _) _]; discriminate H).
  destruct (get_arg_by_name_then_position args (lit "FUN") 3) as [[mg [g|]]|]; cbn [arg_value];
    try (apply some_no_iff; intros [(? & ? & ? & _ & _ & H & _) _]; discriminate H).
  destruct (get_arg_by_name_then_position args (lit "MARGIN") 2) as [[mm [m|]]|]; cbn [arg_value];
    try (apply some_no_iff; intros [(? & ? & ? & _ & H & _) _]; discriminate H).
  assert (Q : ((exists x0 g0 m0, Some x = Some x0 /\ Some m = Some m0 /\ Some g = Some g0 /\
      lit_in [lit "1"; lit "1L"] m0 || lit_in [lit "2"; lit "2L"] m0 = true /\
      is_id (lit "mean") g0 || is_id (lit "sum") g0 = true) /\ false = false) <->
      lit_in [lit "1"; lit "1L"] m || lit_in [lit "2"; lit "2L"] m = true /\ is_id (lit "mean") g || is_id (lit "sum") g = true).
  { split.
    - intros [(x0 & g0 & m0 & E1 & E2 & E3 & O & F) _]. injection E2 as ->. injection E3 as ->. auto.
    - intros [O F]. split; [|reflexivity]. exists x, g, m. auto 6. }
  rewrite Q. clear Q.
  destruct (is_id (lit "mean") g), (is_id (lit "sum") g), (lit_in [lit "1"; lit "1L"] m), (lit_in [lit "2"; lit "2L"] m); cbn [orb];
    first [apply some_yes_iff; auto; fail | apply some_no_iff; intros [H1 H2]; discriminate].
Qed.
Lemma seq2_flags : forall fs e, some (seq2_rule fs e) <-> flags_seq2 fs e.
Proof.
  assert (L : ~ In (@nil char) sizes) by nl.
  intros fs e. unfold flags_seq2. destruct e as [ | | | |f args| | | | | | | | ]; try (not_call).
  destruct args as [|[[n|] [c|]] [|a args]]; try (apply some_no_iff; intros (? & ? & H & _); apply calls_iff in H; destruct H as [H _]; discriminate H).
  2:{ destruct c; apply some_no_iff; intros (? & ? & H & _); apply calls_iff in H; destruct H as [H _]; discriminate H. }
  destruct c as [ | | | |g gargs| | | | | | | | ];
    try (apply some_no_iff; intros (? & ? & H & (? & _ & ? & E & _)); apply calls_iff in H; destruct H as [H _]; injection H as ->; discriminate E).
  cbn [seq2_rule]. change (existsb (teqb (get_function_name g)) size_names) with (mem (get_function_name g) sizes).
  apply some_if. rewrite Bool.andb_true_iff, (named_is f (lit "seq")) by nn. split.
  - intros [H1 H2]. exists (ECall g gargs), gargs. split; [apply calls_iff; auto|apply calls_one_iff; auto].
  - intros (c & a & H1 & H2). apply calls_iff in H1. destruct H1 as [H1 H3]. injection H1 as ->. split; [exact H3|].
    apply calls_one_iff in H2; [apply H2|exact L].
Qed.
Lemma only_unnamed : forall args v, get_unnamed_args args = [(None, v)] <->
  exists pre post, args = pre ++ (None, v) :: post /\ forall w, ~ In (None, w) (pre ++ post).
Proof.
  assert (N : forall args, get_unnamed_args args = [] <-> forall w, ~ In (None, w) args).
  { induction args as [|[[n|] v] args IH]; cbn.
    - split; [intros _ w []|reflexivity].
    - fold (get_unnamed_args args). rewrite IH. split; intros H w; [intros [E|E]; [discriminate E|exact (H w E)]|intro E; exact (H w (or_intror E))].
    - split; [discriminate|]. intro H. destruct (H v (or_introl eq_refl)). }
  assert (A : forall a b, get_unnamed_args (a ++ b) = get_unnamed_args a ++ get_unnamed_args b).
  { intros a b. apply filter_app. }
  intros args v. split.
  - induction args as [|[[n|] w] args IH]; intro H; [discriminate H| |].
    + change (get_unnamed_args args = [(None, v)]) in H. destruct (IH H) as (pre & post & -> & K).
      exists ((Some n, w) :: pre), post. split; [reflexivity|]. intros w' [E|E]; [discriminate E|exact (K w' E)].
    + change ((None, w) :: get_unnamed_args args = [(None, v)]) in H. injection H as -> H.
      exists [], args. split; [reflexivity|]. apply N, H.
  - intros (pre & post & -> & K). rewrite A.
    assert (K1 : get_unnamed_args pre = []) by (apply N; intros w Hw; apply (K w), in_or_app; auto).
    assert (K2 : get_unnamed_args post = []) by (apply N; intros w Hw; apply (K w), in_or_app; auto).
    rewrite K1. cbn. fold (get_unnamed_args post). rewrite K2. reflexivity.
Qed.
Lemma unnamed_none : forall args a, In a (get_unnamed_args args) -> fst a = None.
Proof. intros args [n v] H. apply filter_In in H. destruct H as [_ H]. destruct n; [discriminate H|reflexivity]. Qed.
Lemma sort_flags : forall fs e, some (sort_rule fs e) <-> flags_sort fs e.
Proof.
  intros fs e. unfold flags_sort. destruct e as [ | | | | |d x a| | | | | | | ]; try (not_call).
  destruct d; [not_call|].
  destruct a as [|[[n|] [c|]] [|b a]]; try (not_call).
  2:{ destruct c; not_call. }
  destruct c as [ | | | |f args| | | | | | | | ]; try (not_call).
  assert (K : (exists x' c a v, ESub false x [(None, Some (ECall f args))] = ESub false x' [(None, Some c)] /\
     calls (lit "order") c a /\ (exists pre post, a = pre ++ (None, v) :: post /\ (forall w, ~ In (None, w) (pre ++ post))) /\
     opt_toks v = toks x') <->
     teqb (get_function_name f) (lit "order") = true /\ exists v, get_unnamed_args args = [(None, v)] /\ opt_toks v = toks x).
  { rewrite (named_is f (lit "order")) by nn. split.
    - intros (x' & c & a & v & E & H & P & T). injection E as -> <-. apply calls_iff in H. destruct H as [-> H].
      split; [exact H|]. exists v. split; [apply only_unnamed, P|exact T].
    - intros (H & v & P & T). exists x, (ECall f args), args, v. split; [reflexivity|]. split; [apply calls_iff; auto|].
      split; [apply only_unnamed, P|exact T]. }
  rewrite K. clear K. cbn [sort_rule]. destruct (teqb (get_function_name f) (lit "order")); [|name_off].
  rewrite true_and.
  destruct (get_unnamed_args args) as [|[n v] [|b l]] eqn:E;
    try (apply some_no_iff; intros (? & H & _); discriminate H).
  assert (n = None) as ->.
  { apply (unnamed_none args (n, v)). rewrite E. left. reflexivity. }
  change (arg_toks (None, v)) with (opt_toks v).
  match goal with |- some (if ?b then _ else _) <-> _ => destruct b eqn:S end.
  - apply same_text_iff in S. apply some_yes_iff. exists v. auto.
  - apply some_no_iff. intros (w & H & T). injection H as ->. apply same_text_iff in T. congruence.
Qed.
Lemma file_path_iff : forall a, fst a = None -> (is_file_path a = true <-> file_path a).
Proof.
  intros [n v] Hn. cbn in Hn. subst n. unfold is_file_path, file_path, call. cbn [snd].
  destruct v as [v|]; [|split; [discriminate|intros [? E]; discriminate E]].
  destruct v as [ | | | |f args| | | | | | | | ]; try (split; [discriminate|intros [? E]; discriminate E]).
  destruct f as [a| | | | | | | | | | | | ]; try (split; [discriminate|intros [? E]; discriminate E]).
  destruct a; try (split; [discriminate|intros [? E]; discriminate E]).
  rewrite teqb_eq. split; [intros ->; eauto|]. intros [b E]. congruence.
Qed.
Lemma only_file_path : forall args gargs,
  filter is_file_path (get_unnamed_args args) = [(None, Some (call (lit "file.path") gargs))] <->
  exists pre post, args = pre ++ (None, Some (call (lit "file.path") gargs)) :: post /\ forall a, In a (pre ++ post) -> ~ file_path a.
Proof.
  assert (N : forall args, filter is_file_path (get_unnamed_args args) = [] <-> forall a, In a args -> ~ file_path a).
  { induction args as [|[[n|] v] args IH].
    - cbn. split; [intros _ a []|reflexivity].
    - change (get_unnamed_args ((Some n, v) :: args)) with (get_unnamed_args args). rewrite IH. split; intros H a.
      + intros [<-|E]; [intros [? F]; discriminate F|exact (H a E)].
      + intro E. exact (H a (or_intror E)).
    - change (get_unnamed_args ((None, v) :: args)) with ((@None text, v) :: get_unnamed_args args). cbn [filter].
      destruct (is_file_path (None, v)) eqn:E.
      + split; [discriminate|]. intro H. destruct (H (None, v) (or_introl eq_refl)). apply file_path_iff; auto.
      + rewrite IH. split; intros H a.
        * intros [<-|F]; [|exact (H a F)]. intro F. apply file_path_iff in F; [congruence|reflexivity].
        * intro F. exact (H a (or_intror F)). }
  intros args gargs. split.
  - induction args as [|[[n|] w] args IH]; intro H; [discriminate H| |].
    + change (filter is_file_path (get_unnamed_args args) = [(None, Some (call (lit "file.path") gargs))]) in H.
      destruct (IH H) as (pre & post & -> & K). exists ((Some n, w) :: pre), post. split; [reflexivity|].
      intros a [<-|E]; [intros [? F]; discriminate F|exact (K a E)].
    + change (get_unnamed_args ((None, w) :: args)) with ((@None text, w) :: get_unnamed_args args) in H. cbn [filter] in H.
      destruct (is_file_path (None, w)) eqn:E.
      * assert (H1 := f_equal (hd (None, None)) H). assert (H2 := f_equal (@tl arg) H). cbn [hd tl] in H1, H2.
        exists [], args. split; [rewrite H1; reflexivity|]. apply N, H2.
      * destruct (IH H) as (pre & post & -> & K). exists ((None, w) :: pre), post. split; [reflexivity|].
        intros a [<-|F]; [|exact (K a F)]. intro F. apply file_path_iff in F; [congruence|reflexivity].
  - intros (pre & post & -> & K).
    assert (K1 : filter is_file_path (get_unnamed_args pre) = []) by (apply N; intros a Ha; apply K, in_or_app; auto).
    assert (K2 : filter is_file_path (get_unnamed_args post) = []) by (apply N; intros a Ha; apply K, in_or_app; auto).
    assert (Q : forall a b, filter is_file_path (get_unnamed_args (a ++ b)) = filter is_file_path (get_unnamed_args a) ++ filter is_file_path (get_unnamed_args b)) by (intros; unfold get_unnamed_args; rewrite filter_app; apply filter_app).
    rewrite Q, K1. change (filter is_file_path ((None, Some (call (lit "file.path") gargs)) :: get_unnamed_args post) = [(None, Some (call (lit "file.path") gargs))]).
    cbn [filter]. replace (is_file_path (None, Some (call (lit "file.path") gargs))) with true by reflexivity. rewrite K2. reflexivity.
Qed.
Lemma system_file_flags : forall fs e, some (system_file fs e) <-> flags_system_file fs e.
Proof.
  intros fs e. unfold flags_system_file. destruct e as [ | | | |f args| | | | | | | | ]; try (not_call).
  assert (K : (exists a pre gargs post, calls (lit "system.file") (ECall f args) a /\
     a = pre ++ (None, Some (call (lit "file.path") gargs)) :: post /\ (forall b, In b (pre ++ post) -> ~ file_path b) /\
     exists n v, In (n, Some v) gargs) <->
     teqb (get_function_name f) (lit "system.file") = true /\
     exists gargs, filter is_file_path (get_unnamed_args args) = [(None, Some (call (lit "file.path") gargs))] /\ exists n v, In (n, Some v) gargs).
  { rewrite (named_is f (lit "system.file")) by nn. split.
    - intros (a & pre & gargs & post & H & E & N & X). apply calls_iff in H. destruct H as [-> H]. split; [exact H|].
      exists gargs. split; [apply only_file_path; eauto|exact X].
    - intros (H & gargs & P & X). apply only_file_path in P. destruct P as (pre & post & E & N).
      exists args, pre, gargs, post. split; [apply calls_iff; auto|auto]. }
  rewrite K. clear K. cbn [system_file]. destruct (teqb (get_function_name f) (lit "system.file")); [|name_off].
  rewrite true_and.
  destruct (filter is_file_path (get_unnamed_args args)) as [|[n v] [|b l]] eqn:E;
    try (apply some_no_iff; intros (? & H & _); discriminate H).
  2:{ assert (Q : some (match v with Some (ECall _ _) => @None report | _ => None end) <->
        exists gargs, (n, v) :: b :: l = [(None, Some (call (lit "file.path") gargs))] /\ exists n v, In (n, Some v) gargs).
      { destruct v as [v|]; [destruct v|]; apply some_no_iff; intros (? & H & _); discriminate H. }
      destruct v as [v|]; [destruct v|]; exact Q. }
  assert (Hn : In (n, v) (filter is_file_path (get_unnamed_args args))) by (rewrite E; left; reflexivity).
  apply filter_In in Hn. destruct Hn as [Hn Hp]. apply unnamed_none in Hn. cbn in Hn. subst n.
  apply file_path_iff in Hp; [|reflexivity]. destruct Hp as [gargs Hg].
  assert (v = Some (call (lit "file.path") gargs)) as -> by congruence.
  unfold call at 1.
  destruct (filter (fun a : arg => match snd a with Some _ => true | None => false end) gargs) as [|a l] eqn:G.
  - apply some_no_iff. intros (g & H & n & w & Hin). assert (H1 := f_equal (fun x => match x with (_, Some (ECall _ y)) :: _ => y | _ => [] end) H).
    cbn in H1. subst g. assert (In (n, Some w) (filter (fun a : arg => match snd a with Some _ => true | None => false end) gargs))
      by (apply filter_In; auto). rewrite G in H0. destruct H0.
  - apply some_yes_iff. exists gargs. split; [reflexivity|].
    assert (In a (filter (fun a : arg => match snd a with Some _ => true | None => false end) gargs)) by (rewrite G; left; reflexivity).
    apply filter_In in H. destruct H as [Hin Ha]. destruct a as [n [w|]]; [eauto|discriminate Ha].
Qed.
Lemma outer_negation_flags : forall fs e, some (outer_negation fs e) <-> flags_outer_negation fs e.
Proof.
  intros fs e. unfold flags_outer_negation, outer_negation. rewrite <- is_negated_iff.
  destruct (parent_is_bang_unary fs); [apply some_no_iff; intros [H _]; congruence|].
  unfold call.
  destruct e as [ | | | |f args| | | | | | | | ]; try (apply some_no_iff; intros (_ & ? & ? & ? & ? & _ & E & _); discriminate E).
  destruct f as [a| | | | | | | | | | | | ]; try (apply some_no_iff; intros (_ & ? & ? & ? & ? & _ & E & _); discriminate E).
  destruct a as [f| | | | | | | | ]; try (apply some_no_iff; intros (_ & ? & ? & ? & ? & _ & E & _); discriminate E).
  destruct args as [|[m [v|]] [|b args]]; try (apply some_no_iff; intros (_ & ? & ? & ? & ? & _ & E & _); discriminate E).
  2:{ destruct v; apply some_no_iff; intros (_ & ? & ? & ? & ? & _ & E & _); discriminate E. }
  destruct v as [ | |u x| | | | | | | | | | ]; try (apply some_no_iff; intros (_ & ? & ? & ? & ? & _ & E & _); discriminate E).
  destruct (teqb f (lit "all") || teqb f (lit "any")) eqn:E.
  - rewrite Bool.orb_true_iff, !teqb_eq in E.
    assert (K : (false <> true /\ exists n m0 u0 x0, (n = lit "all" \/ n = lit "any") /\
      ECall (EAtom (AId f)) [(m, Some (EUn u x))] = ECall (EAtom (AId n)) [(m0, Some (EUn u0 x0))] /\
      match x0 with EUn _ _ => False | _ => True end) <-> match x with EUn _ _ => False | _ => True end).
    { split.
      - intros (_ & n & m0 & u0 & x0 & _ & F & H). injection F as _ _ _ ->. exact H.
      - intro H. split; [discriminate|]. exists f, m, u, x. auto. }
    etransitivity; [|symmetry; exact K]. destruct x; first [apply some_yes_iff; exact Logic.I | apply some_no_iff; intros []].
  - apply some_no_iff. intros (_ & n & m0 & u0 & x0 & H & F & _). injection F as -> _ _ _.
    rewrite Bool.orb_false_iff, !teqb_neq in E. destruct E, H; auto.
Qed.
