(** Patterns, implicit assignments, expect_match: exactly what is reported. *)
From Verif Require Import Spec.RFlagged Proofs.TextProofs Proofs.RulesProofs Proofs.RStopsProofs Proofs.LintConstant Proofs.RFlaggedProofs
  Proofs.RFlaggedCompare Proofs.RFlaggedCalls Proofs.RFlaggedMore Proofs.RFlaggedTestthat Proofs.RSearchProofs.

(** ** Patterns *)
Definition table : list (text * (nat * nat)) :=
  [ (lit "grep", (6, 3)); (lit "gsub", (6, 4)); (lit "sub", (6, 4)); (lit "grepl", (5, 3));
    (lit "regexpr", (5, 3)); (lit "gregexpr", (5, 3)); (lit "regexec", (5, 3)) ].
Lemma table_iff : forall f p q, fixed_position (get_function_name f) = Some p /\ ignore_case_position (get_function_name f) = q <->
  exists n, In (n, (p, q)) table /\ function_name f n.
Proof.
  intros f p q. split.
  - intros [H1 H2]. exists (get_function_name f).
    assert (N : In (get_function_name f) (map fst table)).
    { unfold fixed_position in H1.
      destruct (mem (get_function_name f) [lit "grep"; lit "gsub"; lit "sub"]) eqn:E1;
        [|destruct (mem (get_function_name f) [lit "regexpr"; lit "gregexpr"; lit "regexec"; lit "grepl"]) eqn:E2; [|discriminate H1]].
      - apply mem_iff in E1. cbn [map fst table]. cbn [In] in E1 |- *. tauto.
      - apply mem_iff in E2. cbn [map fst table]. cbn [In] in E2 |- *. tauto. }
    assert (NE : get_function_name f <> []).
    { intro E. rewrite E in N. revert N. cbn [map fst table]. nl. }
    split; [|apply function_name_iff; [exact NE|reflexivity]]. clear NE.
    revert N H1 H2. generalize (get_function_name f). intros n N H1 H2. unfold table in *. cbn [map fst In] in N.
    repeat (destruct N as [N|N]; [rewrite <- N in *; vm_compute in H1; vm_compute in H2; injection H1 as <-; subst q; cbn [In]; tauto|]). destruct N.
  - intros (n & H & Hf).
    assert (NE : n <> []).
    { intros ->. unfold table in H. cbn [In] in H. repeat (destruct H as [H|H]; [discriminate H|]). destruct H. }
    apply function_name_iff in Hf; [|exact NE]. rewrite Hf. clear Hf NE. unfold table in H. cbn [In] in H.
    repeat (destruct H as [H|H]; [assert (H1 := f_equal fst H); assert (H2 := f_equal (fun x => fst (snd x)) H); assert (H3 := f_equal (fun x => snd (snd x)) H);
       cbn [fst snd] in H1, H2, H3; rewrite <- H1, <- H2, <- H3; split; reflexivity|]). destruct H.
Qed.
Lemma quote_iff : forall c, ceqb c 34%N || ceqb c 39%N = true <-> quote_char c.
Proof. intro c. unfold quote_char, ceqb. rewrite Bool.orb_true_iff, !N.eqb_eq. reflexivity. Qed.
Lemma drop_quotes_spec : forall t, exists a, t = a ++ drop_quotes t /\ Forall quote_char a /\
  forall c r, drop_quotes t = c :: r -> ~ quote_char c.
Proof.
  induction t as [|c t (a & E & Q & H)].
  - exists []. split; [reflexivity|]. split; [constructor|]. intros c r F. discriminate F.
  - cbn [drop_quotes]. destruct (ceqb c 34%N || ceqb c 39%N) eqn:Hc.
    + exists (c :: a). split; [cbn [app]; congruence|]. split; [constructor; [apply quote_iff, Hc|exact Q]|exact H].
    + exists []. split; [reflexivity|]. split; [constructor|]. intros d r F. injection F as <- _. intro K. apply quote_iff in K. congruence.
Qed.
Lemma drop_quotes_app : forall a t, Forall quote_char a -> drop_quotes (a ++ t) = drop_quotes t.
Proof.
  intros a t H. induction H as [|c a Hc H IH]; [reflexivity|]. cbn [app drop_quotes]. apply quote_iff in Hc. rewrite Hc. exact IH.
Qed.
Lemma drop_quotes_keep : forall c t, ~ quote_char c -> drop_quotes (c :: t) = c :: t.
Proof.
  intros c t H. cbn [drop_quotes]. destruct (ceqb c 34%N || ceqb c 39%N) eqn:E; [apply quote_iff in E; destruct (H E)|reflexivity].
Qed.
Lemma between_iff : forall t w, between_quotes t w <-> trim_quotes t = w.
Proof.
  assert (S : forall t, between_quotes t (trim_quotes t)).
  { intro t. destruct (drop_quotes_spec t) as (a & E & Q & H).
    destruct (drop_quotes_spec (rev (drop_quotes t))) as (b & E2 & Q2 & H2).
    exists a, (rev b). unfold trim_quotes. split.
    - rewrite <- rev_app_distr, <- E2, rev_involutive. exact E.
    - split; [exact Q|]. split; [apply Forall_rev, Q2|]. split.
      + intros c r F. apply (H c (r ++ rev b)).
        assert (K : drop_quotes t = rev (drop_quotes (rev (drop_quotes t))) ++ rev b)
          by (rewrite <- rev_app_distr, <- E2, rev_involutive; reflexivity).
        rewrite F in K. exact K.
      + intros c r F. apply (H2 c (rev r)). apply (f_equal (@rev char)) in F. rewrite rev_involutive, rev_app_distr in F. exact F. }
  intros t w. split; [|intros <-; apply S].
  intros (a & b & -> & Qa & Qb & Hf & Hl). unfold trim_quotes. rewrite drop_quotes_app by exact Qa.
  destruct w as [|c w].
  - cbn [app]. rewrite <- (app_nil_r b), drop_quotes_app by exact Qb. reflexivity.
  - cbn [app]. rewrite drop_quotes_keep by (apply (Hf c w); reflexivity). change (c :: w ++ b) with ((c :: w) ++ b).
    rewrite rev_app_distr, drop_quotes_app by (apply Forall_rev, Qb).
    assert (N : c :: w <> []) by discriminate. destruct (exists_last N) as (w' & z & E). rewrite E in *.
    rewrite rev_app_distr. cbn [rev app]. rewrite drop_quotes_keep by (apply (Hl z w'); reflexivity).
    change (z :: rev w') with ([z] ++ rev w'). rewrite rev_app_distr, rev_involutive. reflexivity.
Qed.
Lemma fixed_pattern_iff : forall w, is_fixed_pattern w = true <-> forall c, In c w -> ~ In c special_chars.
Proof.
  intro w. unfold is_fixed_pattern. rewrite forallb_forall. change regex_chars with special_chars. split; intros H c Hc.
  - specialize (H c Hc). apply Bool.negb_true_iff in H. intro K.
    assert (existsb (ceqb c) special_chars = true) by (apply existsb_exists; exists c; split; [exact K|apply N.eqb_refl]). congruence.
  - apply Bool.negb_true_iff. destruct (existsb (ceqb c) special_chars) eqn:E; [|reflexivity]. exfalso.
    apply existsb_exists in E. destruct E as (d & Hd & E). apply N.eqb_eq in E. subst d. exact (H c Hc Hd).
Qed.
Lemma is_true_iff : forall o, is_true o = true <-> o = Some (EAtom ATrue).
Proof. intros [e|]; [|split; discriminate]. destruct e as [a| | | | | | | | | | | | ]; try (split; discriminate). destruct a; split; try discriminate; reflexivity. Qed.
Lemma is_false_iff : forall o, is_false o = true <-> o = Some (EAtom AFalse).
Proof. intros [e|]; [|split; discriminate]. destruct e as [a| | | | | | | | | | | | ]; try (split; discriminate). destruct a; split; try discriminate; reflexivity. Qed.
Lemma drop_some : forall args n p, 0 < p -> (some (drop_arg_by_name_or_position args n p) <->
  p <= length args \/ exists v, In (Some n, v) args).
Proof.
  intros args n p Hp. unfold drop_arg_by_name_or_position.
  assert (X : existsb (has_name n) args = true <-> exists v, In (Some n, v) args).
  { rewrite existsb_exists. split.
    - intros ([m v] & Hin & H). apply has_name_iff in H. cbn in H. subst m. eauto.
    - intros [v H]. exists (Some n, v). split; [exact H|apply has_name_iff; reflexivity]. }
  destruct (existsb (has_name n) args).
  - apply some_yes_iff. right. apply X. reflexivity.
  - destruct (length (firstn (p - 1) args ++ skipn p args) =? length args) eqn:E.
    + apply Nat.eqb_eq in E. rewrite app_length, firstn_length, skipn_length in E.
      apply some_no_iff. intros [H|H]; [unfold arg in *; lia|]. apply X in H. discriminate H.
    + apply Nat.eqb_neq in E. rewrite app_length, firstn_length, skipn_length in E.
      apply some_yes_iff. left. unfold arg in *. lia.
Qed.
Lemma fixed_regex_flags : forall fs e, some (fixed_regex fs e) <-> flags_fixed_regex fs e.
Proof.
  intros fs e. unfold flags_fixed_regex. fold table.
  destruct e as [ | | | |f args| | | | | | | | ]; try (apply some_no_iff; intros (? & ? & ? & ? & ? & ? & _ & (? & F & _) & _); discriminate F).
  set (V := fun n k => arg_value (get_arg_by_name_then_position args n k)).
  match goal with |- _ <-> ?G => assert (K : G <-> exists p, fixed_position (get_function_name f) = Some p /\
    exists t, V (lit "pattern") 1 = Some (EAtom (AStr t)) /\ is_fixed_pattern (trim_quotes t) = true /\
    is_true (V (lit "fixed") p) = false /\ is_true (V (lit "ignore.case") (ignore_case_position (get_function_name f))) = false /\
    (is_false (V (lit "fixed") p) = true -> some (drop_arg_by_name_or_position args (lit "fixed") p))) end.
  { assert (F : forall n k, ~ given args n k (EAtom ATrue) <-> is_true (V n k) = false).
    { intros n k. rewrite given_iff. fold (V n k). rewrite <- is_true_iff. destruct (is_true (V n k)); intuition congruence. }
    assert (F2 : forall n k, given args n k (EAtom AFalse) <-> is_false (V n k) = true).
    { intros n k. rewrite given_iff. fold (V n k). rewrite <- is_false_iff. reflexivity. }
    assert (PP : forall n p q, In (n, (p, q)) table -> 0 < p).
    { intros n p q H. unfold table in H. cbn [In] in H.
      repeat (destruct H as [H|H]; [assert (H2 := f_equal (fun x => fst (snd x)) H); cbn [fst snd] in H2; lia|]). destruct H. }
    split.
    - intros (n & p & q & a & t & w & Hin & H & P & W & S & N1 & N2 & D). apply calls_iff in H. destruct H as [-> H].
      pose proof (PP _ _ _ Hin) as Pp.
      destruct (proj2 (table_iff f p q) (ex_intro _ n (conj Hin H))) as [E1 E2]. exists p. split; [exact E1|]. exists t.
      split; [apply given_iff in P; exact P|]. apply between_iff in W. rewrite W. split; [apply fixed_pattern_iff, S|].
      rewrite E2. split; [apply F, N1|]. split; [apply F, N2|]. intro G. apply drop_some; [exact Pp|]. apply D, F2, G.
    - intros (p & E1 & t & P & S & N1 & N2 & D).
      destruct (proj1 (table_iff f p _) (conj E1 eq_refl)) as (n & Hin & H). pose proof (PP _ _ _ Hin) as Pp.
      exists n, p, (ignore_case_position (get_function_name f)), args, t, (trim_quotes t). split; [exact Hin|].
      split; [apply calls_iff; auto|]. split; [apply given_iff; exact P|]. split; [apply between_iff; reflexivity|].
      split; [apply fixed_pattern_iff, S|]. split; [apply F, N1|]. split; [apply F, N2|]. intro G. apply drop_some; [exact Pp|]. apply D, F2, G. }
  etransitivity; [|symmetry; exact K]. clear K. cbn [fixed_regex].
  destruct (fixed_position (get_function_name f)) as [p|]; [|apply some_no_iff; intros (? & F & _); discriminate F].
  match goal with |- _ <-> ?G => assert (K : G <-> exists t, V (lit "pattern") 1 = Some (EAtom (AStr t)) /\ is_fixed_pattern (trim_quotes t) = true /\
    is_true (V (lit "fixed") p) = false /\ is_true (V (lit "ignore.case") (ignore_case_position (get_function_name f))) = false /\
    (is_false (V (lit "fixed") p) = true -> some (drop_arg_by_name_or_position args (lit "fixed") p))) end.
  { split; [intros (p' & E & H); injection E as <-; exact H|eauto]. }
  rewrite K. clear K. unfold V. clear V.
  destruct (is_true (arg_value (get_arg_by_name_then_position args (lit "fixed") p))).
  { apply some_no_iff. intros (? & _ & _ & F & _). discriminate F. }
  destruct (is_true (arg_value (get_arg_by_name_then_position args (lit "ignore.case") (ignore_case_position (get_function_name f))))).
  { apply some_no_iff. intros (? & _ & _ & _ & F & _). discriminate F. }
  destruct (arg_value (get_arg_by_name_then_position args (lit "pattern") 1)) as [v|]; [|apply some_no_iff; intros (? & F & _); discriminate F].
  destruct v as [a| | | | | | | | | | | | ]; try (apply some_no_iff; intros (? & F & _); discriminate F).
  destruct a; try (apply some_no_iff; intros (? & F & _); discriminate F).
  destruct (is_fixed_pattern (trim_quotes t)) eqn:P.
  2:{ apply some_no_iff. intros (u & E & F & _). injection E as ->. congruence. }
  destruct (is_false (arg_value (get_arg_by_name_then_position args (lit "fixed") p))).
  - destruct (drop_arg_by_name_or_position args (lit "fixed") p) as [l|].
    + apply some_yes_iff. exists t. split; [reflexivity|]. split; [exact P|]. split; [reflexivity|]. split; [reflexivity|]. intros _. apply some_yes.
    + apply some_no_iff. intros (? & _ & _ & _ & _ & F). destruct (some_no (F eq_refl)).
  - apply some_yes_iff. exists t. split; [reflexivity|]. split; [exact P|]. split; [reflexivity|]. split; [reflexivity|]. discriminate.
Qed.

(** ** Implicit assignments *)
Lemma before_braces_iff : forall (k : frame -> bool) (K : frame -> Prop) fs,
  (forall f, k f = true <-> K f) -> (forall a b, ~ K (FBraces a b)) ->
  (before_braces k fs = true <-> unblocked K fs).
Proof.
  intros k K fs Hk Hb. unfold unblocked. induction fs as [|f fs IH]; cbn [before_braces].
  - split; [discriminate|]. intros (pre & f & post & E & _). destruct pre; discriminate E.
  - destruct (in_braces f) eqn:Bf.
    + split; [discriminate|]. intros (pre & g & post & E & HK & N). destruct f; try discriminate Bf. destruct pre as [|p pre].
      * injection E as <- _. destruct (Hb _ _ HK).
      * injection E as <- _. destruct (N _ _ (or_introl eq_refl)).
    + destruct (k f) eqn:Kf.
      * split; [|reflexivity]. intros _. exists [], f, fs. split; [reflexivity|]. split; [apply Hk, Kf|intros a b []].
      * rewrite IH. split.
        -- intros (pre & g & post & -> & HK & N). exists (f :: pre), g, post. split; [reflexivity|]. split; [exact HK|].
           intros a b [->|H]; [discriminate Bf|exact (N a b H)].
        -- intros (pre & g & post & E & HK & N). destruct pre as [|p pre].
           ++ injection E as <- ->. apply Hk in HK. congruence.
           ++ injection E as <- ->. exists pre, g, post. split; [reflexivity|]. split; [exact HK|]. intros a b H. exact (N a b (or_intror H)).
Qed.
Lemma closest_call_iff : forall fs e n, closest_call e fs = Some n <-> exists g, called_around fs e g /\ get_function_name g = n.
Proof.
  unfold called_around. induction fs as [|f fs IH]; intros e n.
  - split; [discriminate|]. intros (g & (pre & h & post & E & _) & _). destruct pre; discriminate E.
  - destruct f as [ |u|o nl r|o nl l|args|g0 a m b|d args|d x a m b|o x|t el|c el|c t|pp pn pq pb|ps|v b|v q|b|c| |a b];
      cbn [closest_call]; rewrite ?IH;
      try (split;
        [intros (g & (pre & h & post & -> & N & H) & E); exists g; split; [|exact E];
         eexists (_ :: pre), h, post; split; [reflexivity|]; split; [intros x0 [<-|Hx]; [exact Logic.I|exact (N x0 Hx)]|exact H]
        |intros (g & (pre & h & post & E0 & N & H) & E); exists g; split; [|exact E];
         destruct pre as [|p pre];
         [injection E0 as <- <-; destruct H as [(? & F & _)|(? & ? & ? & F)]; discriminate F
         |injection E0 as <- ->; exists pre, h, post; split; [reflexivity|]; split; [intros x0 Hx; exact (N x0 (or_intror Hx))|exact H]]]).
    + split.
      * intro E. injection E as <-. exists e. split; [|reflexivity]. exists [], (FCallF args), fs. split; [reflexivity|].
        split; [intros x []|]. left. exists args. auto.
      * intros (g & (pre & h & post & E0 & N & H) & E). destruct pre as [|p pre].
        -- injection E0 as <- <-. destruct H as [(a & F & ->)|(? & ? & ? & F)]; [|discriminate F]. cbn [plug] in E. congruence.
        -- injection E0 as <- ->. destruct (N _ (or_introl eq_refl)).
    + split.
      * intro E. injection E as <-. exists g0. split; [|reflexivity]. exists [], (FCallA g0 a m b), fs. split; [reflexivity|].
        split; [intros x []|]. right. eauto.
      * intros (g & (pre & h & post & E0 & N & H) & E). destruct pre as [|p pre].
        -- injection E0 as <- <-. destruct H as [(? & F & _)|(? & ? & ? & F)]; [discriminate F|]. injection F as -> _ _ _. congruence.
        -- injection E0 as <- ->. destruct (N _ (or_introl eq_refl)).
Qed.
Lemma arrow_op_iff : forall o, arrow_op o = true <-> In o [BAssign (lit "<-"); BAssign (lit "<<-"); BRAssign (lit "->"); BRAssign (lit "->>")].
Proof.
  intro o. destruct o; try (split; [discriminate|intros [H|[H|[H|[H|[]]]]]; discriminate H]); cbn [arrow_op];
    rewrite Bool.orb_true_iff, !teqb_eq; split.
  - intros [ -> | -> ]; cbn; auto.
  - intros [H|[H|[H|[H|[]]]]]; try discriminate H; injection H as <-; auto.
  - intros [ -> | -> ]; cbn; auto.
  - intros [H|[H|[H|[H|[]]]]]; try discriminate H; injection H as <-; auto.
Qed.
Lemma direct_iff : forall (k : frame -> bool) (K : frame -> Prop) fs, (forall f, k f = true <-> K f) ->
  (match fs with f :: _ => k f | [] => false end = true <-> body_of K fs).
Proof.
  intros k K [|f fs] H; unfold body_of.
  - split; [discriminate|]. intros (? & ? & E & _). discriminate E.
  - rewrite H. split; [eauto|]. intros (g & fs' & E & G). injection E as -> _. exact G.
Qed.
Lemma implicit_assignment_flags : forall skipped fs e,
  some (implicit_assignment skipped fs e) <-> flags_implicit_assignment skipped fs e.
Proof.
  intros skipped fs e. unfold flags_implicit_assignment.
  destruct e as [ | | |o nl l r| | | | | | | | | ]; try (apply some_no_iff; intros [(? & ? & ? & ? & F & _) _]; discriminate F).
  assert (KO : (exists o' nl' l' r', EBin o nl l r = EBin o' nl' l' r' /\
     In o' [BAssign (lit "<-"); BAssign (lit "<<-"); BRAssign (lit "->"); BRAssign (lit "->>")]) <-> arrow_op o = true).
  { rewrite arrow_op_iff. split; [intros (o' & nl' & l' & r' & E & H); injection E as -> _ _ _; exact H|intro H; exists o, nl, l, r; auto]. }
  rewrite KO. clear KO. cbn [implicit_assignment]. destruct (arrow_op o); cbn [negb]; [|name_off].
  rewrite true_and.
  assert (A : unblocked argument_frame fs <-> before_braces is_argument fs = true).
  { symmetry. apply before_braces_iff; [|intros ? ? []]. intro f. destruct f; split; try discriminate; try (intros []); reflexivity. }
  assert (I1 : unblocked if_frame fs <-> before_braces in_if fs = true).
  { symmetry. apply before_braces_iff; [|intros ? ? []]. intro f. destruct f; split; try discriminate; try (intros []); reflexivity. }
  assert (I2 : unblocked while_frame fs <-> before_braces in_while fs = true).
  { symmetry. apply before_braces_iff; [|intros ? ? []]. intro f. destruct f; split; try discriminate; try (intros []); reflexivity. }
  assert (I3 : unblocked for_frame fs <-> before_braces in_for fs = true).
  { symmetry. apply before_braces_iff; [|intros ? ? []]. intro f. destruct f; split; try discriminate; try (intros []); reflexivity. }
  rewrite A, I1, I2, I3. clear A I1 I2 I3.
  assert (D1 : forall k K, (forall f, k f = true <-> K f) -> (~ body_of K fs <-> match fs with f :: _ => k f | [] => false end = false)).
  { intros k K H. rewrite <- (direct_iff k K fs H). destruct (match fs with f :: _ => k f | [] => false end); intuition congruence. }
  rewrite (D1 (fun f => match f with FIfT _ _ | FIfE _ _ => true | _ => false end)) by (intro f; destruct f; split; try discriminate; try (intros []); reflexivity).
  rewrite (D1 (fun f => match f with FWhileB _ => true | _ => false end)) by (intro f; destruct f; split; try discriminate; try (intros []); reflexivity).
  rewrite (D1 (fun f => match f with FForB _ _ => true | _ => false end)) by (intro f; destruct f; split; try discriminate; try (intros []); reflexivity).
  clear D1.
  assert (C : (exists g, called_around fs (EBin o nl l r) g /\ named_among skipped g) <->
    match closest_call (EBin o nl l r) fs with Some n => mem n skipped | None => false end = true).
  { destruct (closest_call (EBin o nl l r) fs) as [n|] eqn:E.
    - split.
      + intros (g & G & H). assert (closest_call (EBin o nl l r) fs = Some (get_function_name g)) by (apply closest_call_iff; eauto).
        replace n with (get_function_name g) by congruence. apply named_among_iff, H.
      + intro H. apply closest_call_iff in E. destruct E as (g & G & <-). exists g. split; [exact G|apply named_among_iff, H].
    - split; [|discriminate]. intros (g & G & _). assert (closest_call (EBin o nl l r) fs = Some (get_function_name g)) by (apply closest_call_iff; eauto).
      congruence. }
  rewrite C. clear C.
  destruct (before_braces is_argument fs), (match closest_call (EBin o nl l r) fs with Some n => mem n skipped | None => false end),
    (before_braces in_if fs), (before_braces in_while fs), (before_braces in_for fs); cbn [andb];
    match goal with |- context [negb (negb ?a && _)] => destruct a | _ => idtac end.
  all: destruct (match fs with f :: _ => match f with FIfT _ _ | FIfE _ _ => true | _ => false end | [] => false end),
    (match fs with f :: _ => match f with FWhileB _ => true | _ => false end | [] => false end),
    (match fs with f :: _ => match f with FForB _ _ => true | _ => false end | [] => false end); cbn [andb negb].
  all: first [apply some_yes_iff; intuition congruence | apply some_no_iff; intuition congruence].
Qed.

(** ** expect_match() *)
Lemma index_of_spec : forall k args i, match index_of k i args with Some j => i <= j /\ nth_error args (j - i) = find k args | None => find k args = None end.
Proof.
  induction args as [|a args IH]; intro i; cbn [index_of find]; [reflexivity|].
  destruct (k a).
  - split; [lia|]. rewrite Nat.sub_diag. reflexivity.
  - specialize (IH (S i)). destruct (index_of k (S i) args) as [j|]; [|exact IH]. destruct IH as [L E]. split; [lia|].
    replace (j - i) with (S (j - S i)) by lia. exact E.
Qed.
Lemma index_unnamed_spec : forall args p i, match index_unnamed p i args with
  | Some j => i <= j /\ nth_error args (j - i) = nth_error (get_unnamed_args args) p
  | None => nth_error (get_unnamed_args args) p = None end.
Proof.
  induction args as [|[[n|] v] args IH]; intros p i; cbn [index_unnamed is_unnamed fst].
  - destruct p; reflexivity.
  - change (get_unnamed_args ((Some n, v) :: args)) with (get_unnamed_args args).
    specialize (IH p (S i)). destruct (index_unnamed p (S i) args) as [j|]; [|exact IH]. destruct IH as [L E]. split; [lia|].
    replace (j - i) with (S (j - S i)) by lia. exact E.
  - change (get_unnamed_args ((None, v) :: args)) with ((@None text, v) :: get_unnamed_args args). destruct p as [|p].
    + split; [lia|]. rewrite Nat.sub_diag. reflexivity.
    + specialize (IH p (S i)). cbn [nth_error]. destruct (index_unnamed p (S i) args) as [j|]; [|exact IH]. destruct IH as [L E]. split; [lia|].
      replace (j - i) with (S (j - S i)) by lia. exact E.
Qed.
Lemma index_found : forall k args i j, index_of k i args = Some j -> exists a, find k args = Some a.
Proof.
  intros k args. induction args as [|a args IH]; intros i j H; [discriminate H|]. cbn [find index_of] in *. destruct (k a); eauto.
Qed.
Lemma arg_index_iff : forall args n k v, given args n k v <-> exists i, arg_index args n k = Some i /\ arg_value (nth_error args i) = Some v.
Proof.
  intros args n k v. rewrite given_iff. unfold get_arg_by_name_then_position, get_arg_by_name, get_unnamed_arg_by_position, arg_index.
  pose proof (index_of_spec (has_name n) args 0) as A. destruct (index_of (has_name n) 0 args) as [j|] eqn:J.
  - destruct A as [_ E]. rewrite Nat.sub_0_r in E. destruct (index_found _ _ _ _ J) as [a Ha]. rewrite Ha in E |- *.
    split; [intro H; exists j; rewrite E; auto|]. intros (i & Ei & H). injection Ei as <-. rewrite E in H. exact H.
  - rewrite A. pose proof (index_unnamed_spec args (k - 1) 0) as B. destruct (index_unnamed (k - 1) 0 args) as [j|].
    + destruct B as [_ E]. rewrite Nat.sub_0_r in E. rewrite <- E. split; [intro H; exists j; auto|]. intros (i & Ei & H). injection Ei as <-. exact H.
    + rewrite B. split; [discriminate|]. intros (i & F & _). discriminate F.
Qed.
Lemma nested_cases : forall outer inner fs f args, outer <> [] -> inner <> [] -> outer <> inner ->
  teqb (get_function_name f) outer = true ->
  (composition outer inner [] (ECall f args) /\ exists c, get_nested_functions_content fs (ECall f args) outer inner = Some (c, (fs, ECall f args))) \/
  (~ composition outer inner [] (ECall f args) /\ composition outer inner fs (ECall f args) /\
   exists nl l fs' c, fs = FBinR BPipe nl l :: fs' /\
     get_nested_functions_content fs (ECall f args) outer inner = Some (c, (fs', EBin BPipe nl l (ECall f args)))) \/
  (~ composition outer inner [] (ECall f args) /\ ~ composition outer inner fs (ECall f args) /\
   get_nested_functions_content fs (ECall f args) outer inner = None).
Proof.
  intros outer inner fs f args Ho Hi Hd E.
  pose proof (composition_iff outer inner [] (ECall f args) Ho Hi Hd) as C0.
  pose proof (composition_iff outer inner fs (ECall f args) Ho Hi Hd) as C.
  rewrite <- C0, <- C. clear C C0. unfold get_nested_functions_content. rewrite E. cbn [negb].
  destruct (nested_content args inner) as [c|].
  - left. split; [apply some_yes|eauto].
  - right. destruct fs as [|fr fs]; [right; split; [apply some_no|]; split; [apply some_no|reflexivity]|].
    destruct fr; try (right; split; [apply some_no|]; split; [apply some_no|reflexivity]).
    + assert (Q : teqb (get_function_name f) inner = false).
      { apply teqb_neq. apply teqb_eq in E. congruence. }
      destruct o; try (right; split; [apply some_no|]; split; [apply some_no|reflexivity]).
      rewrite Q. right; split; [apply some_no|]; split; [apply some_no|reflexivity].
    + destruct o; try (right; split; [apply some_no|]; split; [apply some_no|reflexivity]).
      destruct l as [ | | |o2 nl2 x c|g gargs| | | | | | | | ];
        try (right; split; [apply some_no|]; split; [apply some_no|reflexivity]).
      * destruct o2; try (right; split; [apply some_no|]; split; [apply some_no|reflexivity]).
        destruct c as [ | | | |g gargs| | | | | | | | ]; try (right; split; [apply some_no|]; split; [apply some_no|reflexivity]).
        destruct (teqb (get_function_name g) inner && negb (existsb is_unnamed gargs)).
        -- left. split; [apply some_no|]. split; [apply some_yes|]. eauto 6.
        -- right; split; [apply some_no|]; split; [apply some_no|reflexivity].
      * destruct (teqb (get_function_name g) inner).
        -- left. split; [apply some_no|]. split; [apply some_yes|]. eauto 6.
        -- right; split; [apply some_no|]; split; [apply some_no|reflexivity].
Qed.
Lemma expect_grepl_flags : forall outer new fs e, outer <> [] -> outer <> lit "grepl" ->
  (some (expect_grepl outer new fs e) <-> flags_expect_match outer fs e).
Proof.
  intros outer new fs e Ho Hg. unfold flags_expect_match. destruct e as [ | | | |f args| | | | | | | | ]; try (not_call).
  rewrite call_is by exact Ho. cbn [expect_grepl].
  destruct (teqb (get_function_name f) outer) eqn:E; cbn [negb]; [|name_off]. rewrite true_and.
  set (B := exists c gargs p x, given args (lit "object") 1 c /\ calls (lit "grepl") c gargs /\
      given gargs (lit "pattern") 1 p /\ given gargs (lit "x") 2 x).
  match goal with |- context [match arg_value ?A with Some v => @?K v | None => None end] =>
    set (rest := match arg_value A with Some v => K v | None => None end) end.
  assert (R : some rest <-> B).
  { unfold B, rest. destruct (arg_value (get_arg_by_name_then_position args (lit "object") 1)) as [c|] eqn:O.
    2:{ apply some_no_iff. intros (c & ? & ? & ? & H & _). apply given_iff in H. congruence. }
    assert (G : given args (lit "object") 1 c) by (apply given_iff; exact O).
    match goal with |- _ <-> ?Z => assert (K : Z <-> exists gargs p x, calls (lit "grepl") c gargs /\
      given gargs (lit "pattern") 1 p /\ given gargs (lit "x") 2 x) end.
    { split.
      - intros (c' & gargs & p & x & H & T). apply given_iff in H. replace c with c' by congruence. eauto.
      - intros (gargs & p & x & T). exists c, gargs, p, x. auto. }
    rewrite K. clear K. destruct c as [ | | | |g gargs| | | | | | | | ]; try (apply some_no_iff; intros (? & ? & ? & (? & F & _) & _); discriminate F).
    match goal with |- _ <-> ?Z => assert (K : Z <-> teqb (get_function_name g) (lit "grepl") = true /\
      exists p x, given gargs (lit "pattern") 1 p /\ given gargs (lit "x") 2 x) end.
    { rewrite (named_is g) by nn. split.
      - intros (a & p & x & H & T). apply calls_iff in H. destruct H as [-> H]. eauto.
      - intros (H & p & x & T). exists gargs, p, x. split; [apply calls_iff; auto|exact T]. }
    rewrite K. clear K. destruct (teqb (get_function_name g) (lit "grepl")); [|name_off]. rewrite true_and.
    match goal with |- _ <-> ?Z => assert (K : Z <-> exists i j p x, arg_index gargs (lit "pattern") 1 = Some i /\ arg_value (nth_error gargs i) = Some p /\
      arg_index gargs (lit "x") 2 = Some j /\ arg_value (nth_error gargs j) = Some x) end.
    { split.
      - intros (p & x & P & X). apply arg_index_iff in P, X. destruct P as (i & P1 & P2). destruct X as (j & X1 & X2). exists i, j, p, x. auto.
      - intros (i & j & p & x & P1 & P2 & X1 & X2). exists p, x. split; apply arg_index_iff; eauto. }
    rewrite K. clear K.
    destruct (arg_index gargs (lit "pattern") 1) as [i|]; [|apply some_no_iff; intros (? & ? & ? & ? & F & _); discriminate F].
    destruct (arg_index gargs (lit "x") 2) as [j|]; [|apply some_no_iff; intros (? & ? & ? & ? & _ & _ & F & _); discriminate F].
    destruct (arg_value (nth_error gargs j)) as [x|] eqn:X.
    2:{ apply some_no_iff. intros (? & ? & ? & ? & _ & _ & F & F'). injection F as <-. congruence. }
    destruct (arg_value (nth_error gargs i)) as [p|] eqn:P.
    2:{ apply some_no_iff. intros (? & ? & ? & ? & F & F' & _). injection F as <-. congruence. }
    assert (Z : exists i0 j0 p0 x0, Some i = Some i0 /\ arg_value (nth_error gargs i0) = Some p0 /\ Some j = Some j0 /\ arg_value (nth_error gargs j0) = Some x0)
      by (exists i, j, p, x; auto).
    destruct (1 <? length args); [apply some_yes_iff, Z|]. destruct (existsb is_unnamed (drop_indices i j 0 gargs)); apply some_yes_iff, Z. }
  clearbody rest.
  destruct (nested_cases outer (lit "grepl") fs f args Ho ltac:(nn) Hg E) as [[C0 (c & G)]|[(C0 & C & nl & l & fs' & c & Ef & G)|(C0 & C & G)]]; rewrite G.
  - rewrite R. split.
    + intro H. right. split; [left; exact C0|exact H].
    + intros [(? & ? & ? & _ & _ & F & _)|[_ H]]; [destruct (F C0)|exact H].
  - assert (Z : forall P : Prop, (exists nl' l' fs'', fs = FBinR BPipe nl' l' :: fs'' /\ composition outer (lit "grepl") fs (ECall f args) /\
        ~ composition outer (lit "grepl") [] (ECall f args) /\ (forall g, fs'' <> FUn UNot :: g)) \/
      (composition outer (lit "grepl") [] (ECall f args) \/ ~ composition outer (lit "grepl") fs (ECall f args)) /\ P <->
      forall g, fs' <> FUn UNot :: g).
    { intro P. split.
      - intros [(nl' & l' & fs'' & E' & _ & _ & H)|[[H|H] _]]; [|destruct (C0 H)|destruct (H C)].
        rewrite Ef in E'. injection E' as _ _ <-. exact H.
      - intro H. left. exists nl, l, fs'. auto. }
    rewrite (Z B). clear Z.
    destruct fs' as [|g fs']; [apply some_yes_iff; discriminate|].
    destruct g; try (apply some_yes_iff; discriminate). destruct u; try (apply some_yes_iff; discriminate).
    apply some_no_iff. intro H. exact (H _ eq_refl).
  - rewrite R. split.
    + intro H. right. split; [right; exact C|exact H].
    + intros [(? & ? & ? & _ & F & _)|[_ H]]; [destruct (C F)|exact H].
Qed.
Lemma expect_match_flags : forall fs e, some (expect_match fs e) <-> flags_expect_match (lit "expect_true") fs e.
Proof. intros. apply expect_grepl_flags; nn. Qed.
Lemma expect_no_match_flags : forall fs e, some (expect_no_match fs e) <-> flags_expect_match (lit "expect_false") fs e.
Proof. intros. apply expect_grepl_flags; nn. Qed.
