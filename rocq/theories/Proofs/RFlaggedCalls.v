(** Rules on calls: exactly what they report. *)
From Verif Require Import Spec.RFlagged Proofs.TextProofs Proofs.RulesProofs Proofs.RStopsProofs Proofs.LintConstant Proofs.RFlaggedProofs
  Proofs.RFlaggedCompare.

(** ** Compositions *)
Lemma first_unnamed : forall args c, (exists n, find is_unnamed args = Some (n, Some c)) <->
  exists pre post, args = pre ++ (None, Some c) :: post /\ forall v, ~ In (None, v) pre.
Proof.
  assert (N : forall args, find is_unnamed args = None <-> forall v, ~ In (None, v) args).
  { induction args as [|[n v] args IH]; cbn [find].
    - split; [intros _ v []|reflexivity].
    - destruct n as [n|]; cbn [is_unnamed fst].
      + rewrite IH. split; intros H w; [intros [E|E]; [discriminate E|exact (H w E)]|intro E; exact (H w (or_intror E))].
      + split; [discriminate|]. intro H. destruct (H v (or_introl eq_refl)). }
  intros args c. split.
  - intros [n H]. apply find_first in H. destruct H as (pre & post & -> & Hu & Hp).
    destruct n as [n|]; [discriminate Hu|]. exists pre, post. split; [reflexivity|]. apply N, Hp.
  - intros (pre & post & -> & Hp). exists None. apply find_first. exists pre, post. split; [reflexivity|].
    split; [reflexivity|]. apply N, Hp.
Qed.
Lemma nested_iff : forall args inner, inner <> [] ->
  (some (nested_content args inner) <->
   exists pre c post, args = pre ++ (None, Some c) :: post /\ (forall v, ~ In (None, v) pre) /\ is_call_of inner c).
Proof.
  intros args inner Hi.
  assert (K : (exists pre c post, args = pre ++ (None, Some c) :: post /\ (forall v, ~ In (None, v) pre) /\ is_call_of inner c) <->
    exists c, (exists n, find is_unnamed args = Some (n, Some c)) /\ is_call_of inner c).
  { split.
    - intros (pre & c & post & E & H & Hc). exists c. split; [apply first_unnamed; eauto|exact Hc].
    - intros (c & Hf & Hc). apply first_unnamed in Hf. destruct Hf as (pre & post & E & H). eauto 6. }
  rewrite K. clear K. unfold nested_content.
  destruct (find is_unnamed args) as [[n [c|]]|].
  - destruct c as [ | | | |g gargs| | | | | | | | ];
      try (apply some_no_iff; intros (? & [? E] & Hc); injection E as _ <-; destruct (is_call_inv _ _ Hc) as (? & ? & F); discriminate F).
    apply some_if. rewrite <- (is_call_iff inner g gargs Hi). split.
    + intro H. eauto.
    + intros (c & [m E] & Hc). injection E as _ <-. exact Hc.
  - apply some_no_iff. intros (c & [m E] & _). discriminate E.
  - apply some_no_iff. intros (c & [m E] & _). discriminate E.
Qed.
Lemma no_unnamed_iff : forall args : list arg, negb (existsb is_unnamed args) = true <-> forall v, ~ In (None, v) args.
Proof.
  intro args. rewrite Bool.negb_true_iff. split.
  - intros H v Hin. assert (existsb is_unnamed args = true); [|congruence]. apply existsb_exists. eexists. split; [exact Hin|reflexivity].
  - intro H. destruct (existsb is_unnamed args) eqn:E; [|reflexivity]. apply existsb_exists in E.
    destruct E as ([n v] & Hin & Hn). destruct n; [discriminate Hn|]. destruct (H v Hin).
Qed.
Lemma composition_iff : forall outer inner fs e, outer <> [] -> inner <> [] -> outer <> inner ->
  (some (get_nested_functions_content fs e outer inner) <-> composition outer inner fs e).
Proof.
  intros outer inner fs e Ho Hi Hd. unfold composition.
  destruct e as [ | | | |f args| | | | | | | | ]; try (not_call).
  match goal with |- _ <-> (exists a, calls _ _ a /\ @?P a) =>
    assert (K : (exists a, calls outer (ECall f args) a /\ P a) <-> function_name f outer /\ P args) end.
  { split.
    - intros (a & H & K). apply calls_iff in H. destruct H as [-> H]. auto.
    - intros [H K]. exists args. split; [apply calls_iff; auto|exact K]. }
  rewrite K. clear K. cbn beta. rewrite <- (named_is f outer Ho). unfold get_nested_functions_content.
  destruct (teqb (get_function_name f) outer) eqn:E; cbn [negb].
  2:{ apply some_no_iff. intros [H _]. discriminate H. }
  rewrite <- (nested_iff args inner Hi).
  destruct (nested_content args inner) as [c|] eqn:N.
  - apply some_yes_iff. split; [reflexivity|]. left. apply some_yes.
  - match goal with |- _ <-> true = true /\ (some None \/ ?P) => assert (K : (true = true /\ (some (@None (list tok)) \/ P)) <-> P) end.
    { split; [intros [_ [H|H]]; [destruct (some_no H)|exact H]|auto]. }
    rewrite K. clear K.
    destruct fs as [|fr fs]; [apply some_no_iff; intros [(? & ? & ? & F & _)|(? & ? & ? & ? & ? & ? & F & _)]; discriminate F|].
    destruct fr; try (apply some_no_iff; intros [(? & ? & ? & F & _)|(? & ? & ? & ? & ? & ? & F & _)]; discriminate F).
    + assert (Q : teqb (get_function_name f) inner = false).
      { apply teqb_neq. apply teqb_eq in E. congruence. }
      destruct o; try (apply some_no_iff; intros [(? & ? & ? & F & _)|(? & ? & ? & ? & ? & ? & F & _)]; discriminate F).
      rewrite Q. apply some_no_iff; intros [(? & ? & ? & F & _)|(? & ? & ? & ? & ? & ? & F & _)]; discriminate F.
    + destruct o; try (apply some_no_iff; intros [(? & ? & ? & F & _)|(? & ? & ? & ? & ? & ? & F & _)]; discriminate F).
      destruct l as [ | | |o2 nl2 x c|g gargs| | | | | | | | ];
        try (apply some_no_iff; intros [(? & ? & ? & F & H)|(? & ? & ? & ? & ? & ? & F & _)];
             [injection F as _ <- _; destruct (is_call_inv _ _ H) as (? & ? & F'); discriminate F'|discriminate F]).
      * destruct o2; try (apply some_no_iff; intros [(? & ? & ? & F & H)|(? & ? & ? & ? & ? & ? & F & _)];
             [injection F as _ <- _; destruct (is_call_inv _ _ H) as (? & ? & F'); discriminate F'|discriminate F]).
        destruct c as [ | | | |g gargs| | | | | | | | ];
          try (apply some_no_iff; intros [(? & ? & ? & F & H)|(? & ? & ? & ? & ? & ? & F & (? & F' & _) & _)];
             [injection F as _ <- _; destruct (is_call_inv _ _ H) as (? & ? & F'); discriminate F'|injection F as _ _ _ <- _; discriminate F']).
        apply some_if. rewrite Bool.andb_true_iff, no_unnamed_iff, (named_is g inner Hi). split.
        -- intros [H1 H2]. right. exists nl, nl2, x, (ECall g gargs), gargs, fs. split; [reflexivity|].
           split; [apply calls_iff; auto|exact H2].
        -- intros [(? & ? & ? & F & H)|(? & ? & ? & ? & ga & ? & F & H & H2)].
           ++ injection F as _ <- _. destruct (is_call_inv _ _ H) as (? & ? & F'). discriminate F'.
           ++ injection F as _ _ _ <- _. apply calls_iff in H. destruct H as [-> H]. auto.
      * apply some_if. rewrite <- (is_call_iff inner g gargs Hi). split.
        -- intro H. left. eauto 6.
        -- intros [(? & ? & ? & F & H)|(? & ? & ? & ? & ga & ? & F & H & H2)]; [|discriminate F].
           injection F as _ <- _. exact H.
Qed.
Lemma some_triple : forall {A B C D} (o : option (A * (B * C))) (f : A -> B -> C -> D),
  some (match o with Some (x, (y, z)) => Some (f x y z) | None => None end) <-> some o.
Proof. intros A B C D [[x [y z]]|] f; split; intro H; try apply some_yes; destruct (some_no H). Qed.
Ltac comp := intros fs e; rewrite <- composition_iff; [|nn|nn|nn]; apply some_triple.
Lemma any_is_na_flags : forall fs e, some (any_is_na fs e) <-> composition (lit "any") (lit "is.na") fs e.
Proof. comp. Qed.
Lemma any_duplicated_flags : forall fs e, some (any_duplicated fs e) <-> composition (lit "any") (lit "duplicated") fs e.
Proof. comp. Qed.
Lemma length_levels_flags : forall fs e, some (length_levels fs e) <-> composition (lit "length") (lit "levels") fs e.
Proof. comp. Qed.
Lemma which_grepl_flags : forall fs e, some (which_grepl fs e) <-> composition (lit "which") (lit "grepl") fs e.
Proof. comp. Qed.
Lemma all_equal_flags : forall fs e, some (all_equal fs e) <-> flags_all_equal fs e.
Proof.
  intros fs e. unfold flags_all_equal, all_equal. rewrite <- composition_iff; [|nn|nn|nn].
  destruct (get_nested_functions_content fs e (lit "isFALSE") (lit "all.equal")) as [[c [fs' e']]|].
  - apply some_yes_iff. left. apply some_yes.
  - match goal with |- _ <-> some None \/ ?P => assert (K : some (@None (list tok * (list frame * expr))) \/ P <-> P)
      by (split; [intros [H|H]; [destruct (some_no H)|exact H]|auto]) end.
    rewrite K. clear K. rewrite <- is_negated_iff, <- is_condition_iff.
    destruct e as [ | | | |f args| | | | | | | | ]; try (apply some_no_iff; intros [H _]; destruct (is_call_inv _ _ H) as (? & ? & F); discriminate F).
    rewrite is_call_iff by nn. destruct (teqb (get_function_name f) (lit "all.equal")); [|apply some_no_iff; intros [H _]; discriminate H].
    destruct (parent_is_bang_unary fs) eqn:B.
    + apply is_negated_iff in B. destruct B as (fs' & -> & _). apply some_yes_iff. auto.
    + destruct (parent_is_condition fs); [apply some_yes_iff; auto|apply some_no_iff; intros [_ [H|H]]; discriminate H].
Qed.

(** ** Calls by name *)
Lemma browser_flags : forall fs e, some (browser fs e) <-> flags_browser fs e.
Proof.
  intros fs e. unfold flags_browser. destruct e as [ | | | |f args| | | | | | | | ]; try (not_call).
  cbn [browser]. apply some_if. symmetry. apply is_call_iff. nn.
Qed.
Lemma undesirable_flags : forall names fs e, some (undesirable_function names fs e) <-> flags_undesirable names fs e.
Proof.
  intros names fs e. unfold flags_undesirable. destruct e as [ | | | |f args| | | | | | | | ]; try (off; fail).
  cbn [undesirable_function]. apply some_if. rewrite named_among_iff. split.
  - intro H. eauto.
  - intros (g & a & E & H). injection E as -> _. exact H.
Qed.
Lemma call_is : forall n f args (P : list arg -> Prop), n <> [] ->
  ((exists a, calls n (ECall f args) a /\ P a) <-> teqb (get_function_name f) n = true /\ P args).
Proof.
  intros n f args P Hn. rewrite (named_is f n Hn). split.
  - intros (a & H & K). apply calls_iff in H. destruct H as [-> H]. auto.
  - intros [H K]. exists args. split; [apply calls_iff; auto|exact K].
Qed.
Lemma call_one_is : forall l f args (P : list arg -> Prop), ~ In [] l ->
  ((exists a, calls_one_of l (ECall f args) a /\ P a) <-> mem (get_function_name f) l = true /\ P args).
Proof.
  intros l f args P Hl. split.
  - intros (a & H & K). apply (calls_one_iff _ _ _ _ Hl) in H. destruct H as [-> H]. auto.
  - intros [H K]. exists args. split; [apply (calls_one_iff _ _ _ _ Hl); auto|exact K].
Qed.
(** The value of an argument. *)
Lemma given_iff : forall args n k v, given args n k v <-> arg_value (get_arg_by_name_then_position args n k) = Some v.
Proof.
  intros args n k v. unfold given. split.
  - intros [m H]. apply chosen_iff in H. rewrite H. reflexivity.
  - intro H. destruct (get_arg_by_name_then_position args n k) as [[m w]|] eqn:E; [|discriminate H]. cbn in H. subst w.
    apply chosen_iff in E. eauto.
Qed.
Lemma string_of_iff : forall l e, str_in l e = true <-> string_of l e.
Proof.
  intros l e. unfold string_of. destruct e as [a| | | | | | | | | | | | ]; try (split; [discriminate|intros (t & _ & E); discriminate E]).
  destruct a; try (split; [discriminate|intros (u & _ & E); discriminate E]).
  cbn [str_in]. rewrite mem_iff. split; [eauto|]. intros (u & H & E). injection E as ->. exact H.
Qed.
Lemma download_file_flags : forall fs e, some (download_file fs e) <-> flags_download_file fs e.
Proof.
  intros fs e. unfold flags_download_file. destruct e as [ | | | |f args| | | | | | | | ]; try (not_call).
  rewrite (call_is (lit "download.file") f args) by nn. cbn [download_file].
  destruct (teqb (get_function_name f) (lit "download.file")); [|apply some_no_iff; intros [H _]; discriminate H].
  assert (M : forall k n (P : expr -> Prop), (forall m, given args n k m -> P m) <->
     match arg_value (get_arg_by_name_then_position args n k) with Some m => P m | None => True end).
  { intros k n P. split.
    - intro H. destruct (arg_value _) as [m|] eqn:E; [|exact Logic.I]. apply H, given_iff, E.
    - intros H m Hm. apply given_iff in Hm. rewrite Hm in H. exact H. }
  rewrite (M 3 (lit "method")), (M 5 (lit "mode")).
  destruct (arg_value (get_arg_by_name_then_position args (lit "method") 3)) as [m|].
  - rewrite <- string_of_iff. change (in_quotes (lit "wget") ++ in_quotes (lit "curl")) with (quoted (lit "wget") ++ quoted (lit "curl")).
    destruct (str_in (quoted (lit "wget") ++ quoted (lit "curl")) m).
    + apply some_no_iff. intros (_ & H & _). congruence.
    + destruct (arg_value (get_arg_by_name_then_position args (lit "mode") 5)) as [w|].
      * rewrite <- string_of_iff. change (in_quotes (lit "w") ++ in_quotes (lit "a")) with (quoted (lit "w") ++ quoted (lit "a")).
        apply some_if. split; [intro H; split; [reflexivity|split; [discriminate|exact H]]|intros (_ & _ & H); exact H].
      * apply some_yes_iff. split; [reflexivity|split; [discriminate|exact Logic.I]].
  - destruct (arg_value (get_arg_by_name_then_position args (lit "mode") 5)) as [w|].
    + rewrite <- string_of_iff. change (in_quotes (lit "w") ++ in_quotes (lit "a")) with (quoted (lit "w") ++ quoted (lit "a")).
      apply some_if. split; [intro H; split; [reflexivity|split; [exact Logic.I|exact H]]|intros (_ & _ & H); exact H].
    + apply some_yes_iff. split; [reflexivity|split; exact Logic.I].
Qed.
Lemma grepv_flags : forall fs e, some (grepv fs e) <-> flags_grepv fs e.
Proof.
  intros fs e. unfold flags_grepv. destruct e as [ | | | |f args| | | | | | | | ]; try (not_call).
  assert (K : (exists a b, calls (lit "grep") (ECall f args) a /\ chosen a (lit "value") 5 b) <->
     teqb (get_function_name f) (lit "grep") = true /\ exists b, chosen args (lit "value") 5 b).
  { rewrite (named_is f (lit "grep")) by nn. split.
    - intros (a & b & H & K). apply calls_iff in H. destruct H as [-> H]. eauto.
    - intros (H & b & K). exists args, b. split; [apply calls_iff; auto|exact K]. }
  rewrite K. clear K. cbn [grepv]. apply some_if. rewrite Bool.andb_true_iff. unfold is_argument_present.
  destruct (get_arg_by_name_then_position args (lit "value") 5) as [b|] eqn:E.
  - apply chosen_iff in E. split; intros [H _]; eauto.
  - split; intros [H K]; [discriminate K|]. destruct K as [b K]. apply chosen_iff in K. congruence.
Qed.
Definition ok_some {A} (x : res (option A)) : Prop := exists r, x = ROk (Some r).
Lemma ok_yes_iff : forall {A} (x : A) (P : Prop), P -> (ok_some (ROk (Some x)) <-> P).
Proof. intros A x P H. split; [intros _; exact H|intros _; exists x; reflexivity]. Qed.
Lemma ok_no_iff : forall {A} (x : res (option A)) (P : Prop), x = ROk None \/ x = RErr \/ x = RPanic -> ~ P -> (ok_some x <-> P).
Proof. intros A x P Hx H. split; [intros [r E]; subst; intuition discriminate|intro F; destruct (H F)]. Qed.
Ltac ok_off := apply ok_no_iff; [auto|]; unfold is_call_of, calls_one_of, calls; intro;
  repeat match goal with
  | H : exists _, _ |- _ => destruct H
  | H : _ /\ _ |- _ => destruct H
  end; try congruence.
Lemma length_test_flags : forall fs e, ok_some (length_test fs e) <-> flags_length_test fs e.
Proof.
  intros fs e. unfold flags_length_test. destruct e as [ | | | |f args| | | | | | | | ]; try (ok_off; fail).
  assert (K : (exists n c nl l r a, calls (lit "length") (ECall f args) ((n, Some (EBin (BCmp c) nl l r)) :: a)) <->
     teqb (get_function_name f) (lit "length") = true /\ exists n c nl l r a, args = (n, Some (EBin (BCmp c) nl l r)) :: a).
  { rewrite (named_is f (lit "length")) by nn. split.
    - intros (n & c & nl & l & r & a & H). apply calls_iff in H. destruct H as [<- H]. eauto 10.
    - intros (H & n & c & nl & l & r & a & ->). exists n, c, nl, l, r, a. apply calls_iff; auto. }
  rewrite K. clear K. cbn [length_test].
  destruct (teqb (get_function_name f) (lit "length")); cbn [negb]; [|apply ok_no_iff; [auto|intros [H _]; discriminate H]].
  destruct args as [|[n [v|]] args].
  - apply ok_no_iff; [auto|]. intros (_ & ? & ? & ? & ? & ? & ? & E). discriminate E.
  - destruct v as [ | | |o nl l r| | | | | | | | | ];
      try (apply ok_no_iff; [auto|]; intros (_ & ? & ? & ? & ? & ? & ? & E); discriminate E).
    destruct o; try (apply ok_no_iff; [auto|]; intros (_ & ? & ? & ? & ? & ? & ? & E); discriminate E).
    apply ok_yes_iff. split; [reflexivity|]. eauto 8.
  - apply ok_no_iff; [auto|]. intros (_ & ? & ? & ? & ? & ? & ? & E). discriminate E.
Qed.
Lemma lengths_flags : forall fs e, ok_some (lengths_rule fs e) <-> flags_lengths fs e.
Proof.
  intros fs e. unfold flags_lengths. destruct e as [ | | | |f args| | | | | | | | ]; try (ok_off; fail).
  assert (L : ~ In (@nil char) lengths_names) by nl.
  assert (K : (exists a x, calls_one_of lengths_names (ECall f args) a /\
      given a (lit "FUN") 2 (EAtom (AId (lit "length"))) /\ chosen a (lit "x") 1 x) <->
     mem (get_function_name f) lengths_names = true /\
      given args (lit "FUN") 2 (EAtom (AId (lit "length"))) /\ exists x, chosen args (lit "x") 1 x).
  { split.
    - intros (a & x & H & G & X). apply (calls_one_iff _ _ _ _ L) in H. destruct H as [-> H]. eauto 6.
    - intros (H & G & x & X). exists args, x. split; [apply (calls_one_iff _ _ _ _ L); auto|auto]. }
  etransitivity; [|symmetry; exact K]. clear K. cbn [lengths_rule].
  change (existsb (teqb (get_function_name f)) lengths_names) with (mem (get_function_name f) lengths_names).
  destruct (mem (get_function_name f) lengths_names); cbn [negb]; [|apply ok_no_iff; [auto|intros [H _]; discriminate H]].
  rewrite given_iff.
  destruct (get_arg_by_name_then_position args (lit "FUN") 2) as [[m [g|]]|]; cbn [arg_value];
    try (apply ok_no_iff; [auto|intros (_ & H & _); discriminate H]).
  destruct (same_text (toks g) [id_tok (lit "length")]) eqn:S.
  - apply same_text_iff in S. apply one_token in S. subst g.
    destruct (get_arg_by_name_then_position args (lit "x") 1) as [x|] eqn:E.
    + apply chosen_iff in E. apply ok_yes_iff. eauto.
    + apply ok_no_iff; [auto|]. intros (_ & _ & x & X). apply chosen_iff in X. congruence.
  - apply ok_no_iff; [auto|]. intros (_ & H & _). injection H as ->. discriminate S.
Qed.
Lemma sample_int_flags : forall fs e, ok_some (sample_int fs e) <-> flags_sample_int fs e.
Proof.
  intros fs e. unfold flags_sample_int. destruct e as [ | | | |f args| | | | | | | | ]; try (ok_off; fail).
  assert (K : (exists a nl o n, calls (lit "sample") (ECall f args) a /\ given a (lit "n") 1 (EBin BColon nl o n) /\ one o) <->
       teqb (get_function_name f) (lit "sample") = true /\ exists nl o n, given args (lit "n") 1 (EBin BColon nl o n) /\ one o)
      by (rewrite (named_is f (lit "sample")) by nn; split;
          [intros (a & nl & o & n & H & G); apply calls_iff in H; destruct H as [-> H]; eauto 6
          |intros (H & nl & o & n & G); exists args, nl, o, n; split; [apply calls_iff; auto|exact G]]).
      rewrite K; clear K.
  cbn [sample_int].
  destruct (teqb (get_function_name f) (lit "sample")); cbn [negb]; [|apply ok_no_iff; [auto|intros [H _]; discriminate H]].
  assert (K : forall P : Prop, (true = true /\ P) <-> P) by (intro P; tauto). rewrite K. clear K.
  assert (K : (exists nl o n, given args (lit "n") 1 (EBin BColon nl o n) /\ one o) <->
    exists nl o n, arg_value (get_arg_by_name_then_position args (lit "n") 1) = Some (EBin BColon nl o n) /\ one o).
  { split; intros (nl & o & n & G & O); exists nl, o, n; (split; [apply given_iff, G|exact O]). }
  rewrite K. clear K.
  destruct (get_arg_by_name_then_position args (lit "n") 1) as [[m [g|]]|]; cbn [arg_value];
    try (apply ok_no_iff; [auto|intros (nl & o & n & H & _); discriminate H]).
  destruct g as [ | | |o nl l r| | | | | | | | | ]; try (apply ok_no_iff; [auto|intros (? & ? & ? & H & _); discriminate H]).
  destruct (is_one l) eqn:O; cbn [negb].
  - apply is_one_iff in O. destruct o; try (apply ok_no_iff; [auto|intros (? & ? & ? & H & _); discriminate H]).
    apply ok_yes_iff. eauto 6.
  - apply ok_no_iff; [auto|]. intros (nl' & o' & n & H & K). injection H as _ _ -> _. apply is_one_iff in K. congruence.
Qed.
