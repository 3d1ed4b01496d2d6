(** Rules on operators: exactly what they report. *)
From Verif Require Import Spec.RFlagged Proofs.TextProofs Proofs.RulesProofs Proofs.RStopsProofs Proofs.RFlaggedProofs.

Lemma equality_yes : forall o b, equality o = Some b -> equality_op o.
Proof.
  intros o b H. unfold equality_op. destruct o; try discriminate H.
  - destruct c; try discriminate H; auto.
  - cbn [equality] in H. destruct (teqb t (lit "%in%")) eqn:E; [|discriminate]. apply teqb_eq in E. subst. auto.
Qed.
Lemma equality_no : forall o, equality o = None -> ~ equality_op o.
Proof. intros o H [ -> | [ -> | -> ] ]; discriminate H. Qed.
Lemma is_in_iff : forall o, is_in o = true <-> o = BSpecial (lit "%in%").
Proof.
  intro o. destruct o; try (split; discriminate). cbn [is_in]. rewrite teqb_eq. split; [intros ->; reflexivity|congruence].
Qed.
Lemma one_side : forall (kb : expr -> bool) (k : expr -> Prop) l r, (forall x, kb x = true <-> k x) ->
  (Bool.eqb (kb l) (kb r) = false <-> k l /\ ~ k r \/ ~ k l /\ k r).
Proof.
  intros kb k l r H. rewrite <- !H. destruct (kb l), (kb r); cbn; intuition congruence.
Qed.
Lemma compared_iff : forall (kb : expr -> bool) (k : expr -> Prop) o nl l r, (forall x, kb x = true <-> k x) ->
  equality_op o -> (compared_with k (EBin o nl l r) <-> Bool.eqb (kb l) (kb r) = false).
Proof.
  intros kb k o nl l r H Ho. rewrite (one_side kb k l r H). split.
  - intros (o' & nl' & l' & r' & E & _ & K). injection E as -> -> -> ->. exact K.
  - intro K. exists o, nl, l, r. auto.
Qed.
Lemma not_compared : forall k e, (forall o nl l r, e = EBin o nl l r -> ~ equality_op o) -> ~ compared_with k e.
Proof. intros k e H (o & nl & l & r & -> & Ho & _). exact (H o nl l r eq_refl Ho). Qed.

Lemma is_na_iff : forall e, is_na_text e = true <-> is_na e.
Proof.
  intro e. unfold is_na. destruct e as [a| | | | | | | | | | | | ]; try (split; [discriminate|intros (t & _ & [E|E]); discriminate E]).
  destruct a; try (split; [discriminate|intros (u & _ & [E|E]); discriminate E]).
  - cbn [is_na_text]. change (existsb (teqb x) na_names) with (mem x na_names). rewrite mem_iff. split.
    + intro H. exists x. auto.
    + intros (u & H & [E|E]); [discriminate E|]. injection E as ->. exact H.
  - cbn [is_na_text]. change (existsb (teqb t) na_names) with (mem t na_names). rewrite mem_iff. split.
    + intro H. exists t. auto.
    + intros (u & H & [E|E]); [|discriminate E]. injection E as ->. exact H.
Qed.
Lemma is_nan_iff : forall e, is_nan_lit e = true <-> e = EAtom (AOther (lit "NaN")).
Proof.
  intro e. destruct e as [a| | | | | | | | | | | | ]; try (split; discriminate). destruct a; try (split; discriminate).
  cbn [is_nan_lit]. rewrite teqb_eq. split; [intros ->; reflexivity|congruence].
Qed.
Lemma is_null_iff : forall e, is_null_lit e = true <-> e = EAtom ANull.
Proof. intro e. destruct e as [a| | | | | | | | | | | | ]; try (split; discriminate). destruct a; split; auto; discriminate. Qed.

(** The two rules that leave [NA %in% x] alone. *)
Lemma equality_flags : forall (kb : expr -> bool) (k : expr -> Prop) (new : list frame -> expr -> bool -> expr -> expr -> report)
    (rule : list frame -> expr -> option report) fs e,
  (forall x, kb x = true <-> k x) ->
  rule fs e = match e with
     | EBin o _ l r =>
         match equality o with
         | Some b =>
             if is_in o && kb l then None
             else if Bool.eqb (kb l) (kb r) then None else Some (new fs e b l r)
         | None => None
         end
     | _ => None
     end ->
  (some (rule fs e) <->
   compared_with k e /\ forall nl l r, e = EBin (BSpecial (lit "%in%")) nl l r -> ~ k l).
Proof.
  intros kb k new rule fs e Hk ->.
  destruct e as [ | | |o nl l r| | | | | | | | | ];
    try (apply some_no_iff; intros [H _]; revert H; apply not_compared; congruence).
  destruct (equality o) as [b|] eqn:E.
  - assert (Ho := equality_yes o b E). rewrite (compared_iff kb k o nl l r Hk Ho).
    destruct (is_in o && kb l) eqn:I.
    + apply Bool.andb_true_iff in I. destruct I as [I1 I2]. apply is_in_iff in I1. subst o. apply Hk in I2.
      apply some_no_iff. intros [_ H]. exact (H nl l r eq_refl I2).
    + destruct (Bool.eqb (kb l) (kb r)) eqn:B.
      * apply some_no_iff. intros [H _]. discriminate H.
      * apply some_yes_iff. split; [reflexivity|]. intros nl' l' r' F. injection F as -> _ -> _. intro K.
        apply Hk in K. rewrite K in I. discriminate I.
  - apply some_no_iff. intros [H _]. revert H. apply not_compared. intros o' nl' l' r' F. injection F as -> _ _ _.
    exact (equality_no o' E).
Qed.
Lemma equals_na_flags : forall fs e, some (equals_na fs e) <-> flags_equals_na fs e.
Proof.
  intros fs e. unfold flags_equals_na.
  exact (equality_flags is_na_text is_na
    (fun fs e b l r => mk_report fs e (Some (maybe_not b (call_text (lit "is.na") (toks (if is_na_text l then r else l))))))
    equals_na fs e is_na_iff eq_refl).
Qed.
Lemma equals_nan_flags : forall fs e, some (equals_nan fs e) <-> flags_equals_nan fs e.
Proof.
  intros fs e. unfold flags_equals_nan.
  exact (equality_flags is_nan_lit (fun x => x = EAtom (AOther (lit "NaN")))
    (fun fs e b l r => mk_report fs e (Some (maybe_not b (call_text (lit "is.nan") (toks (if is_nan_lit l then r else l))))))
    equals_nan fs e is_nan_iff eq_refl).
Qed.
Lemma equals_null_flags : forall fs e, some (equals_null fs e) <-> flags_equals_null fs e.
Proof.
  intros fs e. unfold flags_equals_null.
  destruct e as [ | | |o nl l r| | | | | | | | | ]; try (apply some_no_iff; apply not_compared; congruence).
  cbn [equals_null]. destruct (equality o) as [b|] eqn:E.
  - rewrite (compared_iff is_null_lit _ o nl l r is_null_iff (equality_yes o b E)).
    destruct (Bool.eqb (is_null_lit l) (is_null_lit r)); [apply some_no_iff; discriminate|apply some_yes_iff; reflexivity].
  - apply some_no_iff, not_compared. intros o' nl' l' r' F. injection F as -> _ _ _. exact (equality_no o' E).
Qed.
Lemma na_in_flags : forall fs e, some (any_is_na_2 fs e) <-> flags_na_in fs e.
Proof.
  intros fs e. unfold flags_na_in. destruct e as [ | | |o nl l r| | | | | | | | | ]; try (off; fail).
  destruct o; try (off; fail). cbn [any_is_na_2]. destruct (teqb t (lit "%in%")) eqn:E.
  - apply teqb_eq in E. subst t.
    assert (K : (exists u, r = EAtom (ANa u)) \/ forall u, r <> EAtom (ANa u)).
    { destruct r as [a| | | | | | | | | | | | ]; try (right; discriminate). destruct a; try (right; discriminate). eauto. }
    destruct K as [[u ->]|K].
    + match goal with |- some ?x <-> _ => replace x with (@None report) by (destruct l as [a| | | | | | | | | | | | ]; try destruct a; reflexivity) end.
      apply some_no_iff. intros (nl' & t' & r' & F & H). injection F as _ _ <-. exact (H u eq_refl).
    + assert (L : (exists u, l = EAtom (ANa u)) \/ forall u, l <> EAtom (ANa u)).
      { destruct l as [a| | | | | | | | | | | | ]; try (right; discriminate). destruct a; try (right; discriminate). eauto. }
      destruct L as [[u ->]|L].
      * match goal with |- some ?x <-> _ => assert (Q : some x) end.
        { destruct r as [a| | | | | | | | | | | | ]; try apply some_yes. destruct a; try apply some_yes. destruct (K t eq_refl). }
        split; [intros _; eauto 6|intros _; exact Q].
      * match goal with |- some ?x <-> _ => assert (Q : x = None) end.
        { destruct l as [a| | | | | | | | | | | | ]; try (destruct r as [b| | | | | | | | | | | | ]; try reflexivity; destruct b; reflexivity).
          destruct a; try (destruct r as [b| | | | | | | | | | | | ]; try reflexivity; destruct b; reflexivity).
          destruct (L t eq_refl). }
        rewrite Q. apply some_no_iff. intros (nl' & t' & r' & F & H). injection F as _ F _. exact (L t' F).
  - apply some_no_iff. intros (nl' & t' & r' & F & _). apply teqb_neq in E. apply E.
    apply (f_equal (fun x => match x with EBin (BSpecial y) _ _ _ => y | _ => [] end)) in F. exact F.
Qed.
Definition is_boolean (e : expr) : bool := match e with EAtom (ATrue | AFalse) => true | _ => false end.
Lemma is_boolean_iff : forall e, is_boolean e = true <-> exists b, (b = ATrue \/ b = AFalse) /\ e = EAtom b.
Proof.
  intro e. destruct e as [a| | | | | | | | | | | | ]; try (split; [discriminate|intros (b & _ & E); discriminate E]).
  destruct a; try (split; [discriminate|intros (b & [ -> | -> ] & E); discriminate E]); split; eauto.
Qed.
Lemma redundant_equals_flags : forall fs e, some (redundant_equals fs e) <-> flags_redundant_equals fs e.
Proof.
  intros fs e. unfold flags_redundant_equals. destruct e as [ | | |o nl l r| | | | | | | | | ]; try (off; fail).
  destruct o; try (off; fail).
  assert (K : (exists o nl' l' r', EBin (BCmp c) nl l r = EBin (BCmp o) nl' l' r' /\ (o = CEq \/ o = CNe) /\
     exists b, (b = ATrue \/ b = AFalse) /\ (l' = EAtom b \/ r' = EAtom b)) <->
     (c = CEq \/ c = CNe) /\ is_boolean l || is_boolean r = true).
  { rewrite Bool.orb_true_iff, !is_boolean_iff. split.
    - intros (o & nl' & l' & r' & E & Ho & b & Hb & H). injection E as -> _ -> ->. split; [exact Ho|]. destruct H; eauto.
    - intros [Ho [(b & Hb & H)|(b & Hb & H)]]; exists c, nl, l, r; (split; [reflexivity|]); (split; [exact Ho|]); eauto. }
  rewrite K. clear K.
  assert (Q : forall x y : option report, some (
      match l, r with
      | EAtom ATrue, _ => Some (mk_report fs (EBin (BCmp c) nl l r) (if x then Some (toks r) else None))
      | _, _ => None
      end) -> True) by auto. clear Q.
  destruct c; try (apply some_no_iff; intros [[H|H] _]; discriminate H); cbn [redundant_equals].
  all: match goal with |- some ?x <-> _ => assert (Q : some x <-> is_boolean l || is_boolean r = true) end;
    [ destruct l as [a| | | | | | | | | | | | ]; try destruct a; try (apply some_yes_iff; reflexivity);
      (destruct r as [b| | | | | | | | | | | | ]; try destruct b; first [apply some_yes_iff; reflexivity | apply some_no_iff; discriminate])
    | rewrite Q; tauto ].
Qed.
Lemma is_condition_iff : forall fs, parent_is_condition fs = true <-> is_condition fs.
Proof.
  intro fs. unfold is_condition. destruct fs as [|f fs]; [split; [discriminate|intros [(? & ? & ? & E)|(? & ? & E)]; discriminate E]|].
  destruct f; try (split; [discriminate|intros [(? & ? & ? & E)|(? & ? & E)]; discriminate E]); split; eauto.
Qed.
Lemma is_negated_iff : forall fs, parent_is_bang_unary fs = true <-> is_negated fs.
Proof.
  intro fs. unfold is_negated. destruct fs as [|f fs]; [split; [discriminate|intros (? & E & _); discriminate E]|].
  destruct f; try (split; [discriminate|intros (? & E & _); discriminate E]).
  destruct u; try (split; [discriminate|intros (? & E & _); discriminate E]).
  destruct fs as [|g fs]; [split; [intros _; exists []; split; [reflexivity|exact Logic.I]|reflexivity]|].
  destruct g; try (split; [intros _; eexists; split; [reflexivity|exact Logic.I]|intros _; reflexivity]).
  split; [discriminate|]. intros (fs' & E & H). injection E as <-. destruct H.
Qed.
Lemma class_and_string_iff : forall l r, some (extract_class_and_string l r) <-> class_and_string l r.
Proof.
  assert (C : forall x, is_class_call x = true <-> is_call_of (lit "class") x).
  { intro x. change (is_class_call x) with (is_call_named (lit "class") x). apply call_named_iff. nn. }
  assert (S : forall x, is_string x = true <-> exists t, x = EAtom (AStr t)).
  { intro x. destruct x as [a| | | | | | | | | | | | ]; try (split; [discriminate|intros [t E]; discriminate E]).
    destruct a; try (split; [discriminate|intros [t' E]; discriminate E]). split; eauto. }
  assert (A : forall x (t : list tok), is_call_of (lit "class") x ->
     (some (option_map (fun c => (c, t)) (first_arg_text x)) <-> exists a args, calls (lit "class") x (a :: args))).
  { intros x t (args & f & -> & Hf). cbn [first_arg_text]. destruct args as [|a args].
    - apply some_no_iff. intros (a & args & H). apply calls_iff in H. destruct H. discriminate.
    - apply some_yes_iff. exists a, args. apply calls_iff. auto. }
  intros l r. unfold extract_class_and_string, class_and_string.
  destruct (is_class_call l && is_string r) eqn:E1.
  - apply Bool.andb_true_iff in E1. destruct E1 as [E1 E2]. apply C in E1. apply S in E2. destruct E2 as [t ->].
    rewrite (A _ _ E1). split.
    + intros (a & args & H). left. eauto.
    + intros [(a & args & t' & H & _)|(a & args & t' & -> & _)]; [eauto|]. destruct (is_call_inv _ _ E1) as (? & ? & F). discriminate F.
  - destruct (is_string l && is_class_call r) eqn:E2.
    + apply Bool.andb_true_iff in E2. destruct E2 as [E2 E3]. apply C in E3. apply S in E2. destruct E2 as [t ->].
      rewrite (A _ _ E3). split.
      * intros (a & args & H). right. eauto 6.
      * intros [(a & args & t' & (f & F & _) & _)|(a & args & t' & _ & H)]; [discriminate F|eauto].
    + apply some_no_iff. intros [(a & args & t & H & ->)|(a & args & t & -> & H)].
      * rewrite (proj2 (C l)) in E1 by (eexists; exact H). discriminate E1.
      * rewrite (proj2 (C r)) in E2 by (eexists; exact H). discriminate E2.
Qed.
Lemma some_map : forall {A B} (o : option A) (f : A -> B), some (match o with Some x => Some (f x) | None => None end) <-> some o.
Proof. intros A B [x|] f; split; intro H; try apply some_yes; destruct (some_no H). Qed.
Lemma some_pair : forall {A B C} (o : option (A * B)) (f : A -> B -> C),
  some (match o with Some (x, y) => Some (f x y) | None => None end) <-> some o.
Proof. intros A B C [[x y]|] f; split; intro H; try apply some_yes; destruct (some_no H). Qed.
Lemma class_equals_flags : forall fs e, some (class_equals fs e) <-> flags_class_equals fs e.
Proof.
  intros fs e. unfold flags_class_equals. destruct e as [ | | |o nl l r| | | | | | | | | ]; try (off; fail).
  cbn [class_equals]. destruct (equality o) as [b|] eqn:E.
  - destruct (parent_is_condition fs) eqn:P.
    + rewrite some_pair, class_and_string_iff. apply is_condition_iff in P. split.
      * intro H. split; [exact P|]. exists o, nl, l, r. split; [reflexivity|]. split; [exact (equality_yes o b E)|exact H].
      * intros [_ (o' & nl' & l' & r' & F & _ & H)]. injection F as _ _ -> ->. exact H.
    + apply some_no_iff. intros [H _]. apply is_condition_iff in H. congruence.
  - apply some_no_iff. intros [_ (o' & nl' & l' & r' & F & Ho & H)]. injection F as -> _ _ _. exact (equality_no o' E Ho).
Qed.
Lemma class_identical_flags : forall fs e, some (class_identical fs e) <-> flags_class_identical fs e.
Proof.
  intros fs e. unfold flags_class_identical. destruct e as [ | | | |f args| | | | | | | | ]; try (not_call).
  assert (K : (exists m l n r a, calls (lit "identical") (ECall f args) ((m, Some l) :: (n, Some r) :: a) /\ class_and_string l r) <->
    teqb (get_function_name f) (lit "identical") = true /\
    exists m l n r a, args = (m, Some l) :: (n, Some r) :: a /\ class_and_string l r).
  { rewrite (named_is f (lit "identical")) by nn. split.
    - intros (m & l & n & r & a & H & K). apply calls_iff in H. destruct H as [<- H]. split; [exact H|]. eauto 8.
    - intros (H & m & l & n & r & a & -> & K). exists m, l, n, r, a. split; [apply calls_iff; auto|exact K]. }
  rewrite K. clear K. cbn [class_identical]. destruct (teqb (get_function_name f) (lit "identical")).
  - destruct args as [|[m [l|]] args].
    + apply some_no_iff. intros (_ & m & l & n & r & a & E & _). discriminate E.
    + destruct args as [|[n [r|]] args].
      * apply some_no_iff. intros (_ & m' & l' & n & r & a & E & _). discriminate E.
      * cbn [get_arg_by_position nth_error Nat.sub]. rewrite some_pair, class_and_string_iff. split.
        -- intro H. split; [reflexivity|]. eauto 8.
        -- intros (_ & m' & l' & n' & r' & a & E & H). injection E as _ -> _ -> _. exact H.
      * apply some_no_iff. intros (_ & m' & l' & n' & r' & a & E & _). discriminate E.
    + cbn [get_arg_by_position nth_error Nat.sub]. apply some_no_iff. intros (_ & m' & l' & n' & r' & a & E & _). discriminate E.
  - apply some_no_iff. intros [H _]. discriminate H.
Qed.
Lemma vector_logic_flags : forall fs e, some (vector_logic fs e) <-> flags_vector_logic fs e.
Proof.
  assert (X : forall x, is_bitwise_exception x = false <->
    (forall t, x <> EAtom (AStr t)) /\ forall args, ~ calls_one_of [lit "as.raw"; lit "as.octmode"; lit "as.hexmode"] x args).
  { intro x. assert (L : ~ In (@nil char) [lit "as.raw"; lit "as.octmode"; lit "as.hexmode"]) by nl.
    destruct x as [a| | | |f args| | | | | | | | ];
      try (split; [intros _; split; [discriminate|intros ? (? & _ & ? & E & _); discriminate E]|reflexivity]).
    - destruct a; try (split; [intros _; split; [discriminate|intros ? (? & _ & ? & E & _); discriminate E]|reflexivity]).
      split; [discriminate|]. intros [H _]. destruct (H t eq_refl).
    - cbn [is_bitwise_exception]. split.
      + intro H. split; [discriminate|]. intros a K. apply (calls_one_iff _ _ _ _ L) in K. destruct K. congruence.
      + intros [_ H]. destruct (mem (get_function_name f) _) eqn:E; [|reflexivity]. destruct (H args). apply calls_one_iff; [exact L|split; [reflexivity|exact E]]. }
  intros fs e. unfold flags_vector_logic. destruct e as [ | | |o nl l r| | | | | | | | | ]; try (off; fail).
  assert (K : (is_condition fs /\ exists o' nl' l' r', EBin o nl l r = EBin o' nl' l' r' /\ (o' = BAnd \/ o' = BOr) /\
     forall x, x = l' \/ x = r' -> (forall t, x <> EAtom (AStr t)) /\
       forall args, ~ calls_one_of [lit "as.raw"; lit "as.octmode"; lit "as.hexmode"] x args) <->
     is_condition fs /\ (o = BAnd \/ o = BOr) /\ is_bitwise_exception l || is_bitwise_exception r = false).
  { rewrite Bool.orb_false_iff, !X. split.
    - intros (Hc & o' & nl' & l' & r' & E & Ho & H). injection E as -> _ -> ->. auto 6.
    - intros (Hc & Ho & H1 & H2). split; [exact Hc|]. exists o, nl, l, r. split; [reflexivity|]. split; [exact Ho|].
      intros x [ -> | -> ]; auto. }
  rewrite K. clear K. rewrite <- is_condition_iff.
  destruct o; try (apply some_no_iff; intros (_ & [H|H] & _); discriminate H); cbn [vector_logic];
    destruct (is_bitwise_exception l || is_bitwise_exception r);
    try (apply some_no_iff; intros (_ & _ & H); discriminate H);
    destruct (parent_is_condition fs);
    try (apply some_no_iff; intros (H & _); discriminate H);
    apply some_yes_iff; auto.
Qed.
Lemma same_text_iff : forall a b, same_text a b = true <-> a = b.
Proof. intros a b. unfold same_text. destruct (list_eq_dec tok_eq_dec a b); split; auto; discriminate. Qed.
Lemma is_call_to_iff : forall n f, is_call_to n f = true <-> f = EAtom (AId n).
Proof.
  intros n f. destruct f as [a| | | | | | | | | | | | ]; try (split; discriminate). destruct a; try (split; discriminate).
  cbn [is_call_to]. rewrite teqb_eq. split; [intros ->; reflexivity|congruence].
Qed.
Lemma is_numeric_flags : forall fs e, some (is_numeric fs e) <-> flags_is_numeric fs e.
Proof.
  intros fs e. unfold flags_is_numeric, call. destruct e as [ | | |o nl l r| | | | | | | | | ]; try (off; fail).
  destruct o; try (off; fail). destruct l as [ | | | |f a| | | | | | | | ]; try (off; fail).
  destruct r as [ | | | |g b| | | | | | | | ]; try (off; fail). cbn [is_numeric].
  match goal with |- context [if ?c then _ else _] => destruct c eqn:E end.
  - rewrite Bool.orb_true_iff, !Bool.andb_true_iff, !is_call_to_iff in E. apply some_if. rewrite same_text_iff.
    split.
    + intro H. destruct E as [[-> ->]|[-> ->]]; repeat eexists; eauto.
    + intros (nl' & f' & g' & a' & b' & F & H & _). injection F as _ _ -> _ ->. exact H.
  - apply some_no_iff. intros (nl' & f' & g' & a' & b' & F & H & K). injection F as _ -> _ -> _.
    assert (E' : is_call_to (lit "is.integer") (EAtom (AId f')) && is_call_to (lit "is.numeric") (EAtom (AId g')) ||
      is_call_to (lit "is.numeric") (EAtom (AId f')) && is_call_to (lit "is.integer") (EAtom (AId g')) = true).
    { rewrite Bool.orb_true_iff, !Bool.andb_true_iff, !is_call_to_iff. destruct K as [[-> ->]|[-> ->]]; auto. }
    congruence.
Qed.
Lemma is_one_iff : forall e, is_one e = true <-> one e.
Proof.
  intro e. unfold one. destruct e as [a| | | | | | | | | | | | ]; try (split; [discriminate|intros [E|E]; discriminate E]).
  destruct a; try (split; [discriminate|intros [E|E]; discriminate E]).
  cbn [is_one]. rewrite Bool.orb_true_iff, !teqb_eq. split; [intros [ -> | -> ]; auto|intros [E|E]; injection E as ->; auto].
Qed.
Lemma seq_flags : forall fs e, some (seq_rule fs e) <-> flags_seq fs e.
Proof.
  assert (L : ~ In (@nil char) sizes) by nl.
  intros fs e. unfold flags_seq. destruct e as [ | | |o nl l r| | | | | | | | | ]; try (off; fail).
  destruct o; try (off; fail). destruct r as [ | | | |f args| | | | | | | | ]; try (not_call).
  cbn [seq_rule]. change (existsb (teqb (get_function_name f)) size_names) with (mem (get_function_name f) sizes).
  apply some_if. rewrite Bool.andb_true_iff, is_one_iff. split.
  - intros [H1 H2]. exists nl, l, (ECall f args), args. split; [reflexivity|]. split; [exact H1|]. apply calls_one_iff; auto.
  - intros (nl' & o & c & a & E & H1 & H2). injection E as _ -> <-. split; [exact H1|]. apply calls_one_iff in H2; [apply H2|exact L].
Qed.
