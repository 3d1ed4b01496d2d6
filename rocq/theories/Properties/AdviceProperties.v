(** C104: what a diagnostic says is right. *)
From Verif Require Import Model.Messages Spec.AdviceSpec Spec.OutputSpec Proofs.TextProofs Proofs.AdviceProofs Proofs.AdviceForms Proofs.AdviceExpect
  Proofs.AdviceFacts Proofs.AdviceCalls.

(** C104.  For the rules of the list [advised], the fix of every report is the
    code that the suggestion of its message shows, for some code in the place of
    the names of the suggestion.  [sh] is the order in which a Rust set comes
    out.  Excluded: the advice of seq on nrow, which is not R code
    (C104_nrow_refuted). *)
Theorem C104_advice_partial : forall s sh n f fs e rs r t b a,
  In (n, f) (node_rules s) -> In n advised -> f fs e = ROk rs -> In r rs -> new_text r = Some t ->
  said s sh n fs e = (b, Some a) -> a <> instead (lit "seq_len(nrow((...))") -> follows_advice a t.
Proof. exact advice_followed. Qed.
Print Assumptions C104_advice_partial.

(** C104.  For the rules of the list [shown]: where the code checked is of a form
    quoted in the body, for the code [g] in the place of the names, the whole of
    it is reported and the fix is the form that the suggestion shows, for the
    same [g]. *)
Theorem C104_form_partial : forall s sh n f fs e rs r t b a q p g,
  In (n, f) (node_rules s) -> In n shown -> f fs e = ROk rs -> In r rs -> new_text r = Some t ->
  said s sh n fs e = (b, Some a) -> a <> instead (lit "seq_len(nrow((...))") ->
  In q (quotations b) -> code q = Some p -> (forall x, p <> EAtom x) -> e = read_as g p -> bare g ->
  at_node r = e /\ rewritten_as_shown g a t.
Proof. exact forms_followed. Qed.
Print Assumptions C104_form_partial.

(** any(!is.na(y)): the message shows any(!x) and !all(x); here x stands for
    is.na(y). *)
Example any_not_na s sh :
  let e := ECall (EAtom (AId (lit "any"))) [(None, Some (EUn UNot is_na_y))] in
  exists r t, outer_negation [] e = Some r /\ new_text r = Some t /\
  said s sh (lit "outer_negation") [] e = (lit "`any(!x)` may be hard to read.", Some (lit "Use `!all(x)` instead.")) /\
  quotations (lit "`any(!x)` may be hard to read.") = [lit "any(!x)"] /\
  code (lit "any(!x)") = Some (ECall (EAtom (AId (lit "any"))) [(None, Some (EUn UNot (EAtom (AId (lit "x")))))]) /\
  e = read_as is_na_reading (ECall (EAtom (AId (lit "any"))) [(None, Some (EUn UNot (EAtom (AId (lit "x")))))]) /\
  bare is_na_reading /\ spelling t = lit "!all(is.na(y))".
Proof.
  cbv zeta. eexists _, _. split; [reflexivity|]. split; [reflexivity|].
  split; [reads|]. split; [reads|]. split; [reads|]. split; [reads|].
  split; [intros x; exact Logic.I|reads].
Qed.
Example two_rules s : In (lit "outer_negation", total outer_negation) (node_rules s) /\
  In (lit "outer_negation") advised /\ In (lit "outer_negation") shown.
Proof. split; [|split]; cbn; intuition. Qed.

(** The advice of seq on 1:nrow(x) is not R code: one parenthesis too many. *)
Theorem C104_nrow_refuted : forall s sh, exists e r t b a,
  seq_rule [] e = Some r /\ new_text r = Some t /\ said s sh (lit "seq") [] e = (b, Some a) /\
  quotations a = [lit "seq_len(nrow((...))"] /\ code (lit "seq_len(nrow((...))") = None /\ ~ follows_advice a t.
Proof.
  intros s sh.
  exists (EBin BColon false (EAtom (ANum (lit "1"))) (ECall (EAtom (AId (lit "nrow"))) [(None, Some (EAtom (AId (lit "x"))))])).
  eexists _, _, _, _. split; [reflexivity|]. split; [reflexivity|]. split; [reflexivity|].
  split; [reads|]. split; [reads|]. intros (q & more & p & g & Q & K & _).
  assert (X : q = lit "seq_len(nrow((...))").
  { transitivity (hd [] (q :: more)); [reflexivity|]. rewrite <- Q. reads. }
  subst q. assert (Y : code (lit "seq_len(nrow((...))") = None) by reads. rewrite Y in K. discriminate.
Qed.
Print Assumptions C104_nrow_refuted.

(** The message of any(-x) is about any(!x): of no form that it shows. *)
Theorem C104_minus_refuted : forall s sh, exists e r b a,
  outer_negation [] e = Some r /\ said s sh (lit "outer_negation") [] e = (b, Some a) /\
  forall q p g, In q (quotations b) -> code q = Some p -> e <> read_as g p.
Proof.
  intros s sh. exists (ECall (EAtom (AId (lit "any"))) [(None, Some (EUn UNeg (EAtom (AId (lit "x")))))]).
  eexists _, _, _. split; [reflexivity|]. split; [reflexivity|]. intros q p g Q K.
  quoted Q. repeat each_quote Q. form K (x_in (lit "any") (EUn UNot (EAtom (AId (lit "x"))))). discriminate.
Qed.
Print Assumptions C104_minus_refuted.

(** The message of a comparison of class(x) by [!=] advises inherits(x, 'a'); the
    fix is its opposite. *)
Theorem C104_class_refuted : forall s sh, exists fs e r t b a,
  class_equals fs e = Some r /\ new_text r = Some t /\ said s sh (lit "class_equals") fs e = (b, Some a) /\
  spelling t = lit "!inherits(x,""a"")" /\ quotations a = [lit "inherits(x, 'a')"] /\ ~ follows_advice a t.
Proof.
  intros s sh.
  exists [FIfC (EAtom (AId (lit "y"))) None], (EBin (BCmp CNe) false (ECall (EAtom (AId (lit "class"))) [(None, Some (EAtom (AId (lit "x"))))]) (EAtom (AStr (lit """a""")))).
  eexists _, _, _, _. split; [reflexivity|]. split; [reflexivity|]. split; [reflexivity|].
  split; [reads|]. split; [reads|]. intros (q & more & p & g & Q & K & T).
  assert (X : q = lit "inherits(x, 'a')").
  { transitivity (hd [] (q :: more)); [reflexivity|]. rewrite <- Q. reads. }
  subst q. form K (ECall (EAtom (AId (lit "inherits"))) [hole (lit "x"); (None, Some (EAtom (AStr (lit "'a'"))))]).
  destruct T as [T|T]; discriminate.
Qed.
Print Assumptions C104_class_refuted.

(** C104.  No message has a line break, except maybe those that quote names of
    the code or of the configuration: each diagnostic is one line where one line
    is printed for it (C92, C93). *)
Theorem C104_one_line_partial : forall s sh n f fs e rs r b a,
  In (n, f) (node_rules s) -> n <> lit "duplicated_arguments" -> n <> lit "undesirable_function" ->
  f fs e = ROk rs -> In r rs -> said s sh n fs e = (b, a) ->
  one_line b /\ match a with Some x => one_line x | None => True end.
Proof.
  intros s sh n f fs e rs r b a Hn D U Hf Hr W. pose proof (plain_said s sh n f fs e rs r Hn D U Hf Hr) as P.
  rewrite W in P. unfold plain_words in P. cbn [fst snd] in P. apply andb_true_iff in P. destruct P as [P Q].
  split; [now apply plain_line|]. destruct a; [now apply plain_line|exact Logic.I].
Qed.
Print Assumptions C104_one_line_partial.

(** C104.  duplicated_arguments names exactly the names given more than once, each
    of them once. *)
Theorem C104_names : forall s sh fs callee args, some_order sh ->
  exists l, said s sh (lit "duplicated_arguments") fs (ECall callee args) =
    (lit "Avoid duplicated arguments in function calls. Duplicated argument(s): " ++ listing l ++ lit ".", None) /\
  NoDup l /\ forall x, In x l <-> 2 <= count_occ (list_eq_dec N.eq_dec) (given_names args) x.
Proof.
  intros s sh fs callee args O. exists (sh (repeated_names (given_names args))). split; [|split].
  - rewrite <- join_listing. reflexivity.
  - apply (Permutation_NoDup (Permutation_sym (O _))). apply repeated_nodup.
  - intros x. split; intros H.
    + apply repeated_iff. exact (Permutation_in _ (O _) H).
    + apply (Permutation_in _ (Permutation_sym (O _))). now apply repeated_iff.
Qed.
Print Assumptions C104_names.

(** C104.  The same code gets the same message in every run, unless two different
    names are repeated in a call. *)
Theorem C104_repeatable_partial : forall s sh sh' n fs e, some_order sh -> some_order sh' ->
  (forall callee args x y, e = ECall callee args -> n = lit "duplicated_arguments" ->
   2 <= count_occ (list_eq_dec N.eq_dec) (given_names args) x ->
   2 <= count_occ (list_eq_dec N.eq_dec) (given_names args) y -> x = y) ->
  said s sh n fs e = said s sh' n fs e.
Proof.
  intros s sh sh' n fs e O O' K. destruct (teqb n (lit "duplicated_arguments")) eqn:N.
  - apply teqb_eq in N. subst n. destruct e; try reflexivity. assert (K' : length (repeated_names (given_names args)) <= 1).
    { pose proof (repeated_nodup (given_names args)) as U. specialize (K _ _ (hd [] (repeated_names (given_names args)))
        (hd [] (tl (repeated_names (given_names args)))) eq_refl eq_refl). unfold text_dec in *.
      destruct (repeated_names (given_names args)) as [|x [|y l]] eqn:R; [cbn; lia|cbn; lia|exfalso].
      assert (E : x = y) by (apply K; apply (repeated_iff (given_names args)); rewrite R; cbn; auto).
      subst y. inversion U as [|? ? V]. apply V. now left. }
    clear K. rename K' into K. assert (X : forall o, some_order o -> o (repeated_names (given_names args)) = repeated_names (given_names args)).
    { intros o P. specialize (P (repeated_names (given_names args))). destruct (repeated_names (given_names args)) as [|x [|y l]].
      - apply Permutation_nil. now apply Permutation_sym.
      - apply Permutation_length_1_inv. now apply Permutation_sym.
      - cbn in K. lia. }
    change (say_duplicated_arguments sh (ECall e args) = say_duplicated_arguments sh' (ECall e args)).
    unfold say_duplicated_arguments. rewrite (X sh O), (X sh' O'). reflexivity.
  - unfold said. rewrite N. reflexivity.
Qed.
Print Assumptions C104_repeatable_partial.

(** f(a = 1, b = 2, a = 3, b = 4): two runs may say different things. *)
Theorem C104_repeatable_refuted : forall s fs, exists e r, duplicated_arguments [] fs e = ROk (Some r) /\
  exists sh sh', some_order sh /\ some_order sh' /\
  said s sh (lit "duplicated_arguments") fs e <> said s sh' (lit "duplicated_arguments") fs e.
Proof.
  intros s fs.
  exists (ECall (EAtom (AId (lit "f"))) (map (fun n => (Some n, Some (EAtom (ANum (lit "1"))))) [lit "a"; lit "b"; lit "a"; lit "b"])).
  eexists. split; [reflexivity|]. exists (fun l => l), (@rev text). split; [|split].
  - intros l. apply Permutation_refl.
  - intros l. apply Permutation_sym, Permutation_rev.
  - intros H. apply (f_equal fst) in H. vm_compute in H. discriminate.
Qed.
Print Assumptions C104_repeatable_refuted.

(** C104.  A mismatch in sprintf is told with two numbers that differ. *)
Theorem C104_numbers : forall s sh fs e r a, sprintf_rule fs e = Some r ->
  said s sh (lit "sprintf") fs e = (lit "Mismatch between number of special characters and number of arguments.", Some a) ->
  exists n m, n <> m /\ a = lit "Found " ++ decimal n ++ lit " special character(s) and " ++ decimal m ++ lit " argument(s).".
Proof. exact sprintf_differ. Qed.
Print Assumptions C104_numbers.
Example sprintf_two s sh : exists r,
  let e := ECall (EAtom (AId (lit "sprintf"))) [(None, Some (EAtom (AStr (lit """%s and %d""")))); (None, Some (EAtom (AId (lit "x"))))] in
  sprintf_rule [] e = Some r /\ said s sh (lit "sprintf") [] e =
  (lit "Mismatch between number of special characters and number of arguments.",
   Some (lit "Found 2 special character(s) and 1 argument(s).")).
Proof. eexists. cbv zeta. split; reads. Qed.

(** C104.  vector_logic names the operator of the code reported, and the construct
    whose condition it is. *)
Theorem C104_construct : forall s sh fs e r, vector_logic fs e = Some r ->
  exists o nl l x f rest, e = EBin o nl l x /\ fs = f :: rest /\ (o = BAnd \/ o = BOr) /\
  said s sh (lit "vector_logic") fs e =
  (lit "`" ++ (match o with BAnd => lit "&" | _ => lit "|" end) ++ lit "` in `" ++
   (match f with FWhileC _ => lit "while" | _ => lit "if" end) ++ lit "()` statements can be inefficient.", None) /\
  ((exists t el, f = FIfC t el) \/ (exists body, f = FWhileC body)).
Proof.
  intros s sh fs e r H. unfold vector_logic in H. destruct e; try discriminate.
  destruct o; try discriminate; (destruct (_ || _)%bool; [discriminate|]; destruct fs as [|f rest]; [discriminate|];
    destruct f; try discriminate;
    (eexists _, _, _, _, _, _; split; [reflexivity|]; split; [reflexivity|]; split; [auto|]; split; [reads|]; eauto)).
Qed.
Print Assumptions C104_construct.

(** C104.  undesirable_function names a function of the list that it was given. *)
Theorem C104_undesirable : forall s sh fs e r, undesirable_function (undesirable s) fs e = Some r ->
  exists n, In n (undesirable s) /\
  said s sh (lit "undesirable_function") fs e = (lit "`" ++ n ++ lit "()` is listed as an undesirable function.", None).
Proof.
  intros s sh fs e r H. unfold undesirable_function in H. destruct e; try discriminate.
  destruct (mem _ _) eqn:M; [|discriminate]. exists (get_function_name e). split; [|reflexivity].
  unfold mem in M. apply existsb_exists in M. destruct M as (x & I & E). apply teqb_eq in E. now subst.
Qed.
Print Assumptions C104_undesirable.

(** if (y) while (x <- f()) g(): the assignment is in the condition of the while,
    but the message says if. *)
Theorem C104_place_refuted : forall s sh, exists fs e r,
  fs = [FWhileC (ECall (EAtom (AId (lit "g"))) []); FIfT (EAtom (AId (lit "y"))) None] /\
  implicit_assignment [] fs e = Some r /\
  said s sh (lit "implicit_assignment") fs e = (lit "Avoid implicit assignments in `if()` statements.", None).
Proof.
  intros s sh. eexists _, (EBin (BAssign (lit "<-")) false (EAtom (AId (lit "x"))) (ECall (EAtom (AId (lit "f"))) [])), _.
  split; [reflexivity|]. split; [reflexivity|reads].
Qed.
Print Assumptions C104_place_refuted.

(** C104.  Where the advice names a function rather than a form, the fix calls that
    function, or its negation. *)
Theorem C104_function : forall s sh n f fs e rs r t b a,
  In (n, f) (node_rules s) -> In n function_advised -> f fs e = ROk rs -> In r rs -> new_text r = Some t ->
  said s sh n fs e = (b, Some a) -> calls_advised a t.
Proof. exact function_called. Qed.
Print Assumptions C104_function.

(** C104.  assignment names the operator that its fix uses, and the fix assigns the
    same thing to the same place. *)
Theorem C104_operator : forall s sh fs e r, assignment (prefer_arrow s) fs e = Some r ->
  exists o l x t, said s sh (lit "assignment") fs e = (lit "Use `" ++ spell_op o ++ lit "` for assignment.", None) /\
  new_text r = Some t /\ t = toks l ++ TOp o :: toks x /\
  ((exists o' nl, e = EBin o' nl l x /\ o' <> o) \/ (exists nl, e = EBin (BRAssign (lit "->")) nl x l)).
Proof. exact assignment_operator. Qed.
Print Assumptions C104_operator.

(** C104.  download_file tells the mode that the call has, and advises its binary
    variant. *)
Theorem C104_mode : forall s sh fs e r, download_file fs e = Some r ->
  exists f args, e = ECall f args /\ get_function_name f = lit "download.file" /\
  ((arg_value (get_arg_by_name_then_position args (lit "mode") 5) = None /\
    said s sh (lit "download_file") fs e =
    (lit "`download.file()` without explicit `mode` can cause portability issues on Windows.", Some (lit "Use mode = 'wb' instead."))) \/
   exists c q, (c = lit "w" \/ c = lit "a") /\ (q = lit "'" \/ q = lit """") /\
    arg_value (get_arg_by_name_then_position args (lit "mode") 5) = Some (EAtom (AStr (q ++ c ++ q))) /\
    said s sh (lit "download_file") fs e =
    (lit "`download.file()` with `mode = '" ++ c ++ lit "'` can cause portability issues on Windows.",
     Some (lit "Use mode = '" ++ c ++ lit "b' instead."))).
Proof. exact download_mode. Qed.
Print Assumptions C104_mode.

(** C104.  implicit_assignment names a construct that the assignment is in, with no
    braces in between (maybe not the closest: C104_place_refuted). *)
Theorem C104_inside : forall s sh fs e r, implicit_assignment (assign_ok s) fs e = Some r ->
  exists k kind, In (k, kind) [(lit "`if()` statements", of_if); (lit "`while()` statements", of_while);
                               (lit "`for()` statements", of_for); (lit "function calls", of_call)] /\
  said s sh (lit "implicit_assignment") fs e = (lit "Avoid implicit assignments in " ++ k ++ lit ".", None) /\
  directly_inside kind fs.
Proof. exact implicit_inside. Qed.
Print Assumptions C104_inside.

(** C104.  all_equal speaks of all.equal alone only on a call of it, or on its
    negation. *)
Theorem C104_all_equal : forall s sh fs e r a, all_equal fs e = Some r ->
  said s sh (lit "all_equal") fs e = (lit "If `all.equal()` is false, it will return a string and not `FALSE`.", Some a) ->
  called e = lit "all.equal" /\ (at_node r = e \/ at_node r = EUn UNot e).
Proof. exact all_equal_itself. Qed.
Print Assumptions C104_all_equal.
Example words_given s sh :
  (exists r, equals_na [] (EBin (BCmp CNe) false (EAtom (AId (lit "x"))) (EAtom (ANa (lit "NA")))) = Some r /\ new_text r <> None) /\
  (exists r, assignment true [] (EBin (BRAssign (lit "->")) false (EAtom (ANum (lit "1"))) (EAtom (AId (lit "x")))) = Some r) /\
  (let e := ECall (EAtom (AId (lit "all.equal"))) [(None, Some (EAtom (AId (lit "x")))); (None, Some (EAtom (AId (lit "y"))))] in
   let fs := [FIfC (EAtom (AId (lit "z"))) None] in
   exists r a, all_equal fs e = Some r /\
   said s sh (lit "all_equal") fs e = (lit "If `all.equal()` is false, it will return a string and not `FALSE`.", Some a)).
Proof.
  split; [|split].
  - eexists. split; [reflexivity|discriminate].
  - eexists. reflexivity.
  - cbv zeta. eexists _, _. split; reflexivity.
Qed.
