From Verif Require Import Model.Messages Spec.AdviceSpec Proofs.TextProofs.

(** ** Forms *)
Lemma toks_call n args : toks (ECall (EAtom (AId n)) args) = call_text n (args_toks args).
Proof. reflexivity. Qed.

Definition hole (x : text) : arg := (None, Some (EAtom (AId x))).
Definition any_args : arg := (None, Some (EAtom (AOther (lit "...")))).

Definition putting (x : expr) : reading := mk_reading (fun _ => x) [].
Definition putting2 (a : text) (x y : expr) : reading := mk_reading (fun v => if teqb v a then x else y) [].
Definition with_args (l : list arg) : reading := mk_reading (fun _ => EAtom ANull) l.

Ltac reads := vm_compute; reflexivity.

Lemma follow g a q more p t : quotations a = q :: more -> code q = Some p ->
  (t = toks (read_as g p) \/ unqualified t = toks (read_as g p)) -> follows_advice a t.
Proof. intros A B C. now exists q, more, p, g. Qed.

(** [f(...)] *)
Lemma follow_dots a f l t : quotations a = [f ++ lit "(...)"] ->
  code (f ++ lit "(...)") = Some (ECall (EAtom (AId f)) [any_args]) -> stands_for_code f = false ->
  unqualified t = call_text f (args_toks l) -> follows_advice a t.
Proof.
  intros A B N C. eapply (follow (with_args l)); [exact A|exact B|]. right. rewrite C. symmetry.
  transitivity (toks (ECall (EAtom (AId f)) (l ++ []))).
  - f_equal. cbn [read_as flat_map any_args with_args dots]. rewrite N. reflexivity.
  - rewrite app_nil_r. apply toks_call.
Qed.
Lemma follow_x a f x t : quotations a = [f ++ lit "(x)"] ->
  code (f ++ lit "(x)") = Some (ECall (EAtom (AId f)) [hole (lit "x")]) -> stands_for_code f = false ->
  unqualified t = call_text f (toks x) -> follows_advice a t.
Proof.
  intros A B N C. eapply (follow (putting x)); [exact A|exact B|]. right. rewrite C. symmetry.
  transitivity (toks (ECall (EAtom (AId f)) [(None, Some x)])).
  - f_equal. cbn [read_as flat_map hole putting]. rewrite N. reflexivity.
  - reflexivity.
Qed.
Lemma follow_two a f v x y t : quotations a = [f ++ lit "(x, " ++ v ++ lit ")"] -> stands_for_code v = true -> v <> lit "x" ->
  (code (f ++ lit "(x, " ++ v ++ lit ")") = Some (ECall (EAtom (AId f)) [hole (lit "x"); hole v]) \/
   code (f ++ lit "(x, " ++ v ++ lit ")") = Some (ECall (EAtom (AId f)) [hole (lit "x"); (None, Some (EAtom (AStr v)))])) ->
  stands_for_code f = false ->
  unqualified t = call_text f (toks x ++ TComma :: toks y) -> follows_advice a t.
Proof.
  intros A V D B N C.
  assert (F : teqb v (lit "x") = false).
  { destruct (teqb v (lit "x")) eqn:E; [|reflexivity]. now apply teqb_eq in E. }
  assert (Q : forall p, p = hole v \/ p = (None, Some (EAtom (AStr v))) ->
    call_text f (toks x ++ TComma :: toks y) =
    toks (read_as (putting2 (lit "x") x y) (ECall (EAtom (AId f)) [hole (lit "x"); p]))).
  { intros p P. symmetry. transitivity (toks (ECall (EAtom (AId f)) [(None, Some x); (None, Some y)])); [|reflexivity].
    f_equal. destruct P as [ -> | -> ]; cbn [read_as flat_map hole is_dots]; rewrite N, V; unfold putting2; cbn [stands]; rewrite F; reflexivity. }
  destruct B as [B|B].
  - eapply (follow (putting2 (lit "x") x y)); [exact A|exact B|]. right. rewrite C. now apply Q; left.
  - eapply (follow (putting2 (lit "x") x y)); [exact A|exact B|]. right. rewrite C. now apply Q; right.
Qed.

(** ** The advice, rule by rule *)
Lemma some_of {A} (x y : A) : Some x = Some y -> x = y.
Proof. now inversion 1. Qed.

(** What [get_nested_functions_content] finds is the text of some arguments. *)
Lemma nested_is_args fs e o i c w : get_nested_functions_content fs e o i = Some (c, w) -> exists l, c = args_toks l.
Proof.
  unfold get_nested_functions_content. destruct e; try discriminate.
  destruct (negb _); [discriminate|].
  destruct (nested_content args i) eqn:N.
  - intros H. apply some_of in H. inversion H; subst. unfold nested_content in N.
    destruct (find is_unnamed args) as [[k [v|]]|]; try discriminate. destruct v; try discriminate.
    destruct (teqb _ _); [|discriminate]. apply some_of in N. eauto.
  - destruct fs as [|f0 fs]; [discriminate|]. destruct f0; try discriminate; destruct o0; try discriminate.
    + destruct (teqb _ _); [|discriminate]. intros H. apply some_of in H. inversion H. eauto.
    + destruct l; try discriminate.
      * destruct o0; try discriminate. destruct l2; try discriminate. destruct (_ && _); [|discriminate].
        intros H. apply some_of in H. inversion H. exists [(None, Some l1)]. reflexivity.
      * destruct (teqb _ _); [|discriminate]. intros H. apply some_of in H. inversion H. eauto.
Qed.

Ltac fixes H T := apply some_of in H; subst; cbn [new_text] in T; apply some_of in T; subst.

Lemma advice_any_is_na s sh fs e r t b a : any_is_na fs e = Some r -> new_text r = Some t ->
  said s sh (lit "any_is_na") fs e = (b, Some a) -> follows_advice a t.
Proof.
  unfold any_is_na. destruct (get_nested_functions_content _ _ _ _) as [[c [fs' e']]|] eqn:N; [|discriminate].
  intros H T W. fixes H T. destruct (nested_is_args _ _ _ _ _ _ N) as [l ->].
  assert (Wa : a = lit "Use `anyNA(...)` instead.").
  { destruct e; try discriminate. change (said _ _ _ _ _) with (say_any_is_na (ECall e args)) in W. now inversion W. }
  subst a. apply (follow_dots _ (lit "anyNA") l); try reads.
Qed.
Lemma advice_any_is_na_2 s sh fs e r t b a : any_is_na_2 fs e = Some r -> new_text r = Some t ->
  said s sh (lit "any_is_na") fs e = (b, Some a) -> follows_advice a t.
Proof.
  intros H T W. unfold any_is_na_2 in H. destruct e; try discriminate. destruct o; try discriminate.
  assert (Wa : a = lit "Use `anyNA(x)` instead.").
  { change (said _ _ _ _ _) with (say_any_is_na (EBin (BSpecial t0) nl e1 e2)) in W. now inversion W. }
  destruct (teqb _ _); [|discriminate].
  assert (X : Some (mk_report fs (EBin (BSpecial t0) nl e1 e2) (Some (call_text (lit "anyNA") (toks e2)))) = Some r).
  { destruct e1; destruct e2; try discriminate; try (destruct a0; discriminate);
      repeat match goal with x : atom |- _ => destruct x end; try discriminate; exact H. }
  fixes X T. apply (follow_x _ (lit "anyNA") e2); try reads.
Qed.
Lemma advice_any_duplicated s sh fs e r t b a : any_duplicated fs e = Some r -> new_text r = Some t ->
  said s sh (lit "any_duplicated") fs e = (b, Some a) -> follows_advice a t.
Proof.
  unfold any_duplicated. destruct (get_nested_functions_content _ _ _ _) as [[c [fs' e']]|] eqn:N; [|discriminate].
  intros H T W. fixes H T. destruct (nested_is_args _ _ _ _ _ _ N) as [l ->].
  change (said _ _ _ _ _) with (lit "`any(duplicated(...))` is inefficient.", Some (lit "Use `anyDuplicated(...) > 0` instead.")) in W.
  inversion W; try subst a. 
  eapply (follow (with_args l) _ _ _ (EBin (BCmp CGt) false (ECall (EAtom (AId (lit "anyDuplicated"))) [any_args]) (EAtom (ANum (lit "0"))))); try reads.
  left. symmetry. transitivity (toks (EBin (BCmp CGt) false (ECall (EAtom (AId (lit "anyDuplicated"))) (l ++ [])) (EAtom (ANum (lit "0"))))).
  - reflexivity.
  - rewrite app_nil_r. reflexivity.
Qed.
Lemma advice_length_levels s sh fs e r t b a : length_levels fs e = Some r -> new_text r = Some t ->
  said s sh (lit "length_levels") fs e = (b, Some a) -> follows_advice a t.
Proof.
  unfold length_levels. destruct (get_nested_functions_content _ _ _ _) as [[c [fs' e']]|] eqn:N; [|discriminate].
  intros H T W. fixes H T. destruct (nested_is_args _ _ _ _ _ _ N) as [l ->].
  change (said _ _ _ _ _) with (lit "`length(levels(...))` is less readable than `nlevels(...)`.", Some (lit "Use `nlevels(...)` instead.")) in W.
  inversion W; try subst a. apply (follow_dots _ (lit "nlevels") l); try reads.
Qed.
Lemma advice_grepv s sh fs e r t b a : grepv fs e = Some r -> new_text r = Some t ->
  said s sh (lit "grepv") fs e = (b, Some a) -> follows_advice a t.
Proof.
  unfold grepv. destruct e; try discriminate. destruct (_ && _); [|discriminate]. intros H T W. fixes H T.
  change (said _ _ _ _ _) with (lit "`grep(..., value = TRUE)` can be simplified.", Some (lit "Use `grepv(...)` instead.")) in W.
  inversion W; try subst a.
  apply (follow_dots _ (lit "grepv") (match drop_arg_by_name_or_position args (lit "value") 5 with Some m => m | None => [] end)); try reads.
  destruct (drop_arg_by_name_or_position _ _ _); reflexivity.
Qed.
Lemma sep_app2 : forall (l m : list (list tok)), l <> [] -> m <> [] -> sep [TComma] l ++ TComma :: sep [TComma] m = sep [TComma] (l ++ m).
Proof.
  induction l as [|x l IH]; intros m L M; [congruence|]. destruct l as [|y l].
  - destruct m; [congruence|]. reflexivity.
  - change (sep [TComma] (x :: y :: l)) with (x ++ [TComma] ++ sep [TComma] (y :: l)).
    change (sep [TComma] ((x :: y :: l) ++ m)) with (x ++ [TComma] ++ sep [TComma] ((y :: l) ++ m)).
    rewrite <- IH by (auto; discriminate). now rewrite <- !app_assoc.
Qed.
Lemma advice_system_file s sh fs e r t b a : system_file fs e = Some r -> new_text r = Some t ->
  said s sh (lit "system_file") fs e = (b, Some a) -> follows_advice a t.
Proof.
  unfold system_file. destruct e; try discriminate. destruct (teqb _ _); [|discriminate].
  destruct (filter is_file_path _) as [|[k [v|]] [|]]; try discriminate; destruct v; try discriminate.
  match goal with |- match filter ?k args0 with _ => _ end = _ -> _ => destruct (filter k args0) as [|p0 ps] eqn:P end; [discriminate|]. intros H T W. fixes H T.
  change (said _ _ _ _ _) with (lit "`system.file(file.path(...))` is redundant.", Some (lit "Use `system.file(...)` instead.")) in W.
  inversion W; try subst a.
  apply (follow_dots _ (lit "system.file") ((p0 :: ps) ++ match get_named_args args with [] => [(None, None)] | l => l end)); try reads.
  unfold unqualified, call_text, id_tok. f_equal. f_equal. f_equal. unfold args_toks. rewrite map_app.
  destruct (get_named_args args) as [|x l].
  - rewrite <- sep_app2 by discriminate. reflexivity.
  - rewrite <- sep_app2 by discriminate. reflexivity.
Qed.
Lemma advice_comparison_negation s sh fs e r t b a : comparison_negation fs e = Some r -> new_text r = Some t ->
  said s sh (lit "comparison_negation") fs e = (b, Some a) -> follows_advice a t.
Proof.
  unfold comparison_negation. destruct e; try discriminate. destruct u; try discriminate.
  destruct e; try discriminate. destruct e; try discriminate. destruct o; try discriminate.
  intros H T W. fixes H T.
  change (said _ _ _ _ _) with (say_comparison_negation (EUn UNot (EParen (EBin (BCmp c) nl e1 e2)))) in W.
  destruct c; apply (f_equal snd) in W; apply some_of in W; subst a;
    match goal with |- follows_advice (instead (_ ++ comparison_text (negated ?c) ++ _)) _ =>
      eapply (follow (putting2 (lit "x") e1 e2) _ _ _ (EBin (BCmp (negated c)) false (EAtom (AId (lit "x"))) (EAtom (AId (lit "y"))))); [reads|reads|left; reflexivity]
    end.
Qed.

Lemma advice_outer_negation s sh fs e r t b a : outer_negation fs e = Some r -> new_text r = Some t ->
  said s sh (lit "outer_negation") fs e = (b, Some a) -> follows_advice a t.
Proof.
  unfold outer_negation. destruct (parent_is_bang_unary fs); [discriminate|].
  destruct e; try discriminate. destruct e; try discriminate. destruct a0; try discriminate.
  destruct args as [|[k [v|]] [|]]; try discriminate; destruct v; try discriminate.
  intros H T W. change (said _ _ _ _ _) with (say_outer_negation (ECall (EAtom (AId x)) [(k, Some (EUn u v))])) in W.
  unfold say_outer_negation, called, get_function_name in W.
  assert (X : exists n m, (n = lit "all" /\ m = lit "Use `!all(x)` instead." \/ n = lit "any" /\ m = lit "Use `!any(x)` instead.") /\
             a = m /\ t = TBang :: call_text n (toks v)).
  { destruct (teqb x (lit "all") || teqb x (lit "any")) eqn:O; [|discriminate].
    assert (Y : t = TBang :: call_text (if teqb x (lit "any") then lit "all" else lit "any") (toks v)).
    { destruct v; try discriminate; fixes H T; reflexivity. }
    destruct (teqb x (lit "any")) eqn:N; apply (f_equal snd) in W; apply some_of in W; subst a;
      [exists (lit "all"), (lit "Use `!all(x)` instead.")|exists (lit "any"), (lit "Use `!any(x)` instead.")]; tauto. }
  destruct X as (n & m & [[ -> -> ]|[ -> -> ]] & -> & ->).
  - eapply (follow (putting v) _ _ _ (EUn UNot (ECall (EAtom (AId (lit "all"))) [hole (lit "x")]))); [reads|reads|left; reflexivity].
  - eapply (follow (putting v) _ _ _ (EUn UNot (ECall (EAtom (AId (lit "any"))) [hole (lit "x")]))); [reads|reads|left; reflexivity].
Qed.
Lemma advice_coalesce s sh fs e r t b a : coalesce fs e = Some r -> new_text r = Some t ->
  said s sh (lit "coalesce") fs e = (b, Some a) -> follows_advice a t.
Proof.
  intros H T W.
  assert (Wa : a = lit "Use `x %||% y` instead.").
  { change (said _ _ _ _ _) with (say_coalesce e) in W. unfold say_coalesce in W.
    destruct e; try (now inversion W). destruct e1; now inversion W. }
  assert (X : exists x y, t = toks x ++ TOp (BSpecial (lit "%||%")) :: toks y).
  { unfold coalesce in H. destruct e; try discriminate. destruct el; try discriminate.
    destruct e1; try discriminate.
    - destruct u; try discriminate. destruct e1; try discriminate. destruct (teqb _ _); [|discriminate].
      destruct (given_values args) as [|x [|]]; try discriminate. destruct (same_text _ _); [|discriminate].
      apply some_of in H. subst r. cbn [new_text] in T. destruct (_ || _); [discriminate|]. apply some_of in T. subst t. eauto.
    - destruct (teqb _ _); [|discriminate].
      destruct (given_values args) as [|x [|]]; try discriminate. destruct (same_text _ _); [|discriminate].
      apply some_of in H. subst r. cbn [new_text] in T. destruct (_ || _); [discriminate|]. apply some_of in T. subst t. eauto. }
  destruct X as (x & y & ->). subst a.
  eapply (follow (putting2 (lit "x") x y) _ _ _ (EBin (BSpecial (lit "%||%")) false (EAtom (AId (lit "x"))) (EAtom (AId (lit "y"))))); [reads|reads|left; reflexivity].
Qed.
Lemma size_cases n : existsb (teqb n) size_names = true ->
  n = lit "length" \/ n = lit "nrow" \/ n = lit "ncol" \/ n = lit "NROW" \/ n = lit "NCOL".
Proof.
  unfold size_names. cbn [existsb].
  intros H. repeat (apply orb_true_iff in H; destruct H as [H|H]; [apply teqb_eq in H; tauto|]). discriminate.
Qed.
Lemma follow_len a f l t : quotations a = [lit "seq_len(" ++ f ++ lit "(...))"] ->
  code (lit "seq_len(" ++ f ++ lit "(...))") =
    Some (ECall (EAtom (AId (lit "seq_len"))) [(None, Some (ECall (EAtom (AId f)) [any_args]))]) ->
  stands_for_code f = false ->
  t = call_text (lit "seq_len") (call_text f (args_toks l)) -> follows_advice a t.
Proof.
  intros A B N ->. eapply (follow (with_args l)); [exact A|exact B|]. left. symmetry.
  transitivity (toks (ECall (EAtom (AId (lit "seq_len"))) [(None, Some (ECall (EAtom (AId f)) (l ++ [])))])).
  - f_equal. cbn [read_as flat_map any_args with_args dots is_dots]. rewrite N. reflexivity.
  - rewrite app_nil_r. reflexivity.
Qed.
Lemma advice_seq s sh fs e r t b a : seq_rule fs e = Some r -> new_text r = Some t ->
  said s sh (lit "seq") fs e = (b, Some a) -> a <> instead (lit "seq_len(nrow((...))") -> follows_advice a t.
Proof.
  unfold seq_rule. destruct e; try discriminate. destruct o; try discriminate. destruct e2; try discriminate.
  destruct (_ && _) eqn:C; [|discriminate]. apply andb_true_iff in C. destruct C as [_ C].
  intros H T W R. fixes H T.
  change (said _ _ _ _ _) with (say_seq (EBin BColon nl e1 (ECall e2 args))) in W.
  unfold say_seq, called in W. apply (f_equal snd) in W. cbn [snd] in W. apply some_of in W.
  destruct (size_cases _ C) as [N|[N|[N|[N|N]]]]; rewrite N in *.
  - apply (follow_dots _ (lit "seq_along") args); subst a; try reads.
  - exfalso. subst a. now apply R.
  - apply (follow_len _ (lit "ncol") args); subst a; try reads; reflexivity.
  - apply (follow_len _ (lit "NROW") args); subst a; try reads; reflexivity.
  - apply (follow_len _ (lit "NCOL") args); subst a; try reads; reflexivity.
Qed.
Lemma advice_seq2 s sh fs e r t b a : seq2_rule fs e = Some r -> new_text r = Some t ->
  said s sh (lit "seq2") fs e = (b, Some a) -> follows_advice a t.
Proof.
  unfold seq2_rule. destruct e; try discriminate. destruct args as [|[[k|] [v|]] [|]]; try discriminate; destruct v; try discriminate.
  destruct (_ && _) eqn:C; [|discriminate]. apply andb_true_iff in C. destruct C as [_ C].
  intros H T W. fixes H T.
  change (said _ _ _ _ _) with (say_seq2 (ECall e [(None, Some (ECall v args))])) in W.
  unfold say_seq2, called in W. apply (f_equal snd) in W. cbn [snd] in W. apply some_of in W.
  destruct (size_cases _ C) as [N|[N|[N|[N|N]]]]; rewrite N in *.
  - apply (follow_dots _ (lit "seq_along") args); subst a; try reads.
  - apply (follow_len _ (lit "nrow") args); subst a; try reads; reflexivity.
  - apply (follow_len _ (lit "ncol") args); subst a; try reads; reflexivity.
  - apply (follow_len _ (lit "NROW") args); subst a; try reads; reflexivity.
  - apply (follow_len _ (lit "NCOL") args); subst a; try reads; reflexivity.
Qed.
Lemma advice_list2df s sh fs e r t b a : list2df fs e = Some r -> new_text r = Some t ->
  said s sh (lit "list2df") fs e = (b, Some a) -> follows_advice a t.
Proof.
  unfold list2df. destruct e; try discriminate. destruct (teqb _ _); [|discriminate].
  destruct (get_arg_by_name_then_position _ _ 1) as [[? [w|]]|]; try discriminate.
  destruct (get_arg_by_name_then_position _ _ 2) as [[? [l|]]|]; try discriminate.
  destruct (get_arg_by_position args 3); [discriminate|]. destruct (is_cbind_df w); [|discriminate].
  intros H T W. fixes H T.
  change (said _ _ _ _ _) with (lit "`do.call(cbind.data.frame, x)` is inefficient and can be hard to read.", Some (lit "Use `list2DF(x)` instead.")) in W.
  inversion W; try subst a. apply (follow_x _ (lit "list2DF") l); try reads.
Qed.
Lemma advice_redundant_ifelse s sh fs e r t b a : redundant_ifelse fs e = Some r -> new_text r = Some t ->
  said s sh (lit "redundant_ifelse") fs e = (b, Some a) -> follows_advice a t.
Proof.
  unfold redundant_ifelse. destruct e; try discriminate.
  intros H T W. change (said _ _ _ _ _) with (say_redundant_ifelse (ECall e args)) in W. unfold say_redundant_ifelse in W.
  destruct (ifelse_formals _) as [[[p q] c]|]; [|discriminate].
  destruct (negb _); [discriminate|].
  destruct (get_arg_by_name_then_position _ _ 1) as [[? [x|]]|]; try discriminate.
  destruct (get_arg_by_name_then_position _ _ 2) as [[? [y|]]|]; try discriminate.
  destruct (get_arg_by_name_then_position _ _ 3) as [[? [z|]]|]; try discriminate.
  destruct y; try discriminate. destruct a0; try discriminate; destruct z; try discriminate; destruct a0; try discriminate;
    apply some_of in H; subst r; cbn [new_text] in T; try discriminate; apply some_of in T; subst t;
    apply (f_equal snd) in W; cbn [snd] in W; apply some_of in W; subst a.
  - eapply (follow (putting x) _ _ _ (EAtom (AId (lit "condition")))); [reads|reads|left; reflexivity].
  - eapply (follow (putting (EParen x)) _ _ _ (EUn UNot (EAtom (AId (lit "condition"))))); [reads|reads|left; reflexivity].
Qed.

(** Expectations *)
Lemma expect_bare f n c : unqualified (expect_text f n c) = call_text n c.
Proof. unfold expect_text, same_package, unqualified, call_text, id_tok. destruct f; try reflexivity. destruct a; reflexivity. Qed.

Lemma advice_expect_length s sh fs e r t b a : expect_length fs e = Some r -> new_text r = Some t ->
  said s sh (lit "expect_length") fs e = (b, Some a) -> follows_advice a t.
Proof.
  intros H T W. assert (Wa : a = lit "Use `expect_length(x, n)` instead.") by (change (said s sh (lit "expect_length") fs e) with (lit "`expect_length(x, n)` is better than `" ++ called e ++ lit "(length(x), n)`.", Some (lit "Use `expect_length(x, n)` instead.")) in W; apply (f_equal snd) in W; apply some_of in W; auto).
  assert (X : exists f x y, t = expect_text f (lit "expect_length") (toks x ++ TComma :: toks y)).
  { unfold expect_length in H. destruct e; try discriminate. destruct (is_expect_equal e); [|discriminate].
    destruct (object_expected args) as [[p q]|]; [|discriminate]. destruct (2 <? _); [discriminate|]. cbv beta zeta in H.
    destruct (is_call_named _ p).
    - destruct (is_call_named _ q); [discriminate|]. destruct (x_of p); [|discriminate]. fixes H T. eauto.
    - destruct (is_call_named _ q); [|discriminate]. destruct (x_of q); [|discriminate]. fixes H T. eauto. }
  destruct X as (f & x & y & ->). subst a.
  apply (follow_two _ (lit "expect_length") (lit "n") x y); [reads|reads|discriminate|left; reads|reads|apply expect_bare].
Qed.
Lemma advice_expect_named s sh fs e r t b a : expect_named fs e = Some r -> new_text r = Some t ->
  said s sh (lit "expect_named") fs e = (b, Some a) -> follows_advice a t.
Proof.
  intros H T W. assert (Wa : a = lit "Use `expect_named(x, n)` instead.") by (change (said s sh (lit "expect_named") fs e) with (lit "`expect_named(x, n)` is better than `" ++ called e ++ lit "(names(x), n)`.", Some (lit "Use `expect_named(x, n)` instead.")) in W; apply (f_equal snd) in W; apply some_of in W; auto).
  assert (X : exists f x y, t = expect_text f (lit "expect_named") (toks x ++ TComma :: toks y)).
  { unfold expect_named in H. destruct e; try discriminate. destruct (is_expect_equal e); [|discriminate].
    destruct (object_expected args) as [[p q]|]; [|discriminate].
    destruct (is_call_named _ p); [|discriminate]. destruct (is_call_named _ q); [discriminate|].
    destruct (x_of p); [|discriminate]. fixes H T. eauto. }
  destruct X as (f & x & y & ->). subst a.
  apply (follow_two _ (lit "expect_named") (lit "n") x y); [reads|reads|discriminate|left; reads|reads|apply expect_bare].
Qed.
Lemma advice_expect_s3_class s sh fs e r t b a : expect_s3_class fs e = Some r -> new_text r = Some t ->
  said s sh (lit "expect_s3_class") fs e = (b, Some a) -> follows_advice a t.
Proof.
  intros H T W. assert (Wa : a = lit "Use `expect_s3_class(x, 'y')` instead.") by (change (said s sh (lit "expect_s3_class") fs e) with (lit "`" ++ called e ++ lit "(class(x), 'y')` may fail if `x` gets more classes in the future.", Some (lit "Use `expect_s3_class(x, 'y')` instead.")) in W; apply (f_equal snd) in W; apply some_of in W; auto).
  assert (X : exists f x y, t = expect_text f (lit "expect_s3_class") (toks x ++ TComma :: toks y)).
  { unfold expect_s3_class in H. destruct e; try discriminate. destruct (is_expect_equal e); [|discriminate].
    destruct (object_expected args) as [[p q]|]; [|discriminate]. destruct (2 <? _); [discriminate|]. cbv beta zeta in H.
    destruct (is_call p).
    - destruct (_ && _); [|discriminate]. destruct (x_of p); [|discriminate]. fixes H T. eauto.
    - destruct (is_call q); [|discriminate]. destruct (_ && _); [|discriminate]. destruct (x_of q); [|discriminate]. fixes H T. eauto. }
  destruct X as (f & x & y & ->). subst a.
  apply (follow_two _ (lit "expect_s3_class") (lit "'y'") x y); [reads|reads|discriminate|right; reads|reads|apply expect_bare].
Qed.
Lemma advice_expect_type s sh fs e r t b a : expect_type fs e = Some r -> new_text r = Some t ->
  said s sh (lit "expect_type") fs e = (b, Some a) -> follows_advice a t.
Proof.
  intros H T W. assert (Wa : a = lit "Use `expect_type(x, t)` instead.") by (change (said s sh (lit "expect_type") fs e) with (say_expect_type e) in W; unfold say_expect_type in W; apply (f_equal snd) in W; apply some_of in W; auto).
  assert (X : exists f x y, t = expect_text f (lit "expect_type") (toks x ++ TComma :: toks y)).
  { unfold expect_type in H. destruct e; try discriminate. cbv beta zeta in H. destruct (is_expect_equal e).
    - destruct (2 <? _); [discriminate|]. destruct (object_expected args) as [[p q]|]; [|discriminate].
      destruct (is_call_named _ p).
      + destruct (x_of p); [|discriminate]. fixes H T. eauto.
      + destruct (is_call_named _ q); [|discriminate]. destruct (x_of q); [|discriminate]. fixes H T. eauto.
    - destruct (teqb _ _); [|discriminate]. destruct (1 <? _); [discriminate|].
      destruct (arg_value _) as [v|]; [|discriminate]. destruct v; try discriminate.
      destruct (type_tested _) as [ty|]; [|discriminate]. destruct (arg_value _) as [x|]; [|discriminate]. fixes H T.
      exists e, x, (EAtom (AStr ty)). reflexivity. }
  destruct X as (f & x & y & ->). subst a.
  apply (follow_two _ (lit "expect_type") (lit "t") x y); [reads|reads|discriminate|left; reads|reads|apply expect_bare].
Qed.
Lemma advice_expect_null s sh fs e r t b a : expect_null fs e = Some r -> new_text r = Some t ->
  said s sh (lit "expect_null") fs e = (b, Some a) -> follows_advice a t.
Proof.
  intros H T W. assert (Wa : a = lit "Use `expect_null(x)` instead.") by (change (said s sh (lit "expect_null") fs e) with (say_expect_null e) in W; unfold say_expect_null in W; apply (f_equal snd) in W; apply some_of in W; auto).
  assert (X : exists f x, t = expect_text f (lit "expect_null") (toks x)).
  { unfold expect_null in H. destruct e; try discriminate. destruct (is_expect_equal e).
    - destruct (object_expected args) as [[p q]|]; [|discriminate].
      destruct q as [[]| | | | | | | | | | | |]; try (fixes H T; eauto; fail);
      (destruct p as [[]| | | | | | | | | | | |]; try discriminate; fixes H T; eexists _, _; reflexivity).
    - destruct (teqb _ _); [|discriminate]. destruct (arg_value _) as [v|]; [|discriminate].
      destruct (is_call_named _ v); [|discriminate]. destruct (x_of v); [|discriminate]. fixes H T. eauto. }
  destruct X as (f & x & ->). subst a.
  apply (follow_x _ (lit "expect_null") x); [reads|reads|reads|apply expect_bare].
Qed.
Lemma advice_expect_not s sh fs e r t b a : expect_not fs e = Some r -> new_text r = Some t ->
  said s sh (lit "expect_not") fs e = (b, Some a) -> follows_advice a t.
Proof.
  intros H T W. unfold expect_not in H. destruct e; try discriminate. cbv zeta in H.
  destruct (mem _ _); [|discriminate].
  destruct (get_arg_by_name_then_position _ _ 1) as [[? v]|]; [|discriminate]. destruct (1 <? _); [discriminate|].
  change (said s sh (lit "expect_not") fs (ECall e args)) with (say_expect_not (ECall e args)) in W. unfold say_expect_not, called in W.
  assert (X : exists x, t = expect_text e (if teqb (get_function_name e) (lit "expect_true") then lit "expect_false" else lit "expect_true") (toks x)).
  { destruct v as [v|]; [|discriminate]. destruct v; try discriminate. destruct u; try discriminate.
    destruct v; try discriminate; try (fixes H T; eexists; reflexivity). destruct u; try discriminate; fixes H T; eexists; reflexivity. }
  destruct X as (x & ->). destruct (teqb (get_function_name e) (lit "expect_true"));
    apply (f_equal snd) in W; cbn [snd] in W; apply some_of in W; subst a.
  - apply (follow_x _ (lit "expect_false") x); [reads|reads|reads|apply expect_bare].
  - apply (follow_x _ (lit "expect_true") x); [reads|reads|reads|apply expect_bare].
Qed.
Lemma advice_expect_true_false s sh fs e r t b a : expect_true_false fs e = Some r -> new_text r = Some t ->
  said s sh (lit "expect_true_false") fs e = (b, Some a) -> follows_advice a t.
Proof.
  intros H T W. unfold expect_true_false in H. destruct e; try discriminate. cbv beta zeta in H.
  destruct (is_expect_equal e); [|discriminate].
  change (said s sh (lit "expect_true_false") fs (ECall e args)) with (say_expect_true_false (ECall e args)) in W.
  unfold say_expect_true_false in W. cbv beta zeta in W.
  destruct (object_expected args) as [[p q]|]; [|discriminate].
  assert (X : exists x, (t = expect_text e (lit "expect_true") (toks x) /\ a = lit "Use `expect_true(x)` instead.") \/
                        (t = expect_text e (lit "expect_false") (toks x) /\ a = lit "Use `expect_false(x)` instead.")).
  { destruct p as [[]| | | | | | | | | | | |]; destruct q as [[]| | | | | | | | | | | |]; try discriminate;
      fixes H T; apply (f_equal snd) in W; cbn [snd] in W; apply some_of in W; subst a; eexists;
      try (left; split; reflexivity); right; split; reflexivity. }
  destruct X as (x & [[ -> -> ]|[ -> -> ]]).
  - apply (follow_x _ (lit "expect_true") x); [reads|reads|reads|apply expect_bare].
  - apply (follow_x _ (lit "expect_false") x); [reads|reads|reads|apply expect_bare].
Qed.
Lemma advice_expect_grepl o n fs e r t : expect_grepl o n fs e = Some r -> new_text r = Some t ->
  exists f l, t = expect_text f n (args_toks l).
Proof.
  unfold expect_grepl. destruct e; try discriminate. destruct (negb _); [discriminate|].
  assert (K : match arg_value (get_arg_by_name_then_position args (lit "object") 1) with
            | Some (ECall g gargs) =>
                if teqb (get_function_name g) (lit "grepl") then
                  match arg_index gargs (lit "pattern") 1, arg_index gargs (lit "x") 2 with
                  | Some i, Some j =>
                      match arg_value (nth_error gargs j), arg_value (nth_error gargs i) with
                      | Some x, Some pat =>
                          let rest := drop_indices i j 0 gargs in
                          if 1 <? length args then reported fs (ECall e args)
                          else if existsb is_unnamed rest then reported fs (ECall e args)
                          else fixed_as fs (ECall e args) (expect_text e n
                                 (sep [TComma] (toks x :: toks pat :: map arg_toks rest)))
                      | _, _ => None
                      end
                  | _, _ => None
                  end
                else None
            | _ => None
            end = Some r -> new_text r = Some t -> exists f l, t = expect_text f n (args_toks l)).
  { destruct (arg_value _) as [v|]; [|discriminate]. destruct v; try discriminate. destruct (teqb _ _); [|discriminate].
    destruct (arg_index _ _ 1); [|discriminate]. destruct (arg_index _ _ 2); [|discriminate].
    destruct (arg_value _) as [x|]; [|discriminate]. destruct (arg_value _) as [p|]; [|discriminate]. cbv zeta.
    destruct (1 <? _); [intros H T; apply some_of in H; subst r; discriminate|].
    destruct (existsb _ _); [intros H T; apply some_of in H; subst r; discriminate|].
    intros H T. fixes H T. exists e, ((None, Some x) :: (None, Some p) :: drop_indices n0 n1 0 args0). reflexivity. }
  destruct (get_nested_functions_content _ _ _ _) as [[c [fs' e']]|]; [|exact K].
  destruct e'; try exact K. destruct fs' as [|f0 fs'].
  - intros H T; apply some_of in H; subst r; discriminate.
  - destruct f0; try (intros H T; apply some_of in H; subst r; discriminate).
    destruct u; try discriminate; intros H T; apply some_of in H; subst r; discriminate.
Qed.
Lemma advice_expect_match s sh fs e r t b a : expect_match fs e = Some r -> new_text r = Some t ->
  said s sh (lit "expect_match") fs e = (b, Some a) -> follows_advice a t.
Proof.
  intros H T W. assert (Wa : a = lit "Use `expect_match(...)` instead.") by (change (said s sh (lit "expect_match") fs e) with (lit "`expect_true(grepl(...))` is not as clear as `expect_match(...)`.", Some (lit "Use `expect_match(...)` instead.")) in W; apply (f_equal snd) in W; apply some_of in W; auto).
  destruct (advice_expect_grepl _ _ _ _ _ _ H T) as (f & l & ->). subst a.
  apply (follow_dots _ (lit "expect_match") l); [reads|reads|reads|apply expect_bare].
Qed.
Lemma advice_expect_no_match s sh fs e r t b a : expect_no_match fs e = Some r -> new_text r = Some t ->
  said s sh (lit "expect_no_match") fs e = (b, Some a) -> follows_advice a t.
Proof.
  intros H T W. assert (Wa : a = lit "Use `expect_no_match(...)` instead.") by (change (said s sh (lit "expect_no_match") fs e) with (lit "`expect_false(grepl(...))` is not as clear as `expect_no_match(...)`.", Some (lit "Use `expect_no_match(...)` instead.")) in W; apply (f_equal snd) in W; apply some_of in W; auto).
  destruct (advice_expect_grepl _ _ _ _ _ _ H T) as (f & l & ->). subst a.
  apply (follow_dots _ (lit "expect_no_match") l); [reads|reads|reads|apply expect_bare].
Qed.

(** ** All of them *)
Definition named_in (names : list text) (p : text * rule_fn) : bool := existsb (teqb (fst p)) names.
Lemma in_named names l n (f : rule_fn) : In (n, f) l -> In n names -> In (n, f) (filter (named_in names) l).
Proof.
  intros A B. apply filter_In. split; [exact A|]. unfold named_in. apply existsb_exists. exists n.
  split; [exact B|]. apply teqb_refl.
Qed.
Lemma advised_rules s : filter (named_in advised) (node_rules s) =
  [ (lit "any_duplicated", total any_duplicated); (lit "any_is_na", total any_is_na);
    (lit "expect_length", total expect_length); (lit "expect_match", total expect_match);
    (lit "expect_named", total expect_named); (lit "expect_no_match", total expect_no_match);
    (lit "expect_not", total expect_not); (lit "expect_null", total expect_null);
    (lit "expect_s3_class", total expect_s3_class); (lit "expect_type", total expect_type);
    (lit "expect_true_false", total expect_true_false); (lit "grepv", total grepv);
    (lit "length_levels", total length_levels); (lit "list2df", total list2df);
    (lit "outer_negation", total outer_negation); (lit "redundant_ifelse", total redundant_ifelse);
    (lit "seq2", total seq2_rule); (lit "system_file", total system_file);
    (lit "any_is_na", total any_is_na_2); (lit "seq", total seq_rule);
    (lit "coalesce", total coalesce); (lit "comparison_negation", total comparison_negation) ].
Proof. reflexivity. Qed.
Lemma listed_one o r rs (f : list frame -> expr -> option report) fs e :
  o = total f -> o fs e = ROk rs -> In r rs -> f fs e = Some r.
Proof.
  intros -> H I. unfold total in H. apply (f_equal (fun x => match x with ROk v => v | _ => [] end)) in H. cbn in H. subst rs.
  unfold listed in I. destruct (f fs e); [destruct I as [ -> |[]]; reflexivity|destruct I].
Qed.
Theorem advice_followed : forall s sh n f fs e rs r t b a,
  In (n, f) (node_rules s) -> In n advised -> f fs e = ROk rs -> In r rs -> new_text r = Some t ->
  said s sh n fs e = (b, Some a) -> a <> instead (lit "seq_len(nrow((...))") -> follows_advice a t.
Proof.
  intros s sh n f fs e rs r t b a Hn Ha Hf Hr T W R.
  pose proof (in_named _ _ _ _ Hn Ha) as J. rewrite advised_rules in J.
  Ltac step H := match type of H with In _ (_ :: _) => destruct H as [H|H] | In _ [] => destruct H end.
  repeat step J;
    match type of J with (?m, total ?g) = _ =>
      let E := fresh in assert (E : f = total g) by (now inversion J);
      let N := fresh in assert (N : n = m) by (now inversion J); clear J; rewrite N in *;
      pose proof (listed_one f r rs g fs e E Hf Hr) as K
    end.
  - eapply advice_any_duplicated; eassumption.
  - eapply advice_any_is_na; eassumption.
  - eapply advice_expect_length; eassumption.
  - eapply advice_expect_match; eassumption.
  - eapply advice_expect_named; eassumption.
  - eapply advice_expect_no_match; eassumption.
  - eapply advice_expect_not; eassumption.
  - eapply advice_expect_null; eassumption.
  - eapply advice_expect_s3_class; eassumption.
  - eapply advice_expect_type; eassumption.
  - eapply advice_expect_true_false; eassumption.
  - eapply advice_grepv; eassumption.
  - eapply advice_length_levels; eassumption.
  - eapply advice_list2df; eassumption.
  - eapply advice_outer_negation; eassumption.
  - eapply advice_redundant_ifelse; eassumption.
  - eapply advice_seq2; eassumption.
  - eapply advice_system_file; eassumption.
  - eapply advice_any_is_na_2; eassumption.
  - eapply advice_seq; eassumption.
  - eapply advice_coalesce; eassumption.
  - eapply advice_comparison_negation; eassumption.
Qed.
