From Verif Require Import Model.Messages Spec.AdviceSpec Proofs.TextProofs Proofs.AdviceProofs Proofs.AdviceForms.

Definition calls_it (f : rule_fn) (n : text) : Prop := forall s sh fs e rs r t b a,
  f fs e = ROk rs -> In r rs -> new_text r = Some t -> said s sh n fs e = (b, Some a) -> calls_advised a t.
Lemma calling (f : text) c : calls f (call_text f c).
Proof. exists (c ++ [TRp]). now left. Qed.
Lemma calling_not (f : text) b c : calls f (maybe_not b (call_text f c)).
Proof. exists (c ++ [TRp]). destruct b; [now left|now right]. Qed.
Lemma advised_call a q f l t : In q (quotations a) -> code q = Some (ECall (EAtom (AId f)) l) -> calls f t -> calls_advised a t.
Proof. intros Q K C. exists q, f, l. auto. Qed.
Lemma advised_not a q f l t : In q (quotations a) -> code q = Some (EUn UNot (ECall (EAtom (AId f)) l)) -> calls f t -> calls_advised a t.
Proof. intros Q K C. exists q, f, l. auto. Qed.
Ltac take_one H := let K := fresh "K" in match type of H with total ?g ?fs ?e = ROk ?rs => match goal with R : In ?r rs |- _ =>
  pose proof (listed_one (total g) r rs g fs e eq_refl H R) as K; clear H R end end.
Ltac fix_of K T := apply some_of in K; match type of K with _ = ?r => subst r end; cbn [new_text] in T; apply some_of in T;
  match type of T with _ = ?t => subst t end.
Ltac say_it W := match type of W with _ = (?b, Some ?a) =>
  let A := fresh in assert (A : a = match snd (fst (b, tt), Some a) with Some x => x | None => [] end) by reflexivity; clear A end.
Ltac in_quotes q := match goal with |- In _ (quotations ?a) => assert (Y : quotations a = [q]) by reads; rewrite Y; left; reflexivity end.

Lemma calls_equals_na : calls_it (total equals_na) (lit "equals_na").
Proof.
  intros s sh fs e rs r t b a H R T W. take_one H.
  saying W (lit "Comparing to NA with `==`, `!=` or `%in%` is problematic.", Some (lit "Use `is.na()` instead.")). words W.
  unfold equals_na in K. destruct e; try discriminate. destruct (equality o); [|discriminate]. destruct (_ && _); [discriminate|].
  destruct (Bool.eqb _ _); [discriminate|]. fix_of K T.
  eapply (advised_call _ (lit "is.na()") (lit "is.na") []); [in_quotes (lit "is.na()")|reads|apply calling_not].
Qed.
Lemma calls_equals_nan : calls_it (total equals_nan) (lit "equals_nan").
Proof.
  intros s sh fs e rs r t b a H R T W. take_one H.
  saying W (lit "Comparing to NaN with `==`, `!=` or `%in%` is problematic.", Some (lit "Use `is.nan()` instead.")). words W.
  unfold equals_nan, fixed_as in K. destruct e; try discriminate. destruct (equality o); [|discriminate]. destruct (_ && _); [discriminate|].
  destruct (Bool.eqb _ _); [discriminate|]. fix_of K T.
  eapply (advised_call _ (lit "is.nan()") (lit "is.nan") []); [in_quotes (lit "is.nan()")|reads|apply calling_not].
Qed.
Lemma calls_equals_null : calls_it (total equals_null) (lit "equals_null").
Proof.
  intros s sh fs e rs r t b a H R T W. take_one H.
  saying W (lit "Comparing to NULL with `==`, `!=` or `%in%` is problematic.", Some (lit "Use `is.null()` instead.")). words W.
  unfold equals_null in K. destruct e; try discriminate. destruct (equality o); [|discriminate].
  destruct (Bool.eqb _ _); [discriminate|]. fix_of K T.
  eapply (advised_call _ (lit "is.null()") (lit "is.null") []); [in_quotes (lit "is.null()")|reads|apply calling_not].
Qed.
Lemma calls_class_equals : calls_it (total class_equals) (lit "class_equals").
Proof.
  intros s sh fs e rs r t b a H R T W. take_one H. unfold class_equals in K. destruct e; try discriminate.
  saying W (lit "Comparing `class(x)` with `==` or `%in%` can be problematic.", Some (lit "Use `inherits(x, 'a')` instead.")). words W.
  destruct (equality o); [|discriminate]. destruct (parent_is_condition fs); [|discriminate].
  destruct (extract_class_and_string e1 e2) as [[x c]|]; [|discriminate]. fix_of K T.
  eapply (advised_call _ (lit "inherits(x, 'a')") (lit "inherits")); [in_quotes (lit "inherits(x, 'a')")|reads|apply calling_not].
Qed.
Lemma calls_class_identical : calls_it (total class_identical) (lit "class_equals").
Proof.
  intros s sh fs e rs r t b a H R T W. take_one H. unfold class_identical in K. destruct e; try discriminate.
  saying W (lit "Using `identical(class(x), 'a')` can be problematic.", Some (lit "Use `inherits(x, 'a')` instead.")). words W.
  eapply (advised_call _ (lit "inherits(x, 'a')") (lit "inherits")); [in_quotes (lit "inherits(x, 'a')")|reads|].
  repeat match type of K with match ?x with _ => _ end = _ => destruct x; try discriminate end; fix_of K T; apply calling.
Qed.
Lemma calls_is_numeric : calls_it (total is_numeric) (lit "is_numeric").
Proof.
  intros s sh fs e rs r t b a H R T W. take_one H.
  saying W (lit "`is.numeric(x) || is.integer(x)` is redundant.",
     Some (lit "Use `is.numeric(x)` instead. Use `is.double(x)` to test for objects stored as 64-bit floating point")). words W.
  unfold is_numeric, fixed_as in K. destruct e; try discriminate. destruct o; try discriminate. destruct e1; try discriminate. destruct e2; try discriminate.
  destruct (_ || _)%bool; [|discriminate]. destruct (same_text _ _); [|discriminate]. fix_of K T.
  eapply (advised_call _ (lit "is.numeric(x)") (lit "is.numeric")); [|reads|apply calling].
  match goal with |- In _ (quotations ?a) => assert (Y : quotations a = [lit "is.numeric(x)"; lit "is.double(x)"]) by reads; rewrite Y; left; reflexivity end.
Qed.
Lemma calls_lengths : calls_it (failing lengths_rule) (lit "lengths").
Proof.
  intros s sh fs e rs r t b a H R T W.
  saying W (lit "Using `length()` on each element of a list is inefficient.", Some (lit "Use `lengths()` instead.")). words W.
  eapply (advised_call _ (lit "lengths()") (lit "lengths") []); [in_quotes (lit "lengths()")|reads|].
  unfold failing, lengths_rule in H. destruct e; try (injection H as <-; destruct R).
  destruct (negb _); [injection H as <-; destruct R|].
  destruct (get_arg_by_name_then_position args (lit "FUN") 2) as [[? [v|]]|]; cbn [rbind] in H; try discriminate; [|injection H as <-; destruct R].
  destruct (same_text _ _); [|injection H as <-; destruct R].
  destruct (get_arg_by_name_then_position args (lit "x") 1); [|discriminate]. cbn [rbind listed] in H.
  injection H as <-. destruct R as [R|[]]. subst r. cbn [new_text] in T. apply some_of in T. subst t. apply calling.
Qed.
Lemma calls_sample : calls_it (failing sample_int) (lit "sample_int").
Proof.
  intros s sh fs e rs r t b a H R T W.
  saying W (lit "`sample(1:n, m, ...)` is less readable than `sample.int(n, m, ...)`.",
     Some (lit "Use `sample.int(n, m, ...)` instead.")). words W.
  eapply (advised_call _ (lit "sample.int(n, m, ...)") (lit "sample.int")); [in_quotes (lit "sample.int(n, m, ...)")|reads|].
  unfold failing, sample_int in H. destruct e; try (injection H as <-; destruct R).
  destruct (negb _); [injection H as <-; destruct R|].
  destruct (get_arg_by_name_then_position args (lit "n") 1) as [[? [v|]]|]; cbn [rbind] in H; try discriminate; [|injection H as <-; destruct R].
  destruct v; try (injection H as <-; destruct R). destruct (negb _); [injection H as <-; destruct R|].
  destruct o0; try (injection H as <-; solve [destruct R]). cbv zeta in H.
  apply (f_equal (fun x => match x with ROk v => v | _ => [] end)) in H. cbn [rbind listed] in H. subst rs.
  destruct R as [R|[]]. subst r. cbn [new_text] in T. apply some_of in T. subst t. apply calling.
Qed.
Lemma calls_matrix : calls_it (total matrix_apply) (lit "matrix_apply").
Proof.
  intros s sh fs e rs r t b a H R T W. take_one H.
  assert (W' : say_matrix_apply e = (b, Some a)) by (rewrite <- W; reads). clear W.
  unfold matrix_apply, fixed_as in K. unfold say_matrix_apply in W'. destruct e; try discriminate.
  destruct (teqb _ _); [|discriminate]. destruct (_ <? _); [discriminate|].
  destruct (get_arg_by_name_then_position args (lit "X") 1) as [[? [x|]]|]; try discriminate.
  destruct (get_arg_by_name_then_position args (lit "FUN") 3) as [[? [g|]]|]; try discriminate.
  destruct (get_arg_by_name_then_position args (lit "MARGIN") 2) as [[? [m|]]|]; try discriminate.
  cbv zeta in K. destruct (is_id (lit "mean") g); [|destruct (is_id (lit "sum") g); [|discriminate]];
    (destruct (lit_in [lit "1"; lit "1L"] m); [|destruct (lit_in [lit "2"; lit "2L"] m); [|discriminate]]); fix_of K T; words W'.
  - eapply (advised_call _ (lit "rowMeans(x)") (lit "rowMeans")); [in_quotes (lit "rowMeans(x)")|reads|apply calling].
  - eapply (advised_call _ (lit "colMeans(x)") (lit "colMeans")); [in_quotes (lit "colMeans(x)")|reads|apply calling].
  - eapply (advised_call _ (lit "rowSums(x)") (lit "rowSums")); [in_quotes (lit "rowSums(x)")|reads|apply calling].
  - eapply (advised_call _ (lit "colSums(x)") (lit "colSums")); [in_quotes (lit "colSums(x)")|reads|apply calling].
Qed.
Lemma calls_sort : calls_it (total sort_rule) (lit "sort").
Proof.
  intros s sh fs e rs r t b a H R T W. take_one H.
  saying W (lit "`x[order(x)]` is inefficient.", Some (lit "Use `sort(x)` instead.")). words W.
  eapply (advised_call _ (lit "sort(x)") (lit "sort")); [in_quotes (lit "sort(x)")|reads|].
  unfold sort_rule, fixed_as in K.
  repeat match type of K with match ?x with _ => _ end = _ => destruct x; try discriminate end; fix_of K T; apply calling.
Qed.
Lemma calls_which : calls_it (total which_grepl) (lit "which_grepl").
Proof.
  intros s sh fs e rs r t b a H R T W. take_one H.
  saying W (lit "`which(grepl(pattern, x))` is less efficient than `grep(pattern, x)`.", Some (lit "Use `grep(pattern, x)` instead.")). words W.
  eapply (advised_call _ (lit "grep(pattern, x)") (lit "grep")); [in_quotes (lit "grep(pattern, x)")|reads|].
  unfold which_grepl, fixed_as in K.
  repeat match type of K with match ?x with _ => _ end = _ => destruct x; try discriminate end; fix_of K T; apply calling.
Qed.
Lemma calls_boundary : calls_it (total string_boundary) (lit "string_boundary").
Proof.
  intros s sh fs e rs r t b a H R T W. take_one H.
  assert (W' : say_string_boundary e = (b, Some a)) by exact W. clear W.
  unfold string_boundary, fixed_as in K. unfold say_string_boundary in W'. destruct e; try discriminate. destruct o; try discriminate.
  assert (X : forall B f args other,
    (if mem (get_function_name f) [lit "substr"; lit "substring"] then
              match args with
              | (_, Some x) :: (_, Some start) :: (_, Some stop) :: _ =>
                  if is_literal_one start then
                    Some (mk_report fs (EBin (BCmp c) nl e1 e2) (Some (maybe_not B (call_text (lit "startsWith") (toks x ++ TComma :: toks other)))))
                  else if is_nchar_of stop x then
                    Some (mk_report fs (EBin (BCmp c) nl e1 e2) (Some (maybe_not B (call_text (lit "endsWith") (toks x ++ TComma :: toks other)))))
                  else None
              | _ => None
              end
            else None) = Some r ->
    match ECall f args with
      | ECall f (_ :: (_, Some start) :: _) =>
          if is_literal_one start
          then (lit "Using `" ++ get_function_name f ++
                  lit "()` to detect an initial substring is hard to read and inefficient.",
                Some (lit "Use `startsWith()` instead."))
          else (lit "Using `" ++ get_function_name f ++
                  lit "()` to detect a terminal substring is hard to read and inefficient.",
                Some (lit "Use `endsWith()` instead."))
      | _ => ([], None)
      end = (b, Some a) -> calls_advised a t).
  { clear K W'. intros B f args other K W. destruct (mem _ _); [|discriminate].
    destruct args as [|[? [x|]] [|[? [start|]] [|[? [stop|]] l]]]; try discriminate.
    destruct (is_literal_one start).
    - fix_of K T. assert (A : a = lit "Use `startsWith()` instead.") by (symmetry; exact (some_of _ _ (f_equal snd W))). subst a.
      eapply (advised_call _ (lit "startsWith()") (lit "startsWith") []); [in_quotes (lit "startsWith()")|reads|apply calling_not].
    - destruct (is_nchar_of stop x); [|discriminate]. fix_of K T.
      assert (A : a = lit "Use `endsWith()` instead.") by (symmetry; exact (some_of _ _ (f_equal snd W))). subst a.
      eapply (advised_call _ (lit "endsWith()") (lit "endsWith") []); [in_quotes (lit "endsWith()")|reads|apply calling_not]. }
  cbv zeta in K, W'.
  destruct c; try discriminate; destruct e1; try exact (X _ _ _ _ K W'); destruct e2; try discriminate; exact (X _ _ _ _ K W').
Qed.
Lemma calls_all_equal : calls_it (total all_equal) (lit "all_equal").
Proof.
  intros s sh fs e rs r t b a H R T W. take_one H.
  assert (W' : say_all_equal fs e = (b, Some a)) by exact W. clear W.
  unfold all_equal in K. unfold say_all_equal in W'.
  destruct (get_nested_functions_content fs e (lit "isFALSE") (lit "all.equal")) as [[c [fs' e']]|].
  - fix_of K T. assert (A : a = lit "Use `!isTRUE()` to check for differences instead.") by (symmetry; exact (some_of _ _ (f_equal snd W'))). subst a.
    eapply (advised_not _ (lit "!isTRUE()") (lit "isTRUE") []); [in_quotes (lit "!isTRUE()")|reads|exact (calling_not (lit "isTRUE") false _)].
  - assert (A : a = lit "Wrap `all.equal()` in `isTRUE()`, or replace it by `identical()` if no tolerance is required.") by (symmetry; exact (some_of _ _ (f_equal snd W'))). subst a.
    eapply (advised_call _ (lit "isTRUE()") (lit "isTRUE") []); [|reads|].
    { match goal with |- In _ (quotations ?a) => assert (Y : quotations a = [lit "all.equal()"; lit "isTRUE()"; lit "identical()"]) by reads; rewrite Y; right; left; reflexivity end. }
    destruct e; try discriminate. destruct (teqb _ _); [|discriminate]. destruct (parent_is_bang_unary fs).
    + destruct fs as [|[] fs]; try discriminate. fix_of K T. exact (calling_not (lit "isTRUE") false _).
    + destruct (parent_is_condition fs); [|discriminate]. fix_of K T. apply calling.
Qed.
Lemma function_rules s : filter (named_in function_advised) (node_rules s) =
  [ (lit "all_equal", total all_equal); (lit "class_equals", total class_identical); (lit "lengths", failing lengths_rule);
    (lit "matrix_apply", total matrix_apply); (lit "sample_int", failing sample_int); (lit "which_grepl", total which_grepl);
    (lit "class_equals", total class_equals); (lit "equals_na", total equals_na); (lit "equals_nan", total equals_nan);
    (lit "equals_null", total equals_null); (lit "is_numeric", total is_numeric); (lit "string_boundary", total string_boundary);
    (lit "sort", total sort_rule) ].
Proof. reflexivity. Qed.
Theorem function_called : forall s sh n f fs e rs r t b a,
  In (n, f) (node_rules s) -> In n function_advised -> f fs e = ROk rs -> In r rs -> new_text r = Some t ->
  said s sh n fs e = (b, Some a) -> calls_advised a t.
Proof.
  intros s sh n f fs e rs r t b a Hn Ha Hf Hr T W.
  pose proof (in_named _ _ _ _ Hn Ha) as J. rewrite function_rules in J.
  assert (F : calls_it f n).
  { clear - J. repeat step J;
    match type of J with (?m, ?g) = _ =>
      assert (E : f = g) by (now inversion J); assert (N : n = m) by (now inversion J); clear J; subst f n end.
    - exact calls_all_equal. - exact calls_class_identical. - exact calls_lengths. - exact calls_matrix. - exact calls_sample.
    - exact calls_which. - exact calls_class_equals. - exact calls_equals_na. - exact calls_equals_nan. - exact calls_equals_null.
    - exact calls_is_numeric. - exact calls_boundary. - exact calls_sort. }
  exact (F s sh fs e rs r t b a Hf Hr T W).
Qed.

(** * The other words *)
Lemma inside_braces k (kind : frame -> Prop) fs : (forall f, k f = true -> kind f) -> before_braces k fs = true -> directly_inside kind fs.
Proof.
  intros A. induction fs as [|f fs IH]; [discriminate|]. cbn [before_braces]. destruct (in_braces f) eqn:B; [discriminate|].
  assert (N : match f with FBraces _ _ => False | _ => True end) by (destruct f; try exact Logic.I; discriminate).
  destruct (k f) eqn:K.
  - intros _. exists [], f, fs. split; [reflexivity|]. split; [now apply A|]. intros g [G|[]]. now subst.
  - intros H. destruct (IH H) as (i & g & o & E & G & C). exists (f :: i), g, o. split; [now rewrite E|]. split; [exact G|].
    intros h [Hh|Hh]; [now subst|now apply C].
Qed.
Lemma assignment_operator s sh fs e r : assignment (prefer_arrow s) fs e = Some r ->
  exists o l x t, said s sh (lit "assignment") fs e = (lit "Use `" ++ spell_op o ++ lit "` for assignment.", None) /\
  new_text r = Some t /\ t = toks l ++ TOp o :: toks x /\
  ((exists o' nl, e = EBin o' nl l x /\ o' <> o) \/ (exists nl, e = EBin (BRAssign (lit "->")) nl x l)).
Proof.
  intros H. change (exists o l x t, say_assignment (prefer_arrow s) e = (lit "Use `" ++ spell_op o ++ lit "` for assignment.", None) /\
  new_text r = Some t /\ t = toks l ++ TOp o :: toks x /\
  ((exists o' nl, e = EBin o' nl l x /\ o' <> o) \/ (exists nl, e = EBin (BRAssign (lit "->")) nl x l))).
  unfold assignment, fixed_as in H. destruct e; try discriminate. destruct o; try discriminate.
  - destruct (prefer_arrow s); [|discriminate]. apply some_of in H. subst r.
    exists (BAssign (lit "<-")), e1, e2. eexists. split; [reflexivity|]. split; [reflexivity|]. split; [reflexivity|].
    left. exists BEq, nl. split; [reflexivity|discriminate].
  - destruct (teqb t (lit "<-")) eqn:E; [|discriminate]. destruct (prefer_arrow s); [discriminate|]. cbn [negb andb] in H. apply some_of in H. subst r.
    exists BEq, e1, e2. eexists. split; [reflexivity|]. split; [reflexivity|]. split; [reflexivity|].
    left. exists (BAssign t), nl. split; [reflexivity|discriminate].
  - destruct (teqb t (lit "->")) eqn:E; [|discriminate]. apply teqb_eq in E. subst t. apply some_of in H. subst r.
    exists (if prefer_arrow s then BAssign (lit "<-") else BEq), e2, e1.
    eexists. split; [destruct (prefer_arrow s); reflexivity|]. split; [reflexivity|]. split; [destruct (prefer_arrow s); reflexivity|].
    right. now exists nl.
Qed.
Lemma download_mode s sh fs e r : download_file fs e = Some r ->
  exists f args, e = ECall f args /\ get_function_name f = lit "download.file" /\
  ((arg_value (get_arg_by_name_then_position args (lit "mode") 5) = None /\
    said s sh (lit "download_file") fs e =
    (lit "`download.file()` without explicit `mode` can cause portability issues on Windows.", Some (lit "Use mode = 'wb' instead."))) \/
   exists c q, (c = lit "w" \/ c = lit "a") /\ (q = lit "'" \/ q = lit """") /\
    arg_value (get_arg_by_name_then_position args (lit "mode") 5) = Some (EAtom (AStr (q ++ c ++ q))) /\
    said s sh (lit "download_file") fs e =
    (lit "`download.file()` with `mode = '" ++ c ++ lit "'` can cause portability issues on Windows.",
     Some (lit "Use mode = '" ++ c ++ lit "b' instead."))).
Proof.
  intros H. unfold download_file, reported in H. destruct e; try discriminate. destruct (teqb _ _) eqn:N; [|discriminate].
  apply teqb_eq in N. exists e, args. split; [reflexivity|]. split; [exact N|]. cbv zeta in H.
  destruct (match arg_value (get_arg_by_name_then_position args (lit "method") 3) with Some m => _ | None => _ end); [discriminate|].
  assert (S : said s sh (lit "download_file") fs (ECall e args) = say_download_file (ECall e args)) by reflexivity.
  rewrite S. unfold say_download_file.
  destruct (arg_value (get_arg_by_name_then_position args (lit "mode") 5)) as [m|]; [right|left; split; reflexivity].
  destruct (str_in (quoted (lit "w") ++ quoted (lit "a")) m) eqn:M; [|discriminate].
  unfold str_in in *. destruct m; try discriminate. destruct a; try discriminate.
  unfold mem in M. apply existsb_exists in M. destruct M as (x & I & E). apply teqb_eq in E. subst x.
  unfold quoted in I. cbn [app In] in I. decompose [or] I; try contradiction; subst t.
  - exists (lit "w"), (lit """"). split; [now left|]. split; [now right|]. split; reads.
  - exists (lit "w"), (lit "'"). split; [now left|]. split; [now left|]. split; reads.
  - exists (lit "a"), (lit """"). split; [now right|]. split; [now right|]. split; reads.
  - exists (lit "a"), (lit "'"). split; [now right|]. split; [now left|]. split; reads.
Qed.
Lemma implicit_inside s sh fs e r : implicit_assignment (assign_ok s) fs e = Some r ->
  exists k kind, In (k, kind) [(lit "`if()` statements", of_if); (lit "`while()` statements", of_while);
                               (lit "`for()` statements", of_for); (lit "function calls", of_call)] /\
  said s sh (lit "implicit_assignment") fs e = (lit "Avoid implicit assignments in " ++ k ++ lit ".", None) /\
  directly_inside kind fs.
Proof.
  intros H. change (said s sh (lit "implicit_assignment") fs e) with (say_implicit_assignment fs).
  unfold implicit_assignment in H. destruct e; try discriminate. destruct (arrow_op o); [|discriminate]. cbn [negb] in H. cbv zeta in H.
  destruct (_ && _) in H; [discriminate|].
  fold (direct (fun f => match f with FIfT _ _ | FIfE _ _ => true | _ => false end) fs) in H.
  fold (direct (fun f => match f with FWhileB _ => true | _ => false end) fs) in H.
  fold (direct (fun f => match f with FForB _ _ => true | _ => false end) fs) in H.
  unfold say_implicit_assignment, just.
  destruct (negb (direct (fun f => match f with FIfT _ _ | FIfE _ _ => true | _ => false end) fs) && before_braces in_if fs) eqn:A.
  { eexists _, _. split; [left; reflexivity|]. split; [reads|]. apply andb_true_iff in A. eapply inside_braces; [|apply A].
    intros f Hf. destruct f; try discriminate; exact Logic.I. }
  destruct (negb (direct (fun f => match f with FWhileB _ => true | _ => false end) fs) && before_braces in_while fs) eqn:B.
  { eexists _, _. split; [right; left; reflexivity|]. split; [reads|]. apply andb_true_iff in B. eapply inside_braces; [|apply B].
    intros f Hf. destruct f; try discriminate; exact Logic.I. }
  destruct (negb (direct (fun f => match f with FForB _ _ => true | _ => false end) fs) && before_braces in_for fs) eqn:C.
  { eexists _, _. split; [right; right; left; reflexivity|]. split; [reads|]. apply andb_true_iff in C. eapply inside_braces; [|apply C].
    intros f Hf. destruct f; try discriminate; exact Logic.I. }
  eexists _, _. split; [right; right; right; left; reflexivity|]. split; [reads|].
  destruct (before_braces is_argument fs) eqn:D; [|discriminate]. eapply inside_braces; [|exact D].
  intros f Hf. destruct f; try discriminate; exact Logic.I.
Qed.
Lemma all_equal_itself s sh fs e r a : all_equal fs e = Some r ->
  said s sh (lit "all_equal") fs e = (lit "If `all.equal()` is false, it will return a string and not `FALSE`.", Some a) ->
  called e = lit "all.equal" /\ (at_node r = e \/ at_node r = EUn UNot e).
Proof.
  intros K W. assert (W' : say_all_equal fs e = (lit "If `all.equal()` is false, it will return a string and not `FALSE`.", Some a)) by exact W.
  clear W. unfold all_equal in K. unfold say_all_equal in W'.
  destruct (get_nested_functions_content fs e (lit "isFALSE") (lit "all.equal")) as [[c [fs' e']]|]; [discriminate|].
  destruct e; try discriminate. destruct (teqb _ _) eqn:N; [|discriminate]. apply teqb_eq in N. split; [exact N|].
  destruct (parent_is_bang_unary fs).
  - destruct fs as [|[] fs]; try discriminate. apply some_of in K. subst r. now right.
  - destruct (parent_is_condition fs); [|discriminate]. apply some_of in K. subst r. now left.
Qed.
