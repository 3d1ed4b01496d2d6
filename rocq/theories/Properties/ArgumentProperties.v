(** Properties of the arguments the rules look at: C72. *)
From Verif Require Import Spec.RArguments Spec.RDemo.
From Verif Require Import Proofs.LintRefute Proofs.RArgumentsProofs Proofs.RArgumentsRules Proofs.ArgumentRefute.

(** ** C72: arguments are read as R reads them *)
(** The argument a rule takes for a formal ([chosen], see C71) is the one R
    passes, if no formal before it is given by name. *)
Theorem C72_choice_partial : forall formals args i n a, NoDup formals -> plain_names formals args ->
  nth_error formals i = Some n ->
  (forall j m, j < i -> nth_error formals j = Some m -> not_named m args) ->
  (chosen args n (S i) a <-> r_arg formals args n a).
Proof. exact chosen_is_r_arg. Qed.
Print Assumptions C72_choice_partial.
(** In a call with no more arguments than the rule takes, each is the one R
    passes, whatever the order and the names. *)
Theorem C72_full_call : forall needed rest extra args, NoDup (needed ++ rest) -> NoDup (extra ++ needed) ->
  plain_names (needed ++ rest) args ->
  incl extra (given_names_of args) -> length args <= length extra + length needed ->
  (forall i n, nth_error needed i = Some n -> exists a, chosen args n (S i) a) ->
  forall i n a, nth_error needed i = Some n -> chosen args n (S i) a -> r_arg (needed ++ rest) args n a.
Proof. exact full_call. Qed.
Print Assumptions C72_full_call.

(** So the rules on these functions never take an argument for another. *)
Theorem C72_ifelse_read : forall fs e r n args a b c, calls n e args ->
  In (n, [a; b; c]) ifelse_functions -> plain_names [a; b; c] args -> redundant_ifelse fs e = Some r ->
  exists mx x my yes mz no,
    r_arg [a; b; c] args a (mx, Some x) /\ r_arg [a; b; c] args b (my, Some (truth yes)) /\ r_arg [a; b; c] args c (mz, Some (truth no)) /\
    at_node r = e /\ at_frames r = fs /\
    new_text r = if yes then if no then None else Some (toks x)
                 else if no then Some (TBang :: TLp :: toks x ++ [TRp]) else None.
Proof. exact ifelse_reads. Qed.
Print Assumptions C72_ifelse_read.
Theorem C72_apply_read : forall fs e r args, calls (lit "apply") e args ->
  plain_names [lit "X"; lit "MARGIN"; lit "FUN"] args -> matrix_apply fs e = Some r ->
  exists mx x mm m mf row sum na,
    r_arg [lit "X"; lit "MARGIN"; lit "FUN"] args (lit "X") (mx, Some x) /\
    r_arg [lit "X"; lit "MARGIN"; lit "FUN"] args (lit "MARGIN") (mm, Some m) /\ (if row : bool then one m else two m) /\
    r_arg [lit "X"; lit "MARGIN"; lit "FUN"] args (lit "FUN") (mf, Some (EAtom (AId (if sum : bool then lit "sum" else lit "mean")))) /\
    at_node r = e /\ at_frames r = fs /\
    new_text r = Some (call_text (margin_function row sum) (toks x ++ na)) /\
    (na = [] /\ not_named (lit "na.rm") args \/ exists v, In (Some (lit "na.rm"), v) args /\ na = TComma :: arg_toks (Some (lit "na.rm"), v)).
Proof. exact apply_reads. Qed.
Print Assumptions C72_apply_read.
Theorem C72_do_call_read : forall fs e r args, calls (lit "do.call") e args ->
  plain_names [lit "what"; lit "args"; lit "quote"; lit "envir"] args -> list2df fs e = Some r ->
  exists mw what ml l,
    r_arg [lit "what"; lit "args"; lit "quote"; lit "envir"] args (lit "what") (mw, Some what) /\
    (what = EAtom (AId (lit "cbind.data.frame")) \/ string_of (in_quotes (lit "cbind.data.frame")) what) /\
    r_arg [lit "what"; lit "args"; lit "quote"; lit "envir"] args (lit "args") (ml, Some l) /\
    at_node r = e /\ at_frames r = fs /\ new_text r = Some (call_text (lit "list2DF") (toks l)).
Proof. exact do_call_reads. Qed.
Print Assumptions C72_do_call_read.
Theorem C72_expect_length_read : forall fs e r n args, calls n e args -> In n [lit "expect_equal"; lit "expect_identical"] ->
  plain_names [lit "object"; lit "expected"] args -> expect_length fs e = Some r ->
  two_arguments_read (lit "length") (lit "expect_length") args e fs r.
Proof. exact expect_length_reads. Qed.
Print Assumptions C72_expect_length_read.
Theorem C72_expect_s3_class_read : forall fs e r n args, calls n e args -> In n [lit "expect_equal"; lit "expect_identical"] ->
  plain_names [lit "object"; lit "expected"] args -> expect_s3_class fs e = Some r ->
  two_arguments_read (lit "class") (lit "expect_s3_class") args e fs r.
Proof. exact expect_s3_class_reads. Qed.
Print Assumptions C72_expect_s3_class_read.
Theorem C72_expect_type_read : forall fs e r n args, calls n e args -> In n [lit "expect_equal"; lit "expect_identical"] ->
  plain_names [lit "object"; lit "expected"] args -> expect_type fs e = Some r ->
  two_arguments_read (lit "typeof") (lit "expect_type") args e fs r.
Proof. exact expect_type_reads. Qed.
Print Assumptions C72_expect_type_read.

(** [download.file(u, d, method = "libcurl", TRUE, "wb")] has a mode, and is
    reported as if it had none. *)
Theorem C72_download_refuted : exists args r,
  plain_names download_formals args /\ r_arg download_formals args (lit "mode") (pos (EAtom (AStr (lit """wb""")))) /\
  check_file everything_on [call (lit "download.file") args] = ROk [(0, (lit "download_file", r))].
Proof. exact download_misread. Qed.
Print Assumptions C72_download_refuted.
(** [gsub(pattern = "a", "b", x, TRUE)] ignores the case; its fix does not. *)
Theorem C72_gsub_refuted : exists args r,
  plain_names sub_formals args /\ r_arg sub_formals args (lit "ignore.case") (pos (EAtom ATrue)) /\
  check_file everything_on [call (lit "gsub") args] = ROk [(0, (lit "fixed_regex", r))].
Proof. exact sub_misread. Qed.
Print Assumptions C72_gsub_refuted.
(** [ifelse(test = x, TRUE, FALSE)] is missed. *)
Theorem C72_ifelse_refuted : exists args,
  plain_names ifelse_arguments args /\ length args = 3 /\
  r_arg ifelse_arguments args (lit "yes") (pos (EAtom ATrue)) /\
  r_arg ifelse_arguments args (lit "no") (pos (EAtom AFalse)) /\
  check_file everything_on [call (lit "ifelse") args] = ROk [].
Proof. exact ifelse_missed. Qed.
Print Assumptions C72_ifelse_refuted.
(** [grepl("a", x, fix = TRUE)] is fixed already. *)
Theorem C72_partial_name_refuted : exists args r,
  r_arg grepl_formals args (lit "fixed") (named (lit "fix") (EAtom ATrue)) /\
  check_file everything_on [call (lit "grepl") args] = ROk [(0, (lit "fixed_regex", r))].
Proof. exact partial_name_misread. Qed.
Print Assumptions C72_partial_name_refuted.
(** [sample(size = 3, 1:10)] becomes [sample.int(10, 1:10)]. *)
Theorem C72_sample_refuted : exists args r,
  r_arg [lit "x"; lit "size"; lit "replace"; lit "prob"] args (lit "size") (named (lit "size") (EAtom (ANum (lit "3")))) /\
  check_file everything_on [call (lit "sample") args] = ROk [(0, (lit "sample_int", r))] /\
  new_text r = Some (toks (call (lit "sample.int") [pos (EAtom (ANum (lit "10"))); pos (EBin BColon false (EAtom (ANum (lit "1"))) (EAtom (ANum (lit "10"))))])).
Proof. exact sample_misread. Qed.
Print Assumptions C72_sample_refuted.

(** [ifelse(no = FALSE, x, TRUE)] *)
Example C72_hypotheses_met :
  let args := [named (lit "no") (EAtom AFalse); pos (var (lit "x")); pos (EAtom ATrue)] in
  plain_names ifelse_arguments args /\ (forall a, In a ifelse_arguments -> exists v, r_arg ifelse_arguments args a v) /\
  exists r, redundant_ifelse [] (call (lit "ifelse") args) = Some r /\ new_text r = Some (toks (var (lit "x"))).
Proof.
  cbn zeta. set (args := [named _ _; _; _]).
  assert (plain_names ifelse_arguments args) as P by plain_call.
  assert (calls (lit "ifelse") (call (lit "ifelse") args) args) as C by (eexists; split; [reflexivity|constructor]).
  assert (exists r, redundant_ifelse [] (call (lit "ifelse") args) = Some r /\ new_text r = Some (toks (var (lit "x")))) as [r [R T]].
  { eexists. split; vm_compute; reflexivity. }
  split; [exact P|]. split; [|exists r; split; assumption].
  destruct (ifelse_reads [] _ r (lit "ifelse") args _ _ _ C (or_introl eq_refl) P R) as [mx [x [my [yes [mz [no [X [Y [Z _]]]]]]]]].
  intros a [ <- |[ <- |[ <- |[]]]]; eauto.
Qed.
(** [apply(m, FUN = sum, 1, na.rm = TRUE)] *)
Example C72_apply_met : exists r,
  let args := [pos (var (lit "m")); named (lit "FUN") (var (lit "sum")); pos (EAtom (ANum (lit "1"))); named (lit "na.rm") (EAtom ATrue)] in
  plain_names [lit "X"; lit "MARGIN"; lit "FUN"] args /\
  matrix_apply [] (call (lit "apply") args) = Some r /\
  new_text r = Some (toks (call (lit "rowSums") [pos (var (lit "m")); named (lit "na.rm") (EAtom ATrue)])).
Proof.
  eexists. cbn zeta. split; [|split; vm_compute; reflexivity]. split; [cbn; repeat constructor; cbn; intuition discriminate|].
  intros m H. cbn in H. destruct H as [ <- |[ <- |[]]]; [left; cbn; tauto|right; intros u K; cbn in K; intuition discriminate].
Qed.
