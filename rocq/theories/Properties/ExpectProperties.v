(** C101: the fixes of the testthat rules keep the verdict of the tests, given what the expectations judge
    (Spec/RExpect.v). *)
From Verif Require Import Model.MoreLints Spec.RGrammar Spec.RPosition Spec.RSemantics Spec.RFix Spec.RFunctions Spec.RExpect Spec.RLibrary.
From Verif Require Import Proofs.LintRefute Proofs.LibraryProofs Proofs.ExpectProofs Proofs.ExpectLibrary.

(** [expect_equal(x, NULL)], in either order, and [expect_true(is.null(x))] become [expect_null(x)]. *)
Theorem C101_expect_null_partial : forall p f args r x,
  node_of_file p (ECall f args) -> expect_null (frames p) (ECall f args) = Some r ->
  (equality_of f /\ compared x (EAtom ANull) args \/
   expectation f (lit "expect_true") /\ exists g, args = [(None, Some (ECall g [(None, Some x)]))] /\ fname g = Some (lit "is.null")) ->
  assigned (frames p) = false -> pipe_target (frames p) = false ->
  fix_harmless (fun I => exists tell, knows_equal I tell /\ knows_constants I tell) p (ECall f args) r.
Proof. exact expect_null_harmless. Qed.
Print Assumptions C101_expect_null_partial.

(** [expect_equal(x, TRUE)] becomes [expect_true(x)]: the same for a plain vector. *)
Theorem C101_expect_true_false_partial : forall p f args r x b,
  node_of_file p (ECall f args) -> expect_true_false (frames p) (ECall f args) = Some r ->
  equality_of f -> compared x (EAtom (if b : bool then ATrue else AFalse)) args -> constant x = false ->
  assigned (frames p) = false -> pipe_target (frames p) = false ->
  fix_harmless (fun I => exists tell, knows_equal I tell /\ knows_constants I tell /\ yields I x plain) p (ECall f args) r.
Proof. exact expect_true_false_harmless. Qed.
Print Assumptions C101_expect_true_false_partial.

(** [expect_equal(length(x), n)] becomes [expect_length(x, n)]. *)
Theorem C101_expect_length_partial : forall p f args r g x y,
  node_of_file p (ECall f args) -> expect_length (frames p) (ECall f args) = Some r ->
  expectation f (lit "expect_equal") -> compared (ECall g [(None, Some x)]) y args -> fname g = Some (lit "length") ->
  assigned (frames p) = false -> pipe_target (frames p) = false ->
  fix_harmless (fun I => exists tell len, knows_equal I tell /\ knows_length I tell len /\ yields I y (small_count I))
    p (ECall f args) r.
Proof. exact expect_length_harmless. Qed.
Print Assumptions C101_expect_length_partial.

(** [expect_equal(names(x), n)] becomes [expect_named(x, n)]. *)
Theorem C101_expect_named_partial : forall p f args r g x y,
  node_of_file p (ECall f args) -> expect_named (frames p) (ECall f args) = Some r ->
  equality_of f -> args = [(None, Some (ECall g [(None, Some x)])); (None, Some y)] -> fname g = Some (lit "names") ->
  assigned (frames p) = false -> pipe_target (frames p) = false ->
  fix_harmless (fun I => exists tell nms, knows_equal I tell /\ knows_names I tell nms /\ yields I y (strings I))
    p (ECall f args) r.
Proof. exact expect_named_harmless. Qed.
Print Assumptions C101_expect_named_partial.

(** [expect_equal(class(x), "t")] becomes [expect_s3_class(x, "t")]: the same for an object with one class. *)
Theorem C101_expect_s3_class_partial : forall p f args r g x t,
  node_of_file p (ECall f args) -> expect_s3_class (frames p) (ECall f args) = Some r ->
  equality_of f -> compared (ECall g [(None, Some x)]) (EAtom (AStr t)) args -> fname g = Some (lit "class") ->
  assigned (frames p) = false -> pipe_target (frames p) = false ->
  fix_harmless (fun I => exists tell cls s3, knows_equal I tell /\ knows_s3 I tell cls s3 /\
      yields I x (fun v => length (cls v) = 1 /\ s3 v = true)) p (ECall f args) r.
Proof. exact expect_s3_class_harmless. Qed.
Print Assumptions C101_expect_s3_class_partial.

(** It differs with two classes (which is the point of the rule), and for a value without a class attribute:
    the test of [class(x)] against ["call"] passes for a call, expect_s3_class() fails. *)
Theorem C101_expect_s3_class_refuted :
  (exists p e r, node_of_file p e /\ expect_s3_class (frames p) e = Some r /\ frames p = [] /\
     ~ fix_harmless (fun I => exists tell cls s3, knows_equal I tell /\ knows_s3 I tell cls s3 /\
         yields I (EAtom (AId (lit "x"))) (fun v => s3 v = true)) p e r) /\
  (exists p e r, node_of_file p e /\ expect_s3_class (frames p) e = Some r /\ frames p = [] /\
     ~ fix_harmless (fun I => exists tell cls s3, knows_equal I tell /\ knows_s3 I tell cls s3 /\
         yields I (EAtom (AId (lit "x"))) (fun v => length (cls v) = 1)) p e r).
Proof. exact (conj s3_two s3_call). Qed.
Print Assumptions C101_expect_s3_class_refuted.

(** [expect_equal(typeof(x), t)] becomes [expect_type(x, t)]. *)
Theorem C101_expect_typeof_partial : forall p f args r g x y,
  node_of_file p (ECall f args) -> expect_type (frames p) (ECall f args) = Some r ->
  equality_of f -> compared (ECall g [(None, Some x)]) y args -> fname g = Some (lit "typeof") ->
  assigned (frames p) = false -> pipe_target (frames p) = false ->
  fix_harmless (fun I => exists tell ty, knows_equal I tell /\ knows_types I tell ty /\ yields I y (one_string I))
    p (ECall f args) r.
Proof. exact expect_type_of_harmless. Qed.
Print Assumptions C101_expect_typeof_partial.

(** [expect_true(is.double(x))] becomes [expect_type(x, "double")], and so on: the same unless the function
    accepts another type than the first and [x] has it. *)
Theorem C101_expect_is_type_partial : forall p f args r g n x t ts,
  node_of_file p (ECall f args) -> expect_type (frames p) (ECall f args) = Some r ->
  expectation f (lit "expect_true") -> args = [(None, Some (ECall g [(None, Some x)]))] -> fname g = Some n ->
  In (n, t :: ts) type_tests ->
  assigned (frames p) = false -> pipe_target (frames p) = false ->
  fix_harmless (fun I => exists tell ty, knows_constants I tell /\ knows_types I tell ty /\ yields I x (fun v => ~ In (ty v) ts))
    p (ECall f args) r.
Proof. exact expect_type_test_harmless. Qed.
Print Assumptions C101_expect_is_type_partial.

(** is.language() accepts symbols, which expect_type() with ["language"] does not. *)
Theorem C101_expect_is_type_refuted : exists p e r,
  node_of_file p e /\ expect_type (frames p) e = Some r /\ frames p = [] /\
  ~ fix_harmless (fun I => exists tell ty, knows_constants I tell /\ knows_types I tell ty) p e r.
Proof. exact type_symbol. Qed.
Print Assumptions C101_expect_is_type_refuted.

(** [expect_true(!x)] becomes [expect_false(x)], and [expect_false(!x)] becomes [expect_true(x)]: the same
    for a logical vector, parenthesised or not, unless the parentheses held an assignment with [=]. *)
Theorem C101_expect_not_partial : forall p f n args r x,
  node_of_file p (ECall f args) -> expect_not (frames p) (ECall f args) = Some r ->
  expectation f n -> args = [(None, Some (EUn UNot x))] -> (forall nl l rr, x <> EParen (EBin BEq nl l rr)) ->
  assigned (frames p) = false -> pipe_target (frames p) = false ->
  fix_harmless (fun I => exists tell, knows_constants I tell /\ yields I x logical) p (ECall f args) r.
Proof. exact expect_not_harmless. Qed.
Print Assumptions C101_expect_not_partial.

(** The test that [!x] is true passes for 0, the one that [x] is false does not; and [(x = FALSE)] without its
    parentheses is a named argument. *)
Theorem C101_expect_not_refuted :
  (exists p e r, node_of_file p e /\ expect_not (frames p) e = Some r /\ frames p = [] /\
     ~ fix_harmless (fun I => exists tell, knows_constants I tell /\ yields I (EAtom (AId (lit "x"))) numeric_like) p e r) /\
  (exists p e r, node_of_file p e /\ expect_not (frames p) e = Some r /\ frames p = [] /\
     ~ fix_harmless (fun I => exists tell, knows_constants I tell) p e r).
Proof. exact (conj not_zero not_assigned). Qed.
Print Assumptions C101_expect_not_refuted.

(** [expect_true(grepl("p", x))] becomes [expect_match(x, "p")], and [expect_false(grepl("p", x))] becomes
    [expect_no_match(x, "p")]: the same for one string. *)
Theorem C101_expect_match_partial : forall no p f args r g x pat,
  node_of_file p (ECall f args) -> (if no : bool then expect_no_match else expect_match) (frames p) (ECall f args) = Some r ->
  expectation f (if no then lit "expect_false" else lit "expect_true") ->
  args = [(None, Some (ECall g [(None, Some (EAtom (AStr pat))); (None, Some x)]))] -> fname g = Some (lit "grepl") ->
  assigned (frames p) = false -> pipe_target (frames p) = false ->
  fix_harmless (fun I => exists tell m, knows_constants I tell /\ knows_match I tell m /\ yields I x (one_string I))
    p (ECall f args) r.
Proof. exact expect_match_harmless. Qed.
Print Assumptions C101_expect_match_partial.

(** With two strings, expect_true() and expect_false() fail, and what replaces them may pass. *)
Theorem C101_expect_match_refuted :
  (exists p e r, node_of_file p e /\ expect_match (frames p) e = Some r /\ frames p = [] /\
     ~ fix_harmless (fun I => exists tell m, knows_constants I tell /\ knows_match I tell m /\
         yields I (EAtom (AId (lit "x"))) (strings I)) p e r) /\
  (exists p e r, node_of_file p e /\ expect_no_match (frames p) e = Some r /\ frames p = [] /\
     ~ fix_harmless (fun I => exists tell m, knows_constants I tell /\ knows_match I tell m /\
         yields I (EAtom (AId (lit "x"))) (strings I)) p e r).
Proof. exact (conj match_two no_match_two). Qed.
Print Assumptions C101_expect_match_refuted.

(** One R meets all the requirements. *)
Example C101_requirements_met : exists I tell, knows_equal I tell /\ knows_constants I tell /\
  (exists len, knows_length I tell len /\ yields I (EAtom (ANum (lit "1"))) (small_count I)) /\
  (exists nms, knows_names I tell nms) /\
  (exists cls s3, knows_s3 I tell cls s3 /\ yields I (EAtom (AId (lit "x"))) (fun v => length (cls v) = 1 /\ s3 v = true)) /\
  (exists ty, knows_types I tell ty /\ yields I (EAtom (AId (lit "x"))) (fun v => ~ In (ty v) [lit "pairlist"])) /\
  (exists m, knows_match I tell m) /\
  yields I (EAtom (AStr (lit "x"))) (one_string I) /\ yields I (EAtom (AStr (lit "x"))) plain /\ yields I (EAtom ATrue) logical.
Proof.
  pose (v := VOther (lit "obj") : dval). pose proof (free_x v) as F.
  exists (library (env_of [(lit "x", v)])), (lib_tell _).
  split; [apply library_equal, F|]. split; [apply library_constants, F|].
  split; [exists lib_len; split; [apply library_length, F|intros s w s' E; injection E as <- <-; exists 1; split; [reflexivity|lia]]|].
  split; [exists lib_names; apply library_names, F|].
  split; [exists lib_class, lib_s3; split; [apply library_s3, F|apply yields_x; split; reflexivity]|].
  split; [exists lib_type; split; [apply library_types, F|apply yields_x; intros [E|[]]; discriminate E]|].
  split; [exists teqb; apply library_match, F|].
  split; [intros s w s' E; injection E as <- <-; eexists; reflexivity|].
  split; [intros s w s' E; injection E as <- <-; exact Logic.I|intros s w s' E; injection E as <- <-; exact Logic.I].
Qed.

(** Files that meet the hypotheses: an expectation of each kind, alone or on the right of [<-], some with the
    package named. *)
Example C101_hypotheses_met :
  let x := var (lit "x") in let p := here [FBinR (BAssign (lit "<-")) false (var (lit "y"))] in
  let f i n := EAtom (ANs (lit "testthat") i n) in
  let two f a b := ECall f [(None, Some a); (None, Some b)] in let one f a := ECall f [(None, Some a)] in
  let e1 := two (f true (lit "expect_identical")) (EAtom ANull) x in
  let e2 := two (f false (lit "expect_equal")) (EAtom ATrue) x in
  let e3 := two (var (lit "expect_equal")) (EAtom (ANum (lit "1"))) (call1 (lit "length") x) in
  let e4 := two (var (lit "expect_identical")) (call1 (lit "names") x) (var (lit "n")) in
  let e5 := two (f false (lit "expect_equal")) (call1 (lit "class") x) (EAtom (AStr (lit "a"))) in
  let e6 := two (var (lit "expect_equal")) (call1 (lit "typeof") x) (EAtom (AStr (lit "a"))) in
  let e7 := one (f true (lit "expect_true")) (call1 (lit "is.list") x) in
  let e8 := one (var (lit "expect_false")) (EUn UNot (EParen (EBin BAnd false x x))) in
  let e9 := one (var (lit "expect_false")) (two (var (lit "grepl")) (EAtom (AStr (lit "a"))) x) in
  assigned (frames p) = false /\ pipe_target (frames p) = false /\
  node_of_file p e1 /\ (exists r, expect_null (frames p) e1 = Some r) /\ expectation (f true (lit "expect_identical")) (lit "expect_identical") /\
  node_of_file p e2 /\ (exists r, expect_true_false (frames p) e2 = Some r) /\
  node_of_file p e3 /\ (exists r, expect_length (frames p) e3 = Some r) /\
  compared (call1 (lit "length") x) (EAtom (ANum (lit "1"))) [(None, Some (EAtom (ANum (lit "1")))); (None, Some (call1 (lit "length") x))] /\
  node_of_file p e4 /\ (exists r, expect_named (frames p) e4 = Some r) /\
  node_of_file p e5 /\ (exists r, expect_s3_class (frames p) e5 = Some r) /\
  node_of_file p e6 /\ (exists r, expect_type (frames p) e6 = Some r) /\
  node_of_file p e7 /\ (exists r, expect_type (frames p) e7 = Some r) /\ In (lit "is.list", [lit "list"; lit "pairlist"]) type_tests /\
  node_of_file p e8 /\ (exists r, expect_not (frames p) e8 = Some r) /\
  node_of_file p e9 /\ (exists r, expect_no_match (frames p) e9 = Some r).
Proof.
  cbn zeta. split; [reflexivity|]. split; [reflexivity|].
  split; [read_it 30|]. split; [eexists; vm_compute; reflexivity|]. split; [right; exists true; reflexivity|].
  split; [read_it 30|]. split; [eexists; vm_compute; reflexivity|].
  split; [read_it 30|]. split; [eexists; vm_compute; reflexivity|]. split; [right; split; reflexivity|].
  split; [read_it 30|]. split; [eexists; vm_compute; reflexivity|].
  split; [read_it 30|]. split; [eexists; vm_compute; reflexivity|].
  split; [read_it 30|]. split; [eexists; vm_compute; reflexivity|].
  split; [read_it 30|]. split; [eexists; vm_compute; reflexivity|].
  split; [cbn [type_tests In]; repeat first [ left; reflexivity | right ]|].
  split; [read_it 30|]. split; [eexists; vm_compute; reflexivity|].
  split; [read_it 30|]. eexists; vm_compute; reflexivity.
Qed.
