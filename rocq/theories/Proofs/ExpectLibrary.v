(** The R of Spec/RLibrary.v meets the requirements of Spec/RExpect.v; and tests whose verdict the fixes
    change (C101). *)
From Verif Require Import Model.MoreLints Spec.RGrammar Spec.RWellFormed Spec.RPosition Spec.RSemantics Spec.RFix Spec.RFunctions Spec.RExpect Spec.RLibrary.
From Verif Require Import Proofs.TextProofs Proofs.RParse Proofs.LintRefute Proofs.FunctionProofs Proofs.LibraryProofs Proofs.ExpectProofs.

(** An expectation that is met gives NULL, one that is not stops the program. *)
Definition lib_tell (env : text -> option dval) : bool -> comp (library env) :=
  fun b s => if b then Some (VNull, s) else None.

Section Library.
Variable env : text -> option dval.
Notation I := (library env).
Hypothesis H : free env.
Lemma expectation_eval : forall f n s, expectation f n -> env n = None -> eval I f s = Some (VOther n, s).
Proof.
  intros f n s [->|(i & ->)] E; cbn [eval atom_sem library i_atom]; [rewrite E|]; reflexivity.
Qed.
Lemma lib_judges1 : forall n g h, env n = None -> entry n lib1 = Some (told1 h) -> (forall v b, g v = Some b -> h v = b) ->
  judges1 I (lib_tell env) n g.
Proof.
  intros n g h E Hn Hg f c s Hf. cbn [library i_call]. unfold lib_call.
  rewrite (expectation_eval f n s Hf E), Hn. destruct (c s) as [[v s1]|]; [|reflexivity].
  intros b Hb. unfold told1. rewrite (Hg _ _ Hb). destruct b; reflexivity.
Qed.
Lemma lib_judges2 : forall n g h, env n = None -> entry n lib2 = Some (told2 h) -> (forall v w b, g v w = Some b -> h v w = b) ->
  judges2 I (lib_tell env) n g.
Proof.
  intros n g h E Hn Hg f c d s Hf. cbn [library i_call]. unfold lib_call.
  rewrite (expectation_eval f n s Hf E), Hn. destruct (c s) as [[v s1]|]; [|reflexivity].
  destruct (d s1) as [[w s2]|]; [|reflexivity]. intros b Hb. unfold told2. rewrite (Hg _ _ _ Hb). destruct b; reflexivity.
Qed.
Ltac is_in := cbn [lib1 lib2 In app map type_tests fst snd]; repeat first [ left; reflexivity | right ].
Ltac entry_free := first [ solve [eapply (proj1 H); is_in] | solve [eapply (proj2 H); is_in] ].
Ltac j1 := eapply lib_judges1; [entry_free|reflexivity|].
Ltac j2 := eapply lib_judges2; [entry_free|reflexivity|].
Ltac m1 := eapply lib_means1; [entry_free|reflexivity|reflexivity|].
Ltac m2 := eapply lib_means2; [entry_free|reflexivity|reflexivity|].

Lemma library_equal : knows_equal I (lib_tell env).
Proof.
  exists Z.eqb. split; [|split].
  - intros a b _. cbn [library nnat]. apply Bool.eq_iff_eq_true. rewrite Z.eqb_eq, Nat.eqb_eq. lia.
  - j2. intros v w b Hb. unfold lib_equal. change (equal base Z.eqb v w) with (equal I Z.eqb v w). rewrite Hb. reflexivity.
  - j2. intros v w b Hb. unfold lib_equal. destruct v, w; cbn [identical equal] in Hb |- *; try discriminate; congruence.
Qed.
Lemma library_constants : knows_constants I (lib_tell env).
Proof.
  split; [|split]; j1; intros v b Hb.
  - destruct v; congruence.
  - destruct v as [[|[[]|] [|? ?]]| | | |]; congruence.
  - destruct v as [[|[[]|] [|? ?]]| | | |]; congruence.
Qed.
Lemma library_length : knows_length I (lib_tell env) lib_len.
Proof.
  split; [m1; intros v w E; exact E|].
  intros f c d s Hf call. unfold call. cbn [library i_call]. unfold lib_call.
  assert (E : env (lit "expect_length") = None) by entry_free.
  rewrite (expectation_eval f _ s Hf E).
  change (entry (lit "expect_length") lib2) with (Some (told2 (fun v w => match one_nat w with Some k => lib_len v =? k | None => false end))).
  destruct (c s) as [[v s1]|]; [|reflexivity]. destruct (d s1) as [[w s2]|]; [|reflexivity].
  intros k ->. unfold told2. rewrite one_nat_number. destruct (lib_len v =? k); reflexivity.
Qed.
Lemma library_names : knows_names I (lib_tell env) lib_names.
Proof.
  split; [m1; intros v w E; exact E|]. j2. intros v w b Hb. destruct w; try discriminate. destruct (lib_names v); congruence.
Qed.
Lemma library_s3 : knows_s3 I (lib_tell env) lib_class lib_s3.
Proof.
  split; [m1; intros v w E; exact E|]. j2. intros v w b Hb. destruct w as [| |[|[]  [|? ?]]| |]; congruence.
Qed.
Lemma removelast_quote : forall t : text, removelast (t ++ [34%N]) = t.
Proof. intro t. rewrite removelast_app by discriminate. apply app_nil_r. Qed.
Lemma library_types : knows_types I (lib_tell env) lib_type.
Proof.
  split; [|split; [|split]].
  - intros t _. apply removelast_quote.
  - m1. intros v w E. exact E.
  - j2. intros v w b Hb. destruct w as [| |[|[]  [|? ?]]| |]; congruence.
  - intros n ts f c s Hn Hf. rewrite Hf.
    assert (G : forall n ts, In (n, ts) type_tests -> fname f = Some n -> home n = lit "base" ->
      builtin1 I n = None -> (forall args, builtin3 I n args = None) -> env n = None ->
      entry n lib1 = Some (fun v => Some (lgls base [has_type base lib_type ts v])) ->
      apply I (Some n) (eval I f) [(None, Some c)] s =
      match c s with None => None | Some (v, s1) => Some (lgls I [has_type I lib_type ts v], s1) end).
    { intros n' ts' Hi Hf' Hh B1 B3 He En. unfold apply. rewrite B1, B3. cbn [library i_call]. unfold lib_call.
      rewrite (fname_eval env f n' s Hf' Hh He), En. destruct (c s) as [[v s1]|]; reflexivity. }
    repeat (destruct Hn as [Hn|Hn];
      [pose proof (f_equal fst Hn) as E1; pose proof (f_equal snd Hn) as E2; cbn [fst snd] in E1, E2; subst n ts;
       first [ apply G; [cbn [type_tests In]; repeat first [ left; reflexivity | right ]|exact Hf|reflexivity|reflexivity|intro; reflexivity|entry_free|reflexivity]
             | change (strict1 I (visint I) c s = match c s with None => None | Some (v, s1) => Some (lgls I [has_type I lib_type [lit "integer"] v], s1) end);
               unfold strict1, cbind; destruct (c s) as [[[| | | |o] s1]|]; try reflexivity;
               cbn [visint clift library o_isint is_int]; unfold cret, has_type; cbn [lib_type];
               destruct (teqb o (lit "factor")) eqn:F; [apply teqb_eq in F; subst o; reflexivity|];
               destruct (teqb o (lit "sym")); reflexivity
             | change (strict1 I (visnull I) c s = match c s with None => None | Some (v, s1) => Some (lgls I [has_type I lib_type [lit "NULL"] v], s1) end);
               unfold strict1, cbind; destruct (c s) as [[[| | | |o] s1]|]; try reflexivity;
               cbn [visnull clift]; unfold cret, has_type; cbn [lib_type]; destruct (teqb o (lit "sym")); [reflexivity|];
               destruct (teqb o (lit "factor")); reflexivity ]|]).
    destruct Hn.
Qed.
Lemma library_match : knows_match I (lib_tell env) teqb.
Proof.
  split; [m2; intros v w x E; exact E|]. split; j2; intros v w b Hb.
  - destruct w as [| |[|[q|] [|? ?]]| |]; try discriminate; destruct v; try discriminate; symmetry; exact (some_eq _ _ Hb).
  - destruct w as [| |[|[q|] [|? ?]]| |]; try discriminate; destruct v; try discriminate; symmetry; exact (some_eq _ _ Hb).
Qed.
End Library.

(** [expect_equal(class(x), "a")] when [x] has another class too: the test fails, the fixed one passes.  And
    [expect_equal(class(x), "call")] for a call, which has no class attribute: the other way around. *)
Lemma s3_two : exists p e r,
  node_of_file p e /\ expect_s3_class (frames p) e = Some r /\ frames p = [] /\
  ~ fix_harmless (fun I => exists tell cls s3, knows_equal I tell /\ knows_s3 I tell cls s3 /\
      yields I (EAtom (AId (lit "x"))) (fun v => s3 v = true)) p e r.
Proof.
  exists (here []), (ECall (var (lit "expect_equal")) [(None, Some (call1 (lit "class") (var (lit "x")))); (None, Some (EAtom (AStr (lit "a"))))]).
  eexists. split; [read_it 30|]. split; [vm_compute; reflexivity|]. split; [reflexivity|].
  by_run 30 (library (env_of [(lit "x", VOther (lit "both"))])) 0%Z.
  eexists _, _, _. split; [apply library_equal, free_x|]. split; [apply library_s3, free_x|]. apply yields_x. reflexivity.
Qed.
Lemma s3_call : exists p e r,
  node_of_file p e /\ expect_s3_class (frames p) e = Some r /\ frames p = [] /\
  ~ fix_harmless (fun I => exists tell cls s3, knows_equal I tell /\ knows_s3 I tell cls s3 /\
      yields I (EAtom (AId (lit "x"))) (fun v => length (cls v) = 1)) p e r.
Proof.
  exists (here []), (ECall (var (lit "expect_equal")) [(None, Some (call1 (lit "class") (var (lit "x")))); (None, Some (EAtom (AStr (lit "call"))))]).
  eexists. split; [read_it 30|]. split; [vm_compute; reflexivity|]. split; [reflexivity|].
  by_run 30 (library (env_of [(lit "x", VOther (lit "call"))])) 0%Z.
  eexists _, _, _. split; [apply library_equal, free_x|]. split; [apply library_s3, free_x|]. apply yields_x. reflexivity.
Qed.
(** [expect_true(is.language(x))] for a symbol. *)
Lemma type_symbol : exists p e r,
  node_of_file p e /\ expect_type (frames p) e = Some r /\ frames p = [] /\
  ~ fix_harmless (fun I => exists tell ty, knows_constants I tell /\ knows_types I tell ty) p e r.
Proof.
  exists (here []), (call1 (lit "expect_true") (call1 (lit "is.language") (var (lit "x")))).
  eexists. split; [read_it 30|]. split; [vm_compute; reflexivity|]. split; [reflexivity|].
  by_run 30 (library (env_of [(lit "x", VOther (lit "sym"))])) 0%Z.
  eexists _, _. split; [apply library_constants, free_x|]. apply library_types, free_x.
Qed.
(** [expect_true(!x)] when [x] is 0. *)
Lemma not_zero : exists p e r,
  node_of_file p e /\ expect_not (frames p) e = Some r /\ frames p = [] /\
  ~ fix_harmless (fun I => exists tell, knows_constants I tell /\ yields I (EAtom (AId (lit "x"))) numeric_like) p e r.
Proof.
  exists (here []), (call1 (lit "expect_true") (EUn UNot (var (lit "x")))).
  eexists. split; [read_it 30|]. split; [vm_compute; reflexivity|]. split; [reflexivity|].
  by_run 30 (library (env_of [(lit "x", VNum [Some 0%Z])])) 0%Z.
  eexists. split; [apply library_constants, free_x|]. apply yields_x. exact Logic.I.
Qed.
(** [expect_true(!(x = FALSE))] becomes [expect_false(x = FALSE)], a named argument. *)
Lemma not_assigned : exists p e r,
  node_of_file p e /\ expect_not (frames p) e = Some r /\ frames p = [] /\
  ~ fix_harmless (fun I => exists tell, knows_constants I tell) p e r.
Proof.
  exists (here []), (call1 (lit "expect_true") (EUn UNot (EParen (EBin BEq false (var (lit "x")) (EAtom AFalse))))).
  eexists. split; [read_it 30|]. split; [vm_compute; reflexivity|]. split; [reflexivity|].
  by_run 30 (library (env_of [(lit "x", VNum [Some 0%Z])])) 0%Z.
  eexists. apply library_constants, free_x.
Qed.
(** [expect_true(grepl("a", x))] with two strings that match. *)
Lemma match_two : exists p e r,
  node_of_file p e /\ expect_match (frames p) e = Some r /\ frames p = [] /\
  ~ fix_harmless (fun I => exists tell m, knows_constants I tell /\ knows_match I tell m /\
      yields I (EAtom (AId (lit "x"))) (strings I)) p e r.
Proof.
  exists (here []), (call1 (lit "expect_true") (ECall (var (lit "grepl")) [(None, Some (EAtom (AStr (lit "a")))); (None, Some (var (lit "x")))])).
  eexists. split; [read_it 30|]. split; [vm_compute; reflexivity|]. split; [reflexivity|].
  by_run 30 (library (env_of [(lit "x", VStr [Some (lit "a"); Some (lit "a")])])) 0%Z.
  eexists _, _. split; [apply library_constants, free_x|]. split; [apply library_match, free_x|]. apply yields_x. eexists; reflexivity.
Qed.
Lemma no_match_two : exists p e r,
  node_of_file p e /\ expect_no_match (frames p) e = Some r /\ frames p = [] /\
  ~ fix_harmless (fun I => exists tell m, knows_constants I tell /\ knows_match I tell m /\
      yields I (EAtom (AId (lit "x"))) (strings I)) p e r.
Proof.
  exists (here []), (call1 (lit "expect_false") (ECall (var (lit "grepl")) [(None, Some (EAtom (AStr (lit "a")))); (None, Some (var (lit "x")))])).
  eexists. split; [read_it 30|]. split; [vm_compute; reflexivity|]. split; [reflexivity|].
  by_run 30 (library (env_of [(lit "x", VStr [Some (lit "b"); Some (lit "c")])])) 0%Z.
  eexists _, _. split; [apply library_constants, free_x|]. split; [apply library_match, free_x|]. apply yields_x. eexists; reflexivity.
Qed.
