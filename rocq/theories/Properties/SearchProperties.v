(** Properties of the search through a file: C69 -- C70. *)
From Verif Require Import Spec.RStops Spec.RPosition Spec.RDemo.
From Verif Require Import Proofs.RSearchProofs Proofs.RStopsProofs Proofs.LintRefute Proofs.SearchRefute.

(** ** C69: what is reported *)
(** A file is searched everywhere but in the function of a call and in what
    [[ ]], [$] and [@] are applied to. *)
Theorem C69_search_exact_partial : forall s p ds, only_functions (unreachable s) -> check_file s p = ROk ds ->
  forall i n r, In (i, (n, r)) ds <->
    exists e fs x, nth_error p i = Some e /\ plug fs x = e /\ reached fs x /\ fires s n fs x r.
Proof. exact check_file_exact. Qed.
Print Assumptions C69_search_exact_partial.

(** Turning other rules on or off does not change what a rule reports. *)
Theorem C69_rules_independent : forall s s' p ds ds', only_functions (unreachable s) -> same_options s s' ->
  check_file s p = ROk ds -> check_file s' p = ROk ds' ->
  forall n, on s n = on s' n -> forall i r, In (i, (n, r)) ds <-> In (i, (n, r)) ds'.
Proof. exact rules_independent. Qed.
Print Assumptions C69_rules_independent.

(** What is reported in a statement does not depend on the others. *)
Theorem C69_statements_independent : forall s p p' ds ds', only_functions (unreachable s) ->
  check_file s p = ROk ds -> check_file s p' = ROk ds' ->
  forall i j, nth_error p i = nth_error p' j -> forall n r, In (i, (n, r)) ds <-> In (j, (n, r)) ds'.
Proof. exact statements_independent. Qed.
Print Assumptions C69_statements_independent.

(** In [any(is.na(x))$a] the call is not reported. *)
Theorem C69_search_refuted : exists s p fs x n r,
  only_functions (unreachable s) /\ p = [plug fs x] /\ fires s n fs x r /\
  check_file s p = ROk [].
Proof. exact search_misses. Qed.
Print Assumptions C69_search_refuted.

(** [if (x == NA) y]: reported in the condition. *)
Example C69_hypotheses_met :
  let x := var (lit "x") in let c := EBin (BCmp CEq) false x (EAtom (ANa (lit "NA"))) in
  let p := [x; EIf c (var (lit "y")) None] in
  only_functions (unreachable everything_on) /\
  exists r, check_file everything_on p = ROk [(1, (lit "equals_na", r))].
Proof.
  cbn zeta. split; [intros fs e; destruct e; exact eq_refl || exact Logic.I|]. eexists. vm_compute. reflexivity.
Qed.

(** ** C70: which files are refused *)
Theorem C70_refused_exactly : forall s p, only_functions (unreachable s) -> never_fails (unreachable s) ->
  (forall e, In e p -> numerals e) ->
  ((exists ds, check_file s p = ROk ds) <->
   forall e fs x n, In e p -> plug fs x = e -> reached fs x -> on s n = true -> ~ stops n x).
Proof. exact refused_iff. Qed.
Print Assumptions C70_refused_exactly.

(** [sapply(X = x, FUN = length)], [length(, x)], [sample(, 3)], [next()] and
    [if (0x10) x] are code R can read on which jarl fails. *)
Theorem C70_readable_refused_refuted : forall e, In e
  [ call (lit "sapply") [named (lit "X") (var (lit "x")); named (lit "FUN") (var (lit "length"))];
    call (lit "length") [(None, None); pos (var (lit "x"))];
    call (lit "sample") [(None, None); pos (EAtom (ANum (lit "3")))];
    ECall (EAtom (AOther (lit "next"))) [];
    EIf (EAtom (ANum (lit "0x10"))) (var (lit "x")) None ] ->
  reads (prog_toks [e]) [e] /\ forall ds, check_file everything_on [e] <> ROk ds.
Proof. exact readable_refused. Qed.
Print Assumptions C70_readable_refused_refuted.

(** A file nothing fails on, and one where [sapply(X = x, FUN = length)] is
    inside a function. *)
Example C70_hypotheses_met :
  let bad := call (lit "sapply") [named (lit "X") (var (lit "x")); named (lit "FUN") (var (lit "length"))] in
  only_functions (unreachable everything_on) /\ never_fails (unreachable everything_on) /\
  numerals (EFun [] (EBraces [bad])) /\
  reached [FBraces [] []; FFunB []] bad /\ stops (lit "lengths") bad /\
  (exists ds, check_file everything_on [var (lit "x"); EIf (EAtom (ANum (lit "1"))) (var (lit "x")) None] = ROk ds).
Proof.
  cbn zeta. split; [intros fs e; destruct e; exact eq_refl || exact Logic.I|].
  split; [intros fs e; eexists; reflexivity|].
  split; [intros t H; repeat (destruct H as [H|H]; [discriminate H|]); destruct H|].
  split; [left; repeat constructor|].
  split.
  - eapply no_x with (n := lit "sapply") (m := Some (lit "FUN")); [left; reflexivity|constructor| |].
    + apply by_name with (pre := [named (lit "X") (var (lit "x"))]) (post := []); [reflexivity|].
      intros v [H|[]]. discriminate (f_equal fst H).
    + intros a H. inversion H as [pre v post E N|b N E].
      * destruct pre as [|p1 [|p2 [|p3 pre]]]; discriminate.
      * discriminate E.
  - eexists. vm_compute. reflexivity.
Qed.
