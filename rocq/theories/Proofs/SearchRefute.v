(** Consequences of the exactness of the search, and counterexamples. *)
From Verif Require Import Spec.RStops Spec.RDemo Proofs.RSearchProofs Proofs.RStopsProofs Proofs.LintRefute.

Lemma fires_same : forall s s' n fs x r, same_options s s' -> on s n = on s' n -> fires s n fs x r -> fires s' n fs x r.
Proof.
  intros s s' n fs x r (H1 & H2 & H3 & H4 & H5) Hon (Ho & rule & rs & Hin & E & Hr). split; [congruence|].
  exists rule, rs. split; [|auto]. unfold all_rules in *. rewrite <- H1, <- H2, <- H3, <- H4, <- H5. exact Hin.
Qed.
Theorem rules_independent : forall s s' p ds ds', only_functions (unreachable s) -> same_options s s' ->
  check_file s p = ROk ds -> check_file s' p = ROk ds' ->
  forall n, on s n = on s' n -> forall i r, In (i, (n, r)) ds <-> In (i, (n, r)) ds'.
Proof.
  intros s s' p ds ds' Hu Hs Hd Hd' n Hn i r.
  assert (Hu' : only_functions (unreachable s')) by (destruct Hs as (_ & _ & _ & _ & <-); exact Hu).
  assert (Hs' : same_options s' s) by (destruct Hs as (H1 & H2 & H3 & H4 & H5); repeat split; auto).
  rewrite (check_file_exact s p ds Hu Hd), (check_file_exact s' p ds' Hu' Hd').
  split; intros (e & fs & x & Hi & Hp & Hr & Hf); exists e, fs, x; (split; [exact Hi|split; [exact Hp|split; [exact Hr|]]]).
  - exact (fires_same s s' n fs x r Hs Hn Hf).
  - exact (fires_same s' s n fs x r Hs' (eq_sym Hn) Hf).
Qed.
Theorem statements_independent : forall s p p' ds ds', only_functions (unreachable s) ->
  check_file s p = ROk ds -> check_file s p' = ROk ds' ->
  forall i j, nth_error p i = nth_error p' j -> forall n r, In (i, (n, r)) ds <-> In (j, (n, r)) ds'.
Proof.
  intros s p p' ds ds' Hu Hd Hd' i j H n r.
  rewrite (check_file_exact s p ds Hu Hd), (check_file_exact s p' ds' Hu Hd'), H. reflexivity.
Qed.

Lemma search_misses : exists s p fs x n r,
  only_functions (unreachable s) /\ p = [plug fs x] /\ fires s n fs x r /\
  check_file s p = ROk [].
Proof.
  exists everything_on, [EExtract (call (lit "any") [pos (call (lit "is.na") [pos (var (lit "x"))])]) (lit "$") (lit "a")],
    [FExtract (lit "$") (lit "a")], (call (lit "any") [pos (call (lit "is.na") [pos (var (lit "x"))])]), (lit "any_is_na").
  eexists. split; [intros fs e; destruct e; exact eq_refl || exact Logic.I|]. split; [reflexivity|]. split.
  - split; [reflexivity|]. exists (total any_is_na). eexists. split; [unfold all_rules; tail_in|]. split; [vm_compute; reflexivity|].
    left. reflexivity.
  - vm_compute. reflexivity.
Qed.
Lemma readable_refused : forall e, In e
  [ call (lit "sapply") [named (lit "X") (var (lit "x")); named (lit "FUN") (var (lit "length"))];
    call (lit "length") [(None, None); pos (var (lit "x"))];
    call (lit "sample") [(None, None); pos (EAtom (ANum (lit "3")))];
    ECall (EAtom (AOther (lit "next"))) [];
    EIf (EAtom (ANum (lit "0x10"))) (var (lit "x")) None ] ->
  reads (prog_toks [e]) [e] /\ forall ds, check_file everything_on [e] <> ROk ds.
Proof.
  intros e H. repeat (destruct H as [<-|H]; [split; [read_it 30|intro ds; vm_compute; discriminate]|]). destruct H.
Qed.
