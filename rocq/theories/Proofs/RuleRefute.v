(** Files that the fixes of the other rules change. *)
From Verif Require Import Spec.RMore Spec.RDemo Spec.RDocumented Proofs.RParse Proofs.RContext Proofs.LintRefute.

(** [a = b = c] becomes [a <- b = c]. *)
Lemma assignment_chain : exists p e r,
  node_of_file p e /\ assignment true (frames p) e = Some r /\
  ~ fix_harmless (numbers [lit "c"]) p e r.
Proof.
  exists (here []), (EBin BEq false (var (lit "a")) (EBin BEq false (var (lit "b")) (var (lit "c")))).
  eexists. split; [read_it 30|]. split; [reflexivity|].
  by_run 30 (demo (env_of [(lit "c", nm [2%Z])])) 0%Z.
  vars.
Qed.
(** With the option to prefer [=], [f(x <- 1)] becomes [f(x = 1)]. *)
Lemma assignment_argument : exists p e r,
  node_of_file p e /\ assignment false (frames p) e = Some r /\
  forall shape, ~ fix_is_one_expression shape p r.
Proof.
  exists (here [FCallA (var (lit "f")) [] None []]), (EBin (BAssign (lit "<-")) false (var (lit "x")) (EAtom (ANum (lit "1")))).
  eexists. split; [read_it 30|]. split; [reflexivity|]. by_two 30.
Qed.
(** And [while (x <- y) z] becomes [while (x = y) z], which R cannot read. *)
Lemma assignment_condition : exists p e r,
  node_of_file p e /\ assignment false (frames p) e = Some r /\
  forall P, ~ fix_harmless P p e r.
Proof.
  exists (here [FWhileC (var (lit "z"))]), (EBin (BAssign (lit "<-")) false (var (lit "x")) (var (lit "y"))).
  eexists. split; [read_it 30|]. split; [reflexivity|].
  intro P. by_syntax 30.
Qed.

(** [if (x) { if (y) z }] becomes [if (x && y) z]: with NA in [x] and FALSE in
    [y], only the first one fails. *)
Lemma nesting_na : exists p e r,
  node_of_file p e /\ unnecessary_nesting (frames p) e = Some r /\
  ~ fix_harmless (logicals [lit "x"; lit "y"]) p e r.
Proof.
  exists (here []), (EIf (var (lit "x")) (EBraces [EIf (var (lit "y")) (var (lit "z")) None]) None).
  eexists. split; [read_it 30|]. split; [reflexivity|].
  by_run 30 (demo (env_of [(lit "x", VLgl [None]); (lit "y", VLgl [Some false])])) 0%Z.
  vars.
Qed.
