(** Files that [--fix] damages. *)
From Verif Require Import Spec.RFile Proofs.TextProofs Proofs.RParse Proofs.RFuel.

Definition c0 : config := Eval vm_compute in
  match build_config (fix_args []) None [] with ROk c => c | _ => mk_config [] [] false false None [] None end.
Definition ca : config := Eval vm_compute in
  match build_config (fix_args (lit "assignment")) None [] with ROk c => c | _ => mk_config [] [] false false None [] None end.
Definition o0 : rule_options := Eval vm_compute in
  match resolve_options None None None None None None with ROk o => o | _ => mk_options true [] [] [] [] 0 end.
Lemma run_default : forall c o, run_with [] c o -> c = c0 /\ o = o0.
Proof.
  intros c o [C O].
  assert (Q : build_config (fix_args []) None [] = ROk c0) by (vm_compute; reflexivity).
  assert (R : resolve_options None None None None None None = ROk o0) by (vm_compute; reflexivity).
  rewrite Q in C. rewrite R in O. inversion C. inversion O. auto.
Qed.
Lemma run_assignment : forall c o, run_with (lit "assignment") c o -> c = ca /\ o = o0.
Proof.
  intros c o [C O].
  assert (Q : build_config (fix_args (lit "assignment")) None [] = ROk ca) by (vm_compute; reflexivity).
  assert (R : resolve_options None None None None None None = ROk o0) by (vm_compute; reflexivity).
  rewrite Q in C. rewrite R in O. inversion C. inversion O. auto.
Qed.
(** One pass and the last reading. *)
Lemma fixed_once : forall c o u p t t' ds r, has_rmd_extension p = false -> fixing_mode c = true ->
  get_checks c o u t = Some ds -> apply_fixes (map d_fix ds) t = Some (false, t') ->
  match get_checks c o u t' with Some ds' => Ok ds' | None => Err ELint end = r ->
  exists n fs', jarl_check c o u n p (only_file p t) = (fs', Some r) /\ fs' p = Some t'.
Proof.
  intros c o u p t t' ds r X F G A R. exists 3, (upd (only_file p t) p t').
  unfold jarl_check, check_path, check_path_start. rewrite F, X. cbn [jrun jstep].
  unfold only_file at 1. rewrite teqb_refl, G, A. cbn [jrun jstep]. unfold upd at 1. rewrite teqb_refl.
  destruct (get_checks c o u t'); subst r; split; try reflexivity; unfold upd; rewrite teqb_refl; reflexivity.
Qed.
(** A pass that leaves something for the next one. *)
Lemma fixed_more : forall c o u p t t1 t' ds r, has_rmd_extension p = false -> fixing_mode c = true ->
  get_checks c o u t = Some ds -> apply_fixes (map d_fix ds) t = Some (true, t1) ->
  (exists n fs', jarl_check c o u n p (only_file p t1) = (fs', Some r) /\ fs' p = Some t') ->
  exists n fs', jarl_check c o u n p (only_file p t) = (fs', Some r) /\ fs' p = Some t'.
Proof.
  intros c o u p t t1 t' ds r X F G A (n & fs' & J & E).
  assert (Sim : forall lint w m p fs fs2 j, (forall q, q = p -> fs q = fs2 q) ->
    snd (jrun lint w m p fs j) = snd (jrun lint w m p fs2 j) /\ fst (jrun lint w m p fs j) p = fst (jrun lint w m p fs2 j) p).
  { clear. induction m as [|m IH]; intros p fs fs2 j H; cbn [jrun]; [auto|].
    assert (K : snd (jstep lint w p fs j) = snd (jstep lint w p fs2 j) /\
      (forall q, q = p -> fst (jstep lint w p fs j) q = fst (jstep lint w p fs2 j) q)).
    { destruct j; cbn [jstep].
      - rewrite <- (H p eq_refl). destruct (fs p); [|auto]. destruct (lint p t); [|auto]. destruct skipped; [|auto].
        destruct (apply_fixes _ _) as [[? ?]|]; auto.
      - destruct (w p); cbn [fst snd]; [|auto]. split; [reflexivity|]. intros q ->. unfold upd. rewrite teqb_refl. reflexivity.
      - auto. }
    destruct (jstep lint w p fs j) as [f1 j1], (jstep lint w p fs2 j) as [f2 j2]. cbn [fst snd] in K. destruct K as [-> K].
    apply IH. exact K. }
  unfold jarl_check, check_path, check_path_start in *. rewrite F, X in *. exists (S (S n)).
  cbn [jrun jstep]. unfold only_file at 1. rewrite teqb_refl, G, A. cbn [jrun jstep].
  destruct (Sim (fun _ t => get_checks c o u t) (fun _ => true) n p (upd (only_file p t) p t1) (only_file p t1) (JRead true)) as [S1 S2].
  { intros q ->. unfold upd, only_file. rewrite teqb_refl. reflexivity. }
  destruct (jrun _ _ n p (only_file p t1) (JRead true)) as [f1 j1]. destruct (jrun _ _ n p (upd _ _ _) (JRead true)) as [f2 j2].
  cbn [fst snd] in S1, S2. subst j2. destruct j1; try discriminate. injection J as <- ->. exists f2. split; [reflexivity|].
  rewrite S2. exact E.
Qed.
Lemma fixed_broken : forall c o u p t t' ds b, has_rmd_extension p = false -> fixing_mode c = true ->
  get_checks c o u t = Some ds -> apply_fixes (map d_fix ds) t = Some (b, t') -> get_checks c o u t' = None ->
  exists n fs', jarl_check c o u n p (only_file p t) = (fs', Some (Err ELint)) /\ fs' p = Some t'.
Proof.
  intros c o u p t t' ds b X F G A R. exists 3, (upd (only_file p t) p t').
  unfold jarl_check, check_path, check_path_start. rewrite F, X. cbn [jrun jstep].
  unfold only_file at 1. rewrite teqb_refl, G, A. cbn [jrun jstep]. unfold upd at 1. rewrite teqb_refl, R.
  split; [reflexivity|]. unfold upd. rewrite teqb_refl. reflexivity.
Qed.
Ltac broken := eapply fixed_broken; [assumption|reflexivity|vm_compute; reflexivity|vm_compute; reflexivity|vm_compute; reflexivity].
Ltac one_run := eapply fixed_once; [assumption|reflexivity|vm_compute; reflexivity|vm_compute; reflexivity|vm_compute; reflexivity].
Ltac more := eapply fixed_more; [assumption|reflexivity|vm_compute; reflexivity|vm_compute; reflexivity|].
Ltac default_rules := intros c o u p R X; apply run_default in R; destruct R as [-> ->].

Lemma unreadable : forall t, match tokens t with Some pts => parse (map fst pts) | None => None end = None -> ~ readable t.
Proof.
  intros t H (p & pts & T & R). rewrite T in H. apply parse_reads in R. congruence.
Qed.
Lemma is_readable : forall t p, match tokens t with Some pts => parse (map fst pts) | None => None end = Some p -> readable t.
Proof.
  intros t p H. destruct (tokens t) as [pts|] eqn:T; [|discriminate]. exists p, pts. split; [exact T|]. apply parse_reads, H.
Qed.
Ltac reading := eapply is_readable; vm_compute; reflexivity.
Ltac not_reading := apply unreadable; vm_compute; reflexivity.

Lemma else_glued : readable (lit "if (a) b else!(x > y)") /\
  fixed_into [] (lit "if (a) b else!(x > y)") (lit "if (a) b elsex <= y") (Err ELint) /\ ~ readable (lit "if (a) b elsex <= y").
Proof. split; [reading|]. split; [|not_reading]. default_rules. one_run. Qed.
Lemma before_else_glued : readable (lit "if (a) !(x > y)else z") /\
  fixed_into [] (lit "if (a) !(x > y)else z") (lit "if (a) x <= yelse z") (Err ELint) /\ ~ readable (lit "if (a) x <= yelse z").
Proof. split; [reading|]. split; [|not_reading]. default_rules. one_run. Qed.
Lemma comparison_glued : readable (lit "!(any(duplicated(x)) == y)") /\
  fixed_into [] (lit "!(any(duplicated(x)) == y)") (lit "anyDuplicated(x) > 0 != y") (Err ELint) /\
  ~ readable (lit "anyDuplicated(x) > 0 != y").
Proof. split; [reading|]. split; [|not_reading]. default_rules. more. one_run. Qed.
Definition many_before : text := of_lines (repeat (lit "any(is.na(x))") 7) ++ lit "any(is.na(any(is.na(y))))".
Definition many_after : text :=
  of_lines (lit "anyNA(x)" :: lit "any(is.na(x))" :: repeat (lit "anyNA(x)") 5) ++ lit "anyNAanyNA(y)))".
Lemma offsets_wrong : readable many_before /\ fixed_into [] many_before many_after (Err ELint) /\ ~ readable many_after.
Proof. split; [reading|]. split; [|not_reading]. default_rules. broken. Qed.
Lemma comment_lost : fixed_into []
  (of_lines [lit "# foo"; lit "any(is.na(# bar"; lit "x))"]) (of_lines [lit "# foo"; lit "anyNA(x)"]) (Ok []).
Proof. default_rules. one_run. Qed.
Lemma assignment_comment_lost : fixed_into (lit "assignment")
  (of_lines [lit "x = # one"; lit "1"]) (of_lines [lit "x <- 1"]) (Ok []).
Proof. intros c o u p R X; apply run_assignment in R; destruct R as [-> ->]. one_run. Qed.
Lemma second_run : exists ds,
  fixed_into [] (lit "ifelse(x > y, FALSE, TRUE)") (lit "!(x > y)") (Ok ds) /\ fixed_into [] (lit "!(x > y)") (lit "x <= y") (Ok []).
Proof. eexists. split; default_rules; one_run. Qed.
