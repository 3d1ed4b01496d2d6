(** Nodes that compute the same can be exchanged. *)
From Verif Require Import Spec.RGrammar Spec.RWellFormed Spec.RPosition Spec.RSemantics.
From Verif Require Import Proofs.RParse Proofs.RParseSound Proofs.RContext.

Lemma ceq_refl : forall {S V} (c : S -> option (V * S)), ceq c c.
Proof. intros S V c s. reflexivity. Qed.
Lemma ceq_sym : forall {S V} (c d : S -> option (V * S)), ceq c d -> ceq d c.
Proof. intros S V c d H s. symmetry. apply H. Qed.
Lemma ceq_trans : forall {S V} (c d e : S -> option (V * S)), ceq c d -> ceq d e -> ceq c e.
Proof. intros S V c d e H1 H2 s. rewrite H1. apply H2. Qed.
Lemma oceq_refl : forall {S V} (c : option (S -> option (V * S))), oceq c c.
Proof. intros S V [c|]; constructor. apply ceq_refl. Qed.
Lemma argseq_refl : forall {A S V} (l : list (A * option (S -> option (V * S)))), argseq l l.
Proof.
  intros A S V l. induction l; constructor; auto. split; [reflexivity|apply oceq_refl].
Qed.
Lemma argseq_app : forall {A S V} (a b c d : list (A * option (S -> option (V * S)))),
  argseq a b -> argseq c d -> argseq (a ++ c) (b ++ d).
Proof. intros. apply Forall2_app; auto. Qed.

#[global] Hint Resolve ceq_refl oceq_refl argseq_refl : req.

Section Congruence.
  Variable I : interp.
  Notation val := (value (num I) (other I)).
  Notation comp := (comp I).
  Notation eval := (eval I).
  Notation assign := (assign I).
  Notation piped := (piped I).
  Notation apply := (apply I).

  Lemma cbind_ext : forall (c c' : comp) (k k' : val -> comp),
    ceq c c' -> (forall v, ceq (k v) (k' v)) -> ceq (cbind I c k) (cbind I c' k').
  Proof.
    intros c c' k k' H1 H2 s. unfold cbind. rewrite H1. destruct (c' s) as [[v s']|]; auto.
    apply H2.
  Qed.
  Lemma strict1_ext : forall f (c c' : comp), ceq c c' -> ceq (strict1 I f c) (strict1 I f c').
  Proof. intros. apply cbind_ext; auto with req. Qed.
  Lemma strict2_ext : forall f (c c' d d' : comp), ceq c c' -> ceq d d' ->
    ceq (strict2 I f c d) (strict2 I f c' d').
  Proof. intros. apply cbind_ext; auto. intros v. apply cbind_ext; auto with req. Qed.
  Lemma un_sem_ext : forall u (c c' : comp), ceq c c' -> ceq (un_sem I u c) (un_sem I u c').
  Proof. intros [] c c' H; cbn; try (apply strict1_ext; auto). apply i_un_ext. exact H. Qed.
  Lemma shortcut_ext : forall a (c c' d d' : comp), ceq c c' -> ceq d d' ->
    ceq (shortcut I a c d) (shortcut I a c' d').
  Proof.
    intros a c c' d d' H1 H2 s. unfold shortcut, cbind. rewrite H1.
    destruct (c' s) as [[v s1]|]; [|reflexivity].
    destruct (single I v) as [x|]; [|reflexivity].
    destruct (match x with Some b => Bool.eqb b (negb a) | None => false end); [reflexivity|].
    rewrite H2. reflexivity.
  Qed.
  Lemma bin_sem_ext : forall o (c c' d d' : comp), ceq c c' -> ceq d d' ->
    ceq (bin_sem I o c d) (bin_sem I o c' d').
  Proof.
    intros o c c' d d' H1 H2. destruct o; cbn [bin_sem];
      try (apply i_bin_ext; auto); try (apply strict2_ext; auto); try (apply shortcut_ext; auto).
    - destruct (teqb t _); [|destruct (teqb t _)].
      + apply cbind_ext; auto. intros []; auto with req.
      + apply strict2_ext; auto.
      + apply i_bin_ext; auto.
  Qed.
  Lemma if_sem_ext : forall (c c' t t' : comp) e e', ceq c c' -> ceq t t' -> oceq e e' ->
    ceq (if_sem I c t e) (if_sem I c' t' e').
  Proof.
    intros c c' t t' e e' H1 H2 H3. apply cbind_ext; auto. intros v.
    destruct (cond I v) as [[]|]; auto with req.
    destruct H3; auto with req.
  Qed.
  Lemma ifelse_ext : forall t (c c' y y' n n' : comp), ceq c c' -> ceq y y' -> ceq n n' ->
    ceq (ifelse I t c y n) (ifelse I t c' y' n').
  Proof.
    intros t c c' y y' n n' H1 H2 H3. apply cbind_ext; auto. intros v.
    destruct (t v) as [l|]; auto with req. intros s. cbn beta zeta.
    destruct (has true l); [rewrite H2; destruct (y' s) as [[w s1]|]; auto|];
      (destruct (has false l); [rewrite H3|]; auto).
  Qed.

  (** *** Argument lists *)
  Definition sarg (a : arg) : option text * option comp :=
    (fst a, match snd a with Some v => Some (eval v) | None => None end).
  Definition sparam (a : param) : text * option comp :=
    (fst a, match snd a with Some v => Some (eval v) | None => None end).

  Lemma named_arg_ext : forall n (a a' : list (option text * option comp)), argseq a a' ->
    match named_arg I n a, named_arg I n a' with
    | Some c, Some c' => oceq c c'
    | None, None => True
    | _, _ => False
    end.
  Proof.
    intros n a a' H. unfold named_arg. induction H as [|[m1 x] [m2 x'] l l' [H1 H2] H IH]; cbn [find].
    - exact Logic.I.
    - cbn [fst snd] in *. subst m2. destruct (match m1 with Some m => teqb m n | None => false end).
      + cbn. exact H2.
      + exact IH.
  Qed.
  Lemma unnamed_ext : forall (a a' : list (option text * option comp)), argseq a a' ->
    Forall2 oceq (unnamed_args I a) (unnamed_args I a').
  Proof.
    intros a a' H. unfold unnamed_args. induction H as [|[m1 x] [m2 x'] l l' [H1 H2] H IH]; cbn [filter map].
    - constructor.
    - cbn [fst snd] in *. subst m2. destruct m1; cbn [map]; auto.
  Qed.
  Lemma match_args_ext : forall fs (a a' : list (option text * option comp)) u u',
    argseq a a' -> Forall2 oceq u u' ->
    match match_args I fs a u, match_args I fs a' u' with
    | Some l, Some l' => Forall2 oceq l l'
    | None, None => True
    | _, _ => False
    end.
  Proof.
    induction fs as [|n fs IH]; intros a a' u u' Ha Hu; cbn [match_args].
    - destruct Hu; constructor.
    - pose proof (named_arg_ext n a a' Ha) as Hn.
      destruct (named_arg I n a) as [c|], (named_arg I n a') as [c'|]; try contradiction.
      + specialize (IH a a' u u' Ha Hu).
        destruct (match_args I fs a u), (match_args I fs a' u'); cbn; auto.
      + destruct Hu as [|x x' u u' Hx Hu]; auto.
        specialize (IH a a' u u' Ha Hu).
        destruct (match_args I fs a u), (match_args I fs a' u'); cbn; auto.
  Qed.
  Lemma argseq_length : forall {A S V} (l l' : list (A * option (S -> option (V * S)))),
    argseq l l' -> length l = length l'.
  Proof. intros A S V l l' H. induction H; cbn; congruence. Qed.
  Lemma match3_ext : forall x y z (a a' : list (option text * option comp)), argseq a a' ->
    match match3 I x y z a, match3 I x y z a' with
    | Some (c, d, e), Some (c', d', e') => ceq c c' /\ ceq d d' /\ ceq e e'
    | None, None => True
    | _, _ => False
    end.
  Proof.
    intros x y z a a' H. unfold match3.
    assert (L : length a = length a') by (exact (argseq_length _ _ H)). rewrite L.
    destruct (length a' =? 3); [|exact Logic.I].
    pose proof (match_args_ext [x; y; z] a a' _ _ H (unnamed_ext _ _ H)) as M.
    destruct (match_args I [x; y; z] a (unnamed_args I a)) as [l|],
             (match_args I [x; y; z] a' (unnamed_args I a')) as [l'|]; try contradiction; auto.
    destruct M as [|c c' l l' [|c1 c1' Hc] M]; auto.
    destruct M as [|d d' l l' [|d1 d1' Hd] M]; auto.
    destruct M as [|e e' l l' [|e1 e1' He] M]; auto.
    destruct M; auto.
  Qed.
  Lemma builtin3_ext : forall n (a a' : list (option text * option comp)), argseq a a' ->
    match builtin3 I n a, builtin3 I n a' with
    | Some c, Some c' => ceq c c'
    | None, None => True
    | _, _ => False
    end.
  Proof.
    intros n a a' H. unfold builtin3.
    destruct (teqb n (lit "ifelse")); [|destruct (teqb n (lit "fifelse")); [|destruct (teqb n (lit "if_else")); [|exact Logic.I]]];
    match goal with |- context [match3 I ?x ?y ?z a] =>
      pose proof (match3_ext x y z a a' H) as M;
      destruct (match3 I x y z a) as [[[c d] e]|], (match3 I x y z a') as [[[c' d'] e']|];
      try contradiction; cbn [option_map fst snd]; auto; destruct M as (M1 & M2 & M3);
      apply ifelse_ext; auto
    end.
  Qed.

  Lemma apply_ext : forall n (cf cf' : comp) a a', ceq cf cf' -> argseq a a' ->
    ceq (apply n cf a) (apply n cf' a').
  Proof.
    intros n cf cf' a a' H1 H2. unfold RSemantics.apply. destruct n as [n|]; [|apply i_call_ext; auto].
    assert (Hc : ceq (match builtin3 I n a with Some c => c | None => i_call I cf a end)
                     (match builtin3 I n a' with Some c => c | None => i_call I cf' a' end)).
    { pose proof (builtin3_ext n a a' H2) as B.
      destruct (builtin3 I n a), (builtin3 I n a'); try contradiction; auto.
      apply i_call_ext; auto. }
    destruct (builtin1 I n) as [g|]; [|exact Hc].
    inversion H2 as [E E'|[x1 x2] [y1 y2] l l' [K1 K2] K E E']; subst.
    - exact Hc.
    - cbn [fst snd] in *. subst y1.
      destruct x1 as [x1|]; [exact Hc|].
      destruct K2 as [|c c' Hcc]; [exact Hc|].
      destruct K; [|exact Hc].
      apply strict1_ext. auto.
  Qed.

  Lemma piped_ext : forall (c c' : comp) e, ceq c c' -> ceq (piped c e) (piped c' e).
  Proof.
    intros c c' e H. destruct e; cbn [RSemantics.piped]; auto with req.
    apply apply_ext; auto with req. constructor; [|apply argseq_refl]. split; [reflexivity|constructor; auto].
  Qed.

  Lemma sargs_mid : forall pre n e e' post, ceq (eval e) (eval e') ->
    argseq (map sarg (pre ++ (n, Some e) :: post)) (map sarg (pre ++ (n, Some e') :: post)).
  Proof.
    intros pre n e e' post H. rewrite !map_app. cbn [map]. apply argseq_app; auto with req.
    constructor; [|apply argseq_refl]. split; [reflexivity|]. constructor. exact H.
  Qed.
  Lemma sparams_mid : forall pre n e e' post, ceq (eval e) (eval e') ->
    argseq (map sparam (pre ++ (n, Some e) :: post)) (map sparam (pre ++ (n, Some e') :: post)).
  Proof.
    intros pre n e e' post H. rewrite !map_app. cbn [map]. apply argseq_app; auto with req.
    constructor; [|apply argseq_refl]. split; [reflexivity|]. constructor. exact H.
  Qed.

  Lemma braces_cons : forall x y l,
    eval (EBraces (x :: y :: l)) = cbind I (eval x) (fun _ => eval (EBraces (y :: l))).
  Proof. reflexivity. Qed.
  Lemma braces_mid : forall pre e e' post, ceq (eval e) (eval e') ->
    ceq (eval (EBraces (pre ++ e :: post))) (eval (EBraces (pre ++ e' :: post))).
  Proof.
    induction pre as [|x pre IH]; intros e e' post H; cbn [app].
    - destruct post as [|y post]; [exact H|]. rewrite !braces_cons. apply cbind_ext; auto with req.
    - destruct pre as [|y pre]; cbn [app] in *.
      + rewrite !braces_cons. apply cbind_ext; auto with req.
      + rewrite !braces_cons. apply cbind_ext; auto with req.
  Qed.

  (** *** Exchanging nodes *)
  Definition eqv (fs : list frame) (e e' : expr) : Prop :=
    ceq (eval e) (eval e') /\
    (assigned fs = true -> forall op v, ceq (assign op e v) (assign op e' v)) /\
    (callee fs = true -> fname e = fname e') /\
    (pipe_target fs = true -> forall c, ceq (piped c e) (piped c e')).

  Lemma eqv_fill : forall f fs e e', eqv (f :: fs) e e' -> eqv fs (fill f e) (fill f e').
  Proof.
    intros f fs e e' (He & Ha & Hc & Hp).
    assert (Hargs : forall pre n post,
      argseq (map sarg (pre ++ (n, Some e) :: post)) (map sarg (pre ++ (n, Some e') :: post)))
      by (intros; apply sargs_mid; exact He).
    destruct f as [ |u|o nl r|o nl l|args|f pre n post|d args|d f pre n post|o n|t el|c el|c t|pre n post b|ps|v b|v s|b|c| |pre post];
      cbn [fill].
    - (* paren *) split; [exact He|]. repeat split; intros; cbn; auto with req.
    - split; [cbn; apply un_sem_ext; exact He|]. repeat split; intros; cbn; auto with req.
    - split.
      + destruct o; try (match goal with |- ceq (RSemantics.eval _ (EBin ?o _ _ _)) _ =>
                apply (bin_sem_ext o); auto with req end).
        * cbn. apply cbind_ext; auto with req. intros v. apply cbind_ext; auto with req.
        * cbn. apply cbind_ext; auto with req. intros v. apply cbind_ext; auto with req.
        * cbn. apply cbind_ext; auto with req.
        * cbn. apply piped_ext. exact He.
      + repeat split; intros; cbn; auto with req.
    - split.
      + destruct o; try (match goal with |- ceq (RSemantics.eval _ (EBin ?o _ _ _)) _ =>
                apply (bin_sem_ext o); auto with req end).
        * cbn. apply cbind_ext; auto with req.
        * cbn. apply cbind_ext; auto with req.
        * cbn. apply cbind_ext; auto with req. intros v. apply cbind_ext; auto with req.
        * cbn. apply Hp. reflexivity.
      + repeat split; intros; cbn; auto with req.
    - specialize (Hc eq_refl). split.
      + cbn. rewrite Hc. apply apply_ext; auto with req.
      + repeat split; intros; cbn; auto with req.
        * destruct args as [|[[?|] [x|]] ?]; auto with req.
          apply cbind_ext; auto with req. apply i_set_call_ext; auto with req.
        * rewrite Hc. apply apply_ext; auto with req.
    - split.
      + cbn. apply apply_ext; auto with req; try apply Hargs.
      + repeat split; intros; cbn; auto with req.
        * destruct pre as [|[[?|] [x|]] pre]; cbn [app]; auto with req.
          -- destruct n; auto with req. apply cbind_ext.
             ++ apply i_set_call_ext; auto with req; try apply (Hargs [] None post).
             ++ intros w. apply Ha. exact H.
          -- apply cbind_ext; auto with req.
             apply i_set_call_ext; auto with req; try apply (Hargs ((None, Some x) :: pre) n post).
        * apply apply_ext; auto with req. constructor; [split; [reflexivity|constructor; apply ceq_refl]|].
          apply Hargs.
    - split.
      + cbn. apply i_sub_ext; auto with req.
      + repeat split; intros; cbn; auto with req.
        apply cbind_ext; [apply i_set_sub_ext; auto with req|]. intros w. apply Ha. exact H.
    - split.
      + cbn. apply i_sub_ext; auto with req; try apply Hargs.
      + repeat split; intros; cbn; auto with req.
        apply cbind_ext; auto with req. apply i_set_sub_ext; auto with req; try apply Hargs.
    - split.
      + cbn. apply i_ext_ext; auto with req.
      + repeat split; intros; cbn; auto with req.
        apply cbind_ext; [apply i_set_ext_ext; auto with req|]. intros w. apply Ha. exact H.
    - split; [cbn; apply if_sem_ext; auto with req|]. repeat split; intros; cbn; auto with req.
    - split; [cbn; apply if_sem_ext; auto with req|]. repeat split; intros; cbn; auto with req.
    - split; [cbn; apply if_sem_ext; auto with req; constructor; auto|]. repeat split; intros; cbn; auto with req.
    - split; [cbn; apply i_fun_ext; auto with req; apply sparams_mid; auto|]. repeat split; intros; cbn; auto with req.
    - split; [cbn; apply i_fun_ext; auto with req|]. repeat split; intros; cbn; auto with req.
    - split; [cbn; apply i_for_ext; auto with req|]. repeat split; intros; cbn; auto with req.
    - split; [cbn; apply i_for_ext; auto with req|]. repeat split; intros; cbn; auto with req.
    - split; [cbn; apply i_while_ext; auto with req|]. repeat split; intros; cbn; auto with req.
    - split; [cbn; apply i_while_ext; auto with req|]. repeat split; intros; cbn; auto with req.
    - split; [cbn; apply i_repeat_ext; auto with req|]. repeat split; intros; cbn; auto with req.
    - split; [apply braces_mid; auto|]. repeat split; intros; cbn; auto with req.
  Qed.

  Lemma eval_plug : forall fs e e', eqv fs e e' -> ceq (eval (plug fs e)) (eval (plug fs e')).
  Proof.
    induction fs as [|f fs IH]; intros e e' H; cbn [plug].
    - apply H.
    - apply IH. apply eqv_fill. exact H.
  Qed.

  Lemma run_file : forall p e e', eqv (frames p) e e' ->
    forall s, run I (file_with p e) s = run I (file_with p e') s.
  Proof.
    intros [b fs a] e e' H. unfold file_with. cbn [before frames after] in *.
    apply eval_plug in H.
    induction b as [|x b IH]; intros s; cbn [app run].
    - rewrite H. reflexivity.
    - destruct (eval x s) as [[v s']|]; auto. rewrite IH. reflexivity.
  Qed.
End Congruence.

(** The general result: an edit that puts the text of [e'] in place of the node
    [e] is harmless when [e'] fits there and computes the same. *)
Lemma harmless_edit : forall (P : interp -> Prop) p e e',
  reads (edited p (toks e)) (file_with p e) ->
  fits (frames p) e' ->
  (forall I, P I -> eqv I (frames p) e e') ->
  harmless P (edited p (toks e)) (edited p (toks e')).
Proof.
  intros P p e e' Hr Hf He. exists (file_with p e), (file_with p e').
  split; [exact Hr|]. split; [eapply reads_edited; eauto|].
  intros I HI s. apply run_file. auto.
Qed.
