(** Replacing a node of a file by another one. *)
From Verif Require Import Spec.RGrammar Spec.RWellFormed Spec.RPosition Spec.RSemantics.
From Verif Require Import Proofs.RParse Proofs.RParseSound.

(** ** The text of a file around a node *)
Lemma sep_app : forall s l x r,
  sep s (l ++ x :: r) = sep_before s l ++ x ++ sep_after s r.
Proof.
  intros s l x r. induction l as [|y l IH]; cbn [app].
  - unfold sep_before. cbn [map concat app]. unfold sep_after.
    revert x. induction r as [|z r IHr]; intros x.
    + cbn. rewrite app_nil_r. reflexivity.
    + rewrite sep_cons2, IHr. cbn [map concat]. rewrite <- !app_assoc. reflexivity.
  - assert (E : sep s (y :: l ++ x :: r) = y ++ s ++ sep s (l ++ x :: r)).
    { destruct l; reflexivity. }
    rewrite E, IH. unfold sep_before. cbn [map concat]. rewrite <- !app_assoc. reflexivity.
Qed.

Lemma fill_toks : forall f e, toks (fill f e) = frame_pre f ++ toks e ++ frame_post f.
Proof.
  assert (Ha : forall pre n e post,
    sep [TComma] (map arg_toks (pre ++ (n, Some e) :: post)) =
    sep_before [TComma] (map arg_toks pre) ++ name_toks n ++ toks e ++
    sep_after [TComma] (map arg_toks post)).
  { intros pre n e post. rewrite map_app. cbn [map]. rewrite sep_app.
    change (arg_toks (n, Some e)) with (name_toks n ++ toks e).
    rewrite <- app_assoc. reflexivity. }
  assert (Hp : forall pre n e post,
    sep [TComma] (map param_toks (pre ++ (n, Some e) :: post)) =
    sep_before [TComma] (map param_toks pre) ++ TAtom (AId n) :: TEq :: toks e ++
    sep_after [TComma] (map param_toks post)).
  { intros pre n e post. rewrite map_app. cbn [map]. rewrite sep_app. reflexivity. }
  intros f e.
  destruct f as [ |u|o nl r|o nl l|args|f pre n post|d args|d f pre n post|o n|t el|c el|c t|pre n post b|ps|v b|v s|b|c| |pre post];
    cbn [fill toks frame_pre frame_post app].
  6: { change (map _ (pre ++ (n, Some e) :: post)) with (map arg_toks (pre ++ (n, Some e) :: post)).
       rewrite Ha. repeat (rewrite <- app_assoc; cbn [app]). reflexivity. }
  7: { change (map _ (pre ++ (n, Some e) :: post)) with (map arg_toks (pre ++ (n, Some e) :: post)).
       rewrite Ha. repeat (rewrite <- app_assoc; cbn [app]). reflexivity. }
  11: { change (map _ (pre ++ (n, Some e) :: post)) with (map param_toks (pre ++ (n, Some e) :: post)).
       rewrite Hp. repeat (rewrite <- app_assoc; cbn [app]). reflexivity. }
  all: try (repeat (rewrite <- app_assoc; cbn [app]); repeat rewrite app_nil_r; reflexivity).
  rewrite map_app. cbn [map]. rewrite sep_app. repeat rewrite <- app_assoc. reflexivity.
Qed.

Lemma plug_toks : forall fs e, toks (plug fs e) = pre_toks fs ++ toks e ++ post_toks fs.
Proof.
  induction fs as [|f fs IH]; intros e; cbn [plug pre_toks post_toks].
  - rewrite app_nil_r. reflexivity.
  - rewrite IH, fill_toks. repeat rewrite <- app_assoc. reflexivity.
Qed.

Lemma edited_toks : forall p e, edited p (toks e) = prog_toks (file_with p e).
Proof.
  intros [b fs a] e. unfold edited, prog_toks, file_with. cbn [before frames after].
  rewrite map_app. cbn [map]. rewrite sep_app, plug_toks.
  repeat rewrite <- app_assoc. reflexivity.
Qed.

(** ** Fitting in *)
Definition lneed (o : option lop) : nat :=
  match o with None => 0 | Some (LBin o) => rbp o | Some (LUn u) => ubp u | Some LArg => arg_level end.
Definition rfits (o : option rop) (e : expr) : Prop :=
  match o with
  | None => True
  | Some (ROp o) => lbp o < rmin e /\ is_cmp o && cmp_top e = false
  | Some RPost => 20 < rmin e
  | Some RElse => opens e = false
  end.
Definition fits (fs : list frame) (e : expr) : Prop :=
  wf (enclosed fs) e /\ lneed (left_op fs) <= lmin e /\ rfits (right_op fs) e.

Lemma Forall_mid : forall {A} (P : A -> Prop) l x r,
  Forall P (l ++ x :: r) <-> Forall P l /\ P x /\ Forall P r.
Proof.
  intros A P l x r. rewrite Forall_app. split.
  - intros [H1 H2]. inversion H2; auto.
  - intros (H1 & H2 & H3). auto.
Qed.

Lemma cmp_lmin : forall e, cmp_top e = true -> lmin e <= 12.
Proof.
  destruct e as [| | |o nl l r| | | | | | | | |]; cbn; try discriminate.
  destruct o; cbn [is_cmp lbp]; try discriminate. intros _. apply Nat.le_min_l.
Qed.
Lemma not_cmp : forall o e, 12 < lmin e -> is_cmp o && cmp_top e = false.
Proof.
  intros o e H. destruct (cmp_top e) eqn:E; [|apply Bool.andb_false_r].
  apply cmp_lmin in E. lia.
Qed.
Lemma cmp_lbp : forall o, is_cmp o = true -> lbp o = 12.
Proof. destruct o; cbn; congruence. Qed.

(** A part of a well-formed tree fits where it is. *)
Lemma plug_fits : forall fs e, wf false (plug fs e) -> fits fs e.
Proof.
  induction fs as [|f fs IH]; intros e H; cbn [plug] in H.
  - split; [exact H|]. split; [cbn; lia|exact I].
  - apply IH in H. destruct H as (Hw & Hl & Hr).
    assert (Hbelow : forall k, rmin (fill f e) <= k -> 
       match right_op fs with Some (ROp o) => lbp o < k | Some RPost => 20 < k | _ => True end).
    { intros k Hk. destruct (right_op fs) as [[o| |]|]; cbn [rfits] in Hr; try exact I; [destruct Hr|]; lia. }
    destruct f; cbn [fill wf] in Hw; unfold fits; cbn [left_op right_op enclosed].
    + split; [exact Hw|]. split; [cbn; lia|exact I].
    + destruct Hw as [Hw Hu]. split; [exact Hw|]. split; [exact Hu|].
      pose proof (Hbelow (rmin e)) as B1. pose proof (Hbelow (ubp u)) as B2. cbn [fill rmin] in *.
      destruct (right_op fs) as [[o| |]|]; cbn [rfits] in *; try exact I; auto.
      * split; [apply B1; lia|]. destruct (is_cmp o) eqn:Ec; [|reflexivity].
        apply (not_cmp (BCmp CLt)). specialize (B2 ltac:(lia)). rewrite cmp_lbp in B2 by auto. lia.
      * apply B1; lia.
    + destruct Hw as (Hwl & Hwr & Hl1 & Hr1 & Hc & Hnl). split; [exact Hwl|].
      split; [cbn [fill lmin] in Hl; lia|]. cbn [rfits]. auto.
    + destruct Hw as (Hwl & Hwr & Hl1 & Hr1 & Hc & Hnl). split; [exact Hwr|].
      split; [exact Hr1|].
      pose proof (Hbelow (rmin e)) as B1. pose proof (Hbelow (rbp o)) as B2. cbn [fill rmin] in *.
      destruct (right_op fs) as [[o'| |]|]; cbn [rfits] in *; try exact I; auto.
      * split; [apply B1; lia|]. destruct (is_cmp o') eqn:Ec; [|reflexivity].
        apply (not_cmp (BCmp CLt)). specialize (B2 ltac:(lia)). rewrite cmp_lbp in B2 by auto. lia.
      * apply B1; lia.
    + destruct Hw as (Hw & Hp & _). split; [exact Hw|]. rewrite primary_lmin by auto.
      split; [cbn [fill lmin] in Hl; exact Hl|]. cbn [rfits]. rewrite primary_rmin by auto. lia.
    + destruct Hw as (_ & _ & _ & Hw). apply wf_args_Forall in Hw. apply Forall_mid in Hw.
      split; [apply Hw|]. split; [apply Hw|exact I].
    + destruct Hw as (Hw & Hp & _). split; [exact Hw|]. rewrite primary_lmin by auto.
      split; [cbn [fill lmin] in Hl; exact Hl|]. cbn [rfits]. rewrite primary_rmin by auto. lia.
    + destruct Hw as (_ & _ & _ & Hw). apply wf_args_Forall in Hw. apply Forall_mid in Hw.
      split; [apply Hw|]. split; [apply Hw|exact I].
    + destruct Hw as (Hw & Hp). split; [exact Hw|]. rewrite primary_lmin by auto.
      split; [cbn [fill lmin] in Hl; exact Hl|]. cbn [rfits]. rewrite primary_rmin by auto. lia.
    + split; [apply Hw|]. split; [apply Hw|exact I].
    + destruct Hw as (_ & Hw & Hel). split; [exact Hw|]. split; [cbn; lia|].
      destruct el as [d|]; [apply Hel|].
      pose proof (Hbelow 0 (le_n 0)) as B. cbn [fill rmin opens] in *.
      destruct (right_op fs) as [[o'| |]|]; cbn [rfits] in *; try exact I; try lia. discriminate.
    + destruct Hw as (_ & _ & _ & Hw). split; [exact Hw|]. split; [cbn; lia|].
      pose proof (Hbelow 0 (le_n 0)) as B. cbn [fill rmin opens] in *.
      destruct (right_op fs) as [[o'| |]|]; cbn [rfits] in *; try exact I; try lia. exact Hr.
    + destruct Hw as (Hw & _). apply wf_params_Forall in Hw. apply Forall_mid in Hw.
      split; [apply Hw|]. split; [apply Hw|exact I].
    + destruct Hw as (_ & Hw). split; [exact Hw|]. split; [cbn; lia|].
      pose proof (Hbelow 0 (le_n 0)) as B. cbn [fill rmin opens] in *.
      destruct (right_op fs) as [[o'| |]|]; cbn [rfits] in *; try exact I; try lia. exact Hr.
    + split; [apply Hw|]. split; [apply Hw|exact I].
    + destruct Hw as (_ & Hw). split; [exact Hw|]. split; [cbn; lia|].
      pose proof (Hbelow 0 (le_n 0)) as B. cbn [fill rmin opens] in *.
      destruct (right_op fs) as [[o'| |]|]; cbn [rfits] in *; try exact I; try lia. exact Hr.
    + split; [apply Hw|]. split; [apply Hw|exact I].
    + destruct Hw as (_ & Hw). split; [exact Hw|]. split; [cbn; lia|].
      pose proof (Hbelow 0 (le_n 0)) as B. cbn [fill rmin opens] in *.
      destruct (right_op fs) as [[o'| |]|]; cbn [rfits] in *; try exact I; try lia. exact Hr.
    + split; [exact Hw|]. split; [cbn; lia|].
      pose proof (Hbelow 0 (le_n 0)) as B. cbn [fill rmin opens] in *.
      destruct (right_op fs) as [[o'| |]|]; cbn [rfits] in *; try exact I; try lia. exact Hr.
    + apply wf_seq_Forall in Hw. apply Forall_mid in Hw.
      split; [apply Hw|]. split; [cbn; lia|exact I].
Qed.

Lemma args_not_hole : forall (pre post : list arg) n (e e' : expr),
  pre ++ (n, Some e) :: post <> [(None, None)] ->
  pre ++ (n, Some e') :: post <> [(None, None)].
Proof.
  intros pre post n e e' H E. destruct pre as [|a [|b pre]]; cbn in E; discriminate.
Qed.

(** Something that fits there makes a well-formed tree. *)
Lemma fits_plug : forall fs e e', wf false (plug fs e) -> fits fs e' -> wf false (plug fs e').
Proof.
  induction fs as [|f fs IH]; intros e e' H Hf; cbn [plug] in *.
  - apply Hf.
  - apply IH with (e := fill f e); [exact H|].
    pose proof (plug_fits fs (fill f e) H) as (Hw & Hl & Hr).
    destruct Hf as (Fw & Fl & Fr).
    unfold fits.
    destruct f; cbn [left_op right_op enclosed] in Fw, Fl, Fr; cbn [fill wf] in Hw |- *.
    + split; [exact Fw|]. split; [exact Hl|].
      destruct (right_op fs) as [[o| |]|]; exact Hr.
    + split; [split; [exact Fw|exact Fl]|]. split; [exact Hl|].
      destruct (right_op fs) as [[o| |]|]; cbn [rfits fill rmin opens] in *; auto.
      * destruct Fr as [Fr1 Fr2]. destruct Hr as [Hr1 Hr2]. split; [lia|]. apply Bool.andb_false_r.
      * lia.
    + cbn [rfits] in Fr. destruct Fr as [Fr1 Fr2].
      destruct Hw as (Hwl & Hwr & Hl1 & Hr1 & Hc & Hnl).
      split; [repeat split; auto|]. split; [cbn [fill lmin] in *; lia|].
      destruct (right_op fs) as [[o'| |]|]; exact Hr.
    + destruct Hw as (Hwl & Hwr & Hl1 & Hr1 & Hc & Hnl).
      split; [repeat split; auto|]. split; [exact Hl|].
      destruct (right_op fs) as [[o'| |]|]; cbn [rfits fill rmin opens] in *; auto.
      * destruct Fr as [Fr1 Fr2]. destruct Hr as [Hra Hrb]. split; [lia|exact Hrb].
      * lia.
    + cbn [rfits] in Fr. apply rmin_primary in Fr. destruct Hw as (Hw & Hp & Hw').
      split; [auto|]. split; [exact Hl|]. destruct (right_op fs) as [[o'| |]|]; exact Hr.
    + destruct Hw as (Hw & Hp & Hh & Hw'). apply wf_args_Forall in Hw'. apply Forall_mid in Hw'.
      split.
      * split; [exact Hw|]. split; [exact Hp|]. split; [eapply args_not_hole; exact Hh|].
        apply wf_args_Forall. apply Forall_mid. split; [apply Hw'|]. split; [split; [exact Fw|exact Fl]|apply Hw'].
      * split; [exact Hl|]. destruct (right_op fs) as [[o'| |]|]; exact Hr.
    + cbn [rfits] in Fr. apply rmin_primary in Fr. destruct Hw as (Hw & Hp & Hw').
      split; [auto|]. split; [exact Hl|]. destruct (right_op fs) as [[o'| |]|]; exact Hr.
    + destruct Hw as (Hw & Hp & Hh & Hw'). apply wf_args_Forall in Hw'. apply Forall_mid in Hw'.
      split.
      * split; [exact Hw|]. split; [exact Hp|]. split; [eapply args_not_hole; exact Hh|].
        apply wf_args_Forall. apply Forall_mid. split; [apply Hw'|]. split; [split; [exact Fw|exact Fl]|apply Hw'].
      * split; [exact Hl|]. destruct (right_op fs) as [[o'| |]|]; exact Hr.
    + cbn [rfits] in Fr. apply rmin_primary in Fr. destruct Hw as (Hw & Hp).
      split; [auto|]. split; [exact Hl|]. destruct (right_op fs) as [[o'| |]|]; exact Hr.
    + destruct Hw as (Hw1 & Hw2). split; [split; [split; [exact Fw|exact Fl]|exact Hw2]|].
      split; [exact Hl|]. destruct (right_op fs) as [[o'| |]|]; exact Hr.
    + destruct Hw as (Hw1 & Hw2 & Hw3). split.
      * split; [exact Hw1|]. split; [exact Fw|]. destruct el as [d|]; [|exact I].
        split; [exact Fr|apply Hw3].
      * split; [exact Hl|].
        destruct el as [d|]; destruct (right_op fs) as [[o'| |]|]; cbn [rfits fill rmin opens] in *;
          auto.
    + destruct Hw as (Hw1 & Hw2 & Hw3 & Hw4). split; [auto|]. split; [exact Hl|].
      destruct (right_op fs) as [[o'| |]|]; cbn [rfits fill rmin opens] in *; auto.
    + destruct Hw as (Hw' & Hb). apply wf_params_Forall in Hw'. apply Forall_mid in Hw'.
      split.
      * split; [|exact Hb]. apply wf_params_Forall. apply Forall_mid. split; [apply Hw'|]. split; [split; [exact Fw|exact Fl]|apply Hw'].
      * split; [exact Hl|]. destruct (right_op fs) as [[o'| |]|]; exact Hr.
    + destruct Hw as (Hw1 & Hw2). split; [auto|]. split; [exact Hl|].
      destruct (right_op fs) as [[o'| |]|]; cbn [rfits fill rmin opens] in *; auto.
    + destruct Hw as (Hw1 & Hw2). split; [auto|]. split; [exact Hl|].
      destruct (right_op fs) as [[o'| |]|]; cbn [rfits fill rmin opens] in *; auto.
    + destruct Hw as (Hw1 & Hw2). split; [auto|]. split; [exact Hl|].
      destruct (right_op fs) as [[o'| |]|]; cbn [rfits fill rmin opens] in *; auto.
    + destruct Hw as (Hw1 & Hw2). split; [auto|]. split; [exact Hl|].
      destruct (right_op fs) as [[o'| |]|]; cbn [rfits fill rmin opens] in *; auto.
    + destruct Hw as (Hw1 & Hw2). split; [auto|]. split; [exact Hl|].
      destruct (right_op fs) as [[o'| |]|]; cbn [rfits fill rmin opens] in *; auto.
    + split; [auto|]. split; [exact Hl|].
      destruct (right_op fs) as [[o'| |]|]; cbn [rfits fill rmin opens] in *; auto.
    + apply wf_seq_Forall in Hw. apply Forall_mid in Hw.
      split; [apply wf_seq_Forall; apply Forall_mid; repeat split; try apply Hw; exact Fw|].
      split; [exact Hl|]. destruct (right_op fs) as [[o'| |]|]; exact Hr.
Qed.

(** ** Reading an edited file *)
Lemma reads_file : forall p e, reads (edited p (toks e)) (file_with p e) <->
  Forall (wf false) (before p) /\ wf false (plug (frames p) e) /\ Forall (wf false) (after p).
Proof.
  intros p e. rewrite edited_toks, reads_iff. unfold file_with. rewrite Forall_mid.
  split; [intros [_ H]; exact H|auto].
Qed.

Lemma reads_fits : forall p e, reads (edited p (toks e)) (file_with p e) -> fits (frames p) e.
Proof. intros p e H. apply reads_file in H. apply plug_fits, H. Qed.

Lemma reads_edited : forall p e e',
  reads (edited p (toks e)) (file_with p e) -> fits (frames p) e' ->
  reads (edited p (toks e')) (file_with p e').
Proof.
  intros p e e' H Hf. apply reads_file in H. destruct H as (H1 & H2 & H3).
  apply reads_file. repeat split; auto. eapply fits_plug; eauto.
Qed.
