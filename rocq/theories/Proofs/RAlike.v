(** Surroundings that look the same: what fits in the one fits in the other. *)
From Verif Require Import Spec.RGrammar Spec.RWellFormed Spec.RPosition Spec.RSemantics Spec.RFix Spec.RAlike.
From Verif Require Import Proofs.TextProofs Proofs.RParse Proofs.RContext Proofs.RCongruence.

Lemma bare_left : forall fs, left_op (map bare_frame fs) = left_op fs.
Proof. induction fs as [|f fs IH]; [reflexivity|]. destruct f; cbn [map bare_frame left_op]; auto. Qed.
Lemma bare_right : forall fs, right_op (map bare_frame fs) = right_op fs.
Proof. induction fs as [|f fs IH]; [reflexivity|]. destruct f; cbn [map bare_frame right_op]; auto. destruct el; cbn [option_map]; auto. Qed.
Lemma bare_enclosed : forall fs, enclosed (map bare_frame fs) = enclosed fs.
Proof. induction fs as [|f fs IH]; [reflexivity|]. destruct f; cbn [map bare_frame enclosed]; auto. Qed.
Lemma bare_assigned : forall fs, assigned (map bare_frame fs) = assigned fs.
Proof.
  induction fs as [|f fs IH]; [reflexivity|]. destruct f; cbn [map bare_frame assigned]; auto.
  all: try (destruct o; solve [auto]); destruct pre as [|a pre]; cbn [map]; auto; destruct n; auto.
Qed.
Lemma bare_callee : forall fs, callee (map bare_frame fs) = callee fs.
Proof. intros [|f fs]; [reflexivity|]. destruct f; reflexivity. Qed.
Lemma bare_target : forall fs, pipe_target (map bare_frame fs) = pipe_target fs.
Proof. intros [|f fs]; [reflexivity|]. destruct f; reflexivity. Qed.
Lemma alike_fits : forall fs gs e, alike fs gs -> fits fs e -> fits gs e.
Proof.
  intros fs gs e A. unfold fits. rewrite <- (bare_left fs), <- (bare_left gs), <- (bare_right fs), <- (bare_right gs), <- (bare_enclosed fs), <- (bare_enclosed gs).
  rewrite A. auto.
Qed.
Lemma alike_eqv : forall I fs gs e e', alike fs gs -> eqv I fs e e' -> eqv I gs e e'.
Proof.
  intros I fs gs e e' A. unfold eqv.
  rewrite <- (bare_assigned fs), <- (bare_assigned gs), <- (bare_callee fs), <- (bare_callee gs), <- (bare_target fs), <- (bare_target gs), A. auto.
Qed.
Lemma fits_replaceable : forall (P : interp -> Prop) fs e e', fits fs e' -> (forall I, P I -> eqv I fs e e') -> replaceable P fs e e'.
Proof.
  intros P fs e e' F Q p A N. pose proof (alike_fits fs (frames p) e' (eq_sym A) F) as F'. split; [exact (reads_edited p e e' N F')|].
  intros I HI s. apply run_file. apply (alike_eqv I fs); [exact (eq_sym A)|]. auto.
Qed.

(** A fix that is harmless here, and may be made wherever the surroundings look the same. *)
Definition fix_both (P : interp -> Prop) (p : place) (e : expr) (r : report) : Prop :=
  forall c, new_text r = Some c ->
    harmless P (edited p (toks e)) (edited (fix_place p r) c) /\ exists e', c = toks e' /\ replaceable P (at_frames r) (at_node r) e'.
Lemma both_harmless : forall P p e r, fix_both P p e r -> fix_harmless P p e r.
Proof. intros P p e r H c Hc. apply (H c Hc). Qed.
Lemma both_replaceable : forall P p e r, fix_both P p e r -> fix_replaceable P r.
Proof. intros P p e r H c Hc. apply (H c Hc). Qed.
