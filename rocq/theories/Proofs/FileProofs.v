(** Whole files: what --fix does to the text of a file. *)
From Verif Require Import Spec.RFile Proofs.TextProofs Proofs.FixProofs Proofs.DriverProofs Proofs.RParse Proofs.RFuel.

(** ** Shortening fixes *)
Lemma breplace_blen : forall a b new t out, breplace a b new t = Some out ->
  blen out + (b - a) = blen t + blen new.
Proof.
  intros a b new t out H. apply breplace_iff in H. destruct H as (p & m & q & -> & H1 & H2 & ->).
  rewrite !blen_app in *. lia.
Qed.
(** Before the first real fix nothing is changed and nothing can be skipped; after it the text is shorter. *)
Definition short_inv (t : text) (st : fstate) : Prop :=
  (st = fix_init t) \/ blen (fs_content st) < blen t.
Lemma short_step : forall t st f st', shortening f -> short_inv t st ->
  fix_step (char_count t) st f = Some st' -> short_inv t st'.
Proof.
  intros t st f st' S I H.
  assert (E : forall d c, replace_range_i32 (Z.of_nat (f_start f) + d) (Z.of_nat (f_end f) + d) (f_content f) (fs_content st) = Some c ->
     (is_empty_fix f = true /\ c = fs_content st) \/ blen c < blen (fs_content st)).
  { intros d c R. unfold replace_range_i32 in R.
    destruct ((_ <? 0)%Z || (_ <? 0)%Z) eqn:N in R; [discriminate|]. apply Bool.orb_false_iff in N. destruct N as [N1 N2].
    apply Z.ltb_ge in N1, N2. destruct S as [S|S].
    - left. split; [exact S|]. unfold is_empty_fix in S. destruct (f_content f) eqn:Ef; [|discriminate].
      apply andb_prop in S. destruct S as [S1 S2]. apply Nat.eqb_eq in S1, S2. rewrite S1, S2 in R.
      refine (breplace_nil _ _ _ _ R). exact [].
    - right. apply breplace_blen in R. lia. }
  unfold fix_step in H. destruct I as [->|I].
  - cbn [fix_init fs_newlen fs_last fs_content fs_skipped] in *. rewrite Z.sub_diag in H.
    replace (Z.of_nat (f_start f) + 0 <? 0)%Z with false in H by (symmetry; apply Z.ltb_ge; lia).
    destruct (replace_range_i32 _ _ _ _) as [c|] eqn:R; [|discriminate]. injection H as <-.
    destruct (E _ _ R) as [[S1 ->]|L]; [left|right; exact L].
    unfold is_empty_fix in S1. destruct (f_content f); [|discriminate].
    apply andb_prop in S1. destruct S1 as [_ S2]. apply Nat.eqb_eq in S2. rewrite S2. reflexivity.
  - destruct (_ <? _)%Z; [injection H as <-; right; exact I|].
    destruct (replace_range_i32 _ _ _ _) as [c|] eqn:R; [|discriminate]. injection H as <-.
    right. cbn [fs_content]. destruct (E _ _ R) as [[_ ->]|L]; [exact I|lia].
Qed.
Lemma short_loop : forall fs t st st', Forall shortening fs -> short_inv t st ->
  fix_loop (char_count t) st fs = Some st' -> short_inv t st'.
Proof.
  induction fs as [|f fs IH]; intros t st st' F I H; cbn [fix_loop] in H; [injection H as <-; exact I|].
  inversion F; subst. destruct (fix_step (char_count t) st f) as [st1|] eqn:E; [|discriminate].
  apply (IH t st1 st' H3); [|exact H]. exact (short_step t st f st1 H2 I E).
Qed.
Lemma short_skipped : forall fs t out, Forall shortening fs ->
  apply_fixes fs t = Some (true, out) -> blen out < blen t.
Proof.
  intros fs t out F H. unfold apply_fixes in H.
  destruct (fix_loop _ _ _) as [st|] eqn:E; [|discriminate]. injection H as S <-.
  destruct (short_loop fs t (fix_init t) st F (or_introl eq_refl) E) as [->|L]; [discriminate S|exact L].
Qed.
Lemma short_terminates : forall lint writable p fs,
  (forall t ds, lint p t = Some ds -> Forall (fun d => shortening (d_fix d)) ds) ->
  exists n o fs', check_path lint writable n true p fs = (fs', Some o).
Proof.
  intros lint writable p fs H. apply (check_path_terminates lint writable blen).
  intros c c' (ds & L & A). apply (short_skipped (map d_fix ds)); [|exact A].
  apply Forall_map. exact (H c ds L).
Qed.
Lemma checked_readable : forall c o u t ds, get_checks c o u t = Some ds -> readable t.
Proof.
  intros c o u t ds H. unfold get_checks in H.
  destruct (pieces t); [|discriminate]. destruct (tokens t) as [pts|] eqn:T; [|discriminate].
  destruct (parse (map fst pts)) as [p|] eqn:P; [|discriminate].
  exists p, pts. split; [exact T|]. apply parse_reads, P.
Qed.
Lemma ok_readable : forall c o u n p fs fs' ds,
  jarl_check c o u n p fs = (fs', Some (Ok ds)) -> exists t, fs' p = Some t /\ readable t.
Proof.
  intros c o u n p fs fs' ds H. unfold jarl_check in H. apply fix_ok in H.
  destruct H as (_ & c0 & t & _ & F & L & _). exists t. split; [exact F|]. exact (checked_readable _ _ _ _ _ L).
Qed.
Lemma no_real_fixes : forall l, Forall (fun d => is_empty_fix (d_fix d) = true) l -> real_fixes (map d_fix l) = [].
Proof.
  unfold real_fixes. induction l as [|d l IH]; intros H; [reflexivity|]. inversion H; subst. cbn [map filter].
  rewrite H2. cbn [negb]. exact (IH H3).
Qed.
Lemma again_same : forall c o u n n' p fs fs' fs'' ds r,
  fixing_mode c = true -> jarl_check c o u n p fs = (fs', Some (Ok ds)) ->
  Forall (fun d => is_empty_fix (d_fix d) = true) ds ->
  jarl_check c o u n' p fs' = (fs'', r) -> forall q, fs'' q = fs' q.
Proof.
  intros c o u n n' p fs fs' fs'' ds r F H E J q. unfold jarl_check in *. rewrite F in *.
  apply fix_ok in H. destruct H as (_ & c0 & t & _ & Ht & L & _).
  destruct (check_path_nofix _ _ _ _ _ _ _ _ _ Ht L (no_real_fixes _ E) J) as [S _].
  first [exact (S q) | symmetry; exact (S q)].
Qed.
