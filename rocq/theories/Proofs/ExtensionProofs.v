(** Extensions of paths. *)
From Verif Require Import Model.Text Model.Fix Model.Driver Spec.DriverSpec Proofs.TextProofs.

Lemma after_last_none (x : char) (t acc : text) : ~ In x t -> after_last x t acc = rev acc ++ t.
Proof.
  revert acc. induction t as [|c t IH]; intros acc H; cbn [after_last]; [now rewrite app_nil_r|].
  destruct (N.eqb_spec c x) as [->|_]; [exfalso; apply H; now left|].
  rewrite IH by (intros ?; apply H; now right). cbn [rev]. now rewrite <- app_assoc.
Qed.
Lemma after_last_split (x : char) (a b acc : text) : ~ In x b -> after_last x (a ++ x :: b) acc = b.
Proof.
  revert acc. induction a as [|c a IH]; intros acc H; cbn [app after_last].
  - rewrite N.eqb_refl, after_last_none; auto.
  - destruct (N.eqb c x); now apply IH.
Qed.
Lemma last_split (x : char) (t : text) : In x t -> exists a b, t = a ++ x :: b /\ ~ In x b.
Proof.
  induction t as [|c t IH]; intros H; [contradiction|].
  destruct (in_dec N.eq_dec x t) as [Hi|Hn].
  - destruct (IH Hi) as (a & b & -> & Hb). now exists (c :: a), b.
  - destruct H as [->|H]; [|contradiction]. now exists [], t.
Qed.
Lemma existsb_eqb (x : char) (t : text) : existsb (N.eqb x) t = true <-> In x t.
Proof.
  rewrite existsb_exists. split; [intros (y & Hy & E); apply N.eqb_eq in E; now subst|].
  intros H. exists x. split; auto. apply N.eqb_refl.
Qed.

Lemma file_name_split p : exists dir, p = dir ++ file_name p /\ (dir = [] \/ exists d, dir = d ++ lit "/") /\ ~ In 47%N (file_name p).
Proof.
  unfold file_name. destruct (in_dec N.eq_dec 47%N p) as [Hi|Hn].
  - destruct (last_split _ _ Hi) as (a & b & -> & Hb). rewrite after_last_split by auto.
    exists (a ++ lit "/"). split; [now rewrite <- app_assoc|]. split; eauto.
  - rewrite after_last_none by auto. exists []. auto.
Qed.
Lemma file_name_app dir f : dir = [] \/ (exists d, dir = d ++ lit "/") -> ~ In 47%N f -> file_name (dir ++ f) = f.
Proof.
  intros [->|(d & ->)] H; unfold file_name.
  - cbn [app]. now rewrite after_last_none.
  - rewrite <- app_assoc. now apply (after_last_split 47%N d f []).
Qed.

Lemma extension_iff p e : ~ In 46%N e -> ~ In 47%N e -> extension p = Some e <-> named_with e p.
Proof.
  intros Hd Hs. split.
  - intros H. destruct (file_name_split p) as (dir & E & HD & HN). unfold extension in H.
    destruct (file_name p) as [|c r] eqn:F; [discriminate|].
    destruct (existsb (N.eqb 46) r) eqn:X; [|discriminate]. apply existsb_eqb in X.
    destruct (last_split _ _ X) as (a & b & -> & Hb). rewrite after_last_split in H by auto. injection H as ->.
    exists dir, (c :: a). repeat split; auto; [discriminate|].
    intros Hi. apply HN. rewrite app_comm_cons, in_app_iff. now left.
  - intros (dir & stem & -> & HD & Hn & H47).
    destruct stem as [|c s]; [contradiction|]. unfold extension.
    rewrite file_name_app; auto.
    + cbn [app]. change (s ++ lit "." ++ e) with (s ++ 46%N :: e).
      replace (existsb (N.eqb 46) (s ++ 46%N :: e)) with true.
      * now rewrite after_last_split.
      * symmetry. apply existsb_eqb, in_app_iff. right. now left.
    + rewrite !in_app_iff. intros [H|[H|H]]; auto. destruct H as [H|[]]. discriminate.
Qed.

Ltac ext_lit := let H := fresh in cbn; intros H; repeat (destruct H as [H|H]; [discriminate|]); exact H.

Lemma has_rmd_iff p : has_rmd_extension p = true <-> document_path p.
Proof.
  unfold has_rmd_extension, document_path.
  rewrite <- !extension_iff by ext_lit.
  destruct (extension p) as [e|]; [|intuition discriminate].
  unfold is_rmd_extension. rewrite !Bool.orb_true_iff, !teqb_eq. 
  split; [intros [[[ -> | -> ]| -> ]| -> ]; auto|].
  intros [H|[H|[H|H]]]; injection H as ->; auto.
Qed.
Lemma has_r_iff p : has_r_extension p = true <-> script_path p.
Proof.
  unfold has_r_extension, script_path. rewrite <- !extension_iff by ext_lit.
  destruct (extension p) as [e|]; [|intuition discriminate].
  rewrite Bool.orb_true_iff, !teqb_eq. split; [intros [ -> | -> ]; auto|].
  intros [H|H]; injection H as ->; auto.
Qed.
