(** Concrete inputs used in refutations and non-vacuity examples for [apply_fixes]. *)
From Verif Require Import Model.Text Model.Fix Spec.FixSpec Proofs.TextProofs Proofs.FixProofs.

(** [NA != .5]: the diagnostics of [equals_na] (whole expression) then [numeric_leading_zero]
    (inner value), in the order in which [check_expression] reports them
    (crates/jarl-core/src/analyze/expression.rs:27-32). *)
Definition w1_text : text := lit "NA != .5".
Definition w1_fixes : list rfix :=
  [ mk_fix (lit "!is.na(.5)") 0 8 false; mk_fix (lit "0.5") 6 8 false ].

(** Three [any(is.na(..))] (each shrinks by 5), the last one with a [.5] inside. *)
Definition w2_line (x : String.string) : text := (lit "any(is.na(" ++ lit x ++ lit "))").
Arguments w2_line x%string_scope.
Definition w2_sep : text := ([nl] ++ lit "x <- 1" ++ [nl]).
Definition w2_text : text := (w2_line "x" ++ w2_sep ++ w2_line "x" ++ w2_sep ++ w2_line ".5").
Definition w2_fixes : list rfix :=
  [ mk_fix (lit "anyNA(x)") 0 13 false; mk_fix (lit "anyNA(x)") 21 34 false;
    mk_fix (lit "anyNA(.5)") 42 56 false; mk_fix (lit "0.5") 52 54 false ].

(** [if (is.null(é)) 1 else é], then [any(is.na(z))]: the [coalesce] fix keeps one of the
    two occurrences of the non-ASCII name. *)
Definition eacute : char := 233%N.
Definition w3_sep : text := ([nl] ++ lit "some_variable <- 10L" ++ [nl]).
Definition w3_text : text :=
  (lit "if (is.null(" ++ [eacute] ++ lit ")) 1 else " ++ [eacute] ++ w3_sep ++ lit "any(is.na(z))").
Definition w3_fixes : list rfix :=
  [ mk_fix (eacute :: lit " %||% 1") 0 26 false; mk_fix (lit "anyNA(z)") 48 61 false ].
Definition w3_text' : text := (w3_text ++ [nl]).

Lemma in_text_dec t f (old : text) : bslice (f_start f) (f_end f) t = Some old -> in_text t f.
Proof. intros H; exists old; exact H. Qed.

Ltac solve_in_text :=
  repeat (constructor; [eexists; vm_compute; reflexivity|]); constructor.

Lemma w1_in_text : Forall (in_text w1_text) w1_fixes.
Proof. unfold w1_fixes. solve_in_text. Qed.
Lemma w2_in_text : Forall (in_text w2_text) w2_fixes.
Proof. unfold w2_fixes. solve_in_text. Qed.
Lemma w3_in_text : Forall (in_text w3_text) w3_fixes.
Proof. unfold w3_fixes. solve_in_text. Qed.
Lemma w3_in_text' : Forall (in_text w3_text') w3_fixes.
Proof. unfold w3_fixes. solve_in_text. Qed.

Lemma w1_run : apply_fixes w1_fixes w1_text = Some (false, lit "!is.na(.0.5").
Proof. vm_compute. reflexivity. Qed.
Lemma w2_run : apply_fixes w2_fixes w2_text =
  Some (false, (lit "anyNA(x)" ++ w2_sep ++ lit "anyNA(x)" ++ w2_sep ++ lit "anyNA0.55)")%list).
Proof. vm_compute. reflexivity. Qed.
Lemma w3_run : apply_fixes w3_fixes w3_text = None.
Proof. vm_compute. reflexivity. Qed.
Lemma w3_run' : apply_fixes w3_fixes w3_text' =
  Some (false, (eacute :: lit " %||% 1" ++ w3_sep ++ lit "aanyNA(z)")%list).
Proof. vm_compute. reflexivity. Qed.

Lemma ordered_disjoint_cons f fs :
  Forall (before f) fs -> ordered_disjoint fs -> ordered_disjoint (f :: fs).
Proof. intros; constructor; auto. Qed.
Ltac solve_ordered :=
  repeat (apply ordered_disjoint_cons;
          [repeat (constructor; [unfold before; cbn; lia|]); constructor|]); constructor.

Lemma w3_ordered : ordered_disjoint w3_fixes.
Proof. unfold w3_fixes. solve_ordered. Qed.

(** A disjoint ASCII example in which a fix is skipped although nothing overlaps
    (the second one grows, so the guard overshoots), with fix-less diagnostics around. *)
Definition ex_text : text := lit "x == NA; .5; any(is.na(y)); .1".
Definition ex_fixes : list rfix :=
  [ empty_fix; mk_fix (lit "is.na(x)") 0 7 false; mk_fix (lit "0.5") 9 11 false; empty_fix;
    mk_fix (lit "anyNA(y)") 13 26 false; mk_fix (lit "0.1") 28 30 false ].
Lemma ex_run : exists out, apply_fixes ex_fixes ex_text = Some (true, out).
Proof. eexists. vm_compute. reflexivity. Qed.

(** Refuted statements. *)
Lemma splice_refuted :
  exists fs t sk out,
    Forall (in_text t) fs /\ ascii_text t = true /\ Forall (fun f => ascii_text (f_content f) = true) fs /\
    apply_fixes fs t = Some (sk, out) /\
    ~ exists applied, Sublist applied fs /\ Splice 0 applied t out.
Proof.
  exists w2_fixes, w2_text. eexists _, _. split; [exact w2_in_text|].
  split; [vm_compute; reflexivity|]. split; [repeat constructor|].
  split; [exact w2_run|]. apply unexplained_spec. vm_compute. reflexivity.
Qed.

Lemma splice_nonascii_refuted :
  exists fs t sk out,
    Forall (in_text t) fs /\ ordered_disjoint fs /\
    apply_fixes fs t = Some (sk, out) /\
    ~ exists applied, Sublist applied fs /\ Splice 0 applied t out.
Proof.
  exists w3_fixes, w3_text'. eexists _, _. split; [exact w3_in_text'|].
  split; [exact w3_ordered|]. split; [exact w3_run'|].
  apply unexplained_spec. vm_compute. reflexivity.
Qed.

Lemma panic_refuted :
  exists fs t, Forall (in_text t) fs /\ ordered_disjoint fs /\ apply_fixes fs t = None.
Proof. exists w3_fixes, w3_text. split; [exact w3_in_text|]. split; [exact w3_ordered|exact w3_run]. Qed.

(** Overlap: both fixes leave their mark.  The output is what one gets by replacing, in the text
    rewritten by the first fix, a range that lies inside the text inserted by that fix. *)
Lemma overlap_refuted :
  exists f g t sk out,
    overlapping f g /\ in_text t f /\ in_text t g /\
    apply_fixes [f; g] t = Some (sk, out) /\
    out <> t /\ (forall o, Splice 0 [f] t o -> o <> out) /\ (forall o, Splice 0 [g] t o -> o <> out).
Proof.
  exists (mk_fix (lit "!is.na(.5)") 0 8 false), (mk_fix (lit "0.5") 6 8 false), w1_text.
  eexists _, _. split; [unfold overlapping; cbn; lia|].
  split; [eexists; vm_compute; reflexivity|]. split; [eexists; vm_compute; reflexivity|].
  split; [exact w1_run|]. split; [intros H; vm_compute in H; discriminate|].
  split; intros o H; apply Splice_fn in H; vm_compute in H; injection H as <-; intros H; vm_compute in H; discriminate.
Qed.

(** First fix that does not lengthen the text: every later fix that starts inside it is skipped. *)
Lemma first_wins f fs t old :
  bslice (f_start f) (f_end f) t = Some old ->
  length (f_content f) <= length old ->
  Forall (fun g => f_start g < f_end f) fs ->
  exists out, apply_fixes (f :: fs) t = Some (match fs with nil => false | _ => true end, out)
              /\ Splice 0 [f] t out.
Proof.
  intros Hold Hlen Hfs.
  apply bslice_iff in Hold as (p & q & -> & Hp & Hm). rewrite blen_app in Hm.
  exists (p ++ f_content f ++ q). split.
  2: { constructor; [cbn; lia|cbn; lia|constructor]. }
  unfold apply_fixes, fix_init. cbn [fix_loop]. unfold fix_step at 1.
  set (T := (p ++ old ++ q)%list). cbn [fs_newlen fs_last fs_content fs_skipped].
  rewrite Z.sub_diag, !Z.add_0_r.
  destruct (Z.of_nat (f_start f) <? 0)%Z eqn:E; [apply Z.ltb_lt in E; lia|].
  unfold replace_range_i32.
  destruct ((_ <? 0)%Z || (_ <? 0)%Z)%bool eqn:Hneg.
  { exfalso. apply orb_true_iff in Hneg as [Hn|Hn]; apply Z.ltb_lt in Hn; lia. }
  assert (HB : breplace (Z.to_nat (Z.of_nat (f_start f))) (Z.to_nat (Z.of_nat (f_end f)))
                 (f_content f) T = Some (p ++ f_content f ++ q)%list).
  { apply breplace_iff. exists p, old, q. rewrite !Nat2Z.id. repeat split; auto. }
  rewrite HB. clear HB.
  set (O := (p ++ f_content f ++ q)%list).
  assert (HD : (char_count O - char_count T <= 0)%Z).
  { unfold O, T, char_count. rewrite !app_length. lia. }
  assert (HL : forall sk, fix_loop (char_count T) (mk_fstate O (Z.of_nat (f_end f)) sk (char_count O)) fs
     = Some (mk_fstate O (Z.of_nat (f_end f)) (match fs with nil => sk | _ => true end) (char_count O))).
  { clear -Hfs HD. induction fs as [|g fs IH]; intros sk; [reflexivity|].
    inversion Hfs as [|? ? Hg Hgs]; subst. cbn [fix_loop]. unfold fix_step. cbn.
    destruct (_ <? _)%Z eqn:E; [|apply Z.ltb_ge in E; lia].
    rewrite IH by auto. destruct fs; reflexivity. }
  rewrite HL. reflexivity.
Qed.
