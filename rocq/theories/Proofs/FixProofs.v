From Verif Require Import Model.Text Model.Fix Spec.FixSpec Proofs.TextProofs.
From Coq Require Import Sorting.Sorted.
Open Scope nat_scope.

(** Loop invariant.  [done] is the already rewritten part, [p] the byte position in the original
    text up to which it has been rewritten, [rest] the untouched remainder. *)
Lemma bslice_suffix (a t old : text) s e :
  blen a <= s -> bslice s e (a ++ t) = Some old ->
  exists k r, t = k ++ old ++ r /\ blen a + blen k = s /\ s + blen old = e.
Proof.
  intros Hs H. apply bslice_iff in H as (p & q & Heq & Hp & Hm).
  rewrite blen_app in Hm.
  assert (exists k, p = a ++ k) as [k ->].
  { clear -Heq Hs Hp. subst s. revert a Heq Hs.
    induction p as [|c p IH]; intros a Heq Hs.
    - cbn in Hs. destruct a as [|x a]; [exists []; auto|]. cbn in Hs. pose proof (u8len_pos x). lia.
    - destruct a as [|x a]; [exists (c :: p); auto|].
      injection Heq as -> Heq. cbn in Hs. destruct (IH a Heq) as [k ->]; [lia|]. exists k; auto. }
  rewrite <- app_assoc in Heq. apply app_inv_head in Heq.
  rewrite blen_app in *. exists k, q. repeat split; auto; lia.
Qed.

Section Loop.
Variable t : text.
Let N0 := char_count t.

(** State of the loop relative to the list of fixes applied so far. *)
Record LInv (p : nat) (st : fstate) (done rest pre : text) : Prop := {
  li_text : t = pre ++ rest;
  li_pre : blen pre = p;
  li_content : fs_content st = done ++ rest;
  li_newlen : fs_newlen st = char_count (done ++ rest);
  li_neutral : blen done + length pre = blen pre + length done
}.

Lemma li_diff p st done rest pre :
  LInv p st done rest pre ->
  (fs_newlen st - N0 = Z.of_nat (blen done) - Z.of_nat p)%Z.
Proof.
  intros [H1 H2 H3 H4 H5]. rewrite H4. unfold N0, char_count.
  assert (L : length t = length (pre ++ rest)) by now rewrite <- H1.
  rewrite app_length in *. lia.
Qed.


Lemma loop_ordered fs :
  forall p st done rest pre,
  LInv p st done rest pre ->
  Forall (fun f => p <= f_start f) fs ->
  ordered_disjoint fs ->
  Forall (in_text t) fs -> Forall (byte_neutral t) fs ->
  exists st', fix_loop N0 st fs = Some st'.
Proof.
  induction fs as [|f fs IH]; intros p st done rest pre HI Hp HO Hin Hneu.
  - exists st. reflexivity.
  - cbn [fix_loop]. unfold fix_step.
    inversion Hp as [|? ? Hpf Hpfs]; subst.
    inversion HO as [|? ? Hbf HOfs]; subst.
    inversion Hin as [|? ? Hinf Hinfs]; subst.
    inversion Hneu as [|? ? Hnf Hnfs]; subst.
    destruct (_ <? _)%Z eqn:Hlt.
    + (* skipped *)
      set (st1 := mk_fstate _ _ _ _).
      assert (HI1 : LInv p st1 done rest pre).
      { destruct HI; constructor; auto. }
      eapply IH; eauto.
    + destruct Hinf as [old Hold].
      destruct HI as [Ht Hpre Hc Hnl Hne].
      pose proof Hold as Hold'. rewrite Ht in Hold'.
      apply bslice_suffix in Hold' as (keep & rest' & Hrest & Hks & Hoe); [|lia].
      pose proof (Hnf _ Hold) as Hno.
      assert (Hd : (fs_newlen st - N0 = Z.of_nat (blen done) - Z.of_nat p)%Z)
        by (eapply li_diff; constructor; eauto).
      rewrite Hd. unfold replace_range_i32.
      destruct ((_ <? 0)%Z || (_ <? 0)%Z)%bool eqn:Hneg.
      { exfalso. apply orb_true_iff in Hneg as [Hn|Hn]; apply Z.ltb_lt in Hn; lia. }
      assert (HB : breplace (Z.to_nat (Z.of_nat (f_start f) + (Z.of_nat (blen done) - Z.of_nat p)))
                     (Z.to_nat (Z.of_nat (f_end f) + (Z.of_nat (blen done) - Z.of_nat p)))
                     (f_content f) (fs_content st)
                   = Some ((done ++ keep ++ f_content f) ++ rest')).
      { apply breplace_iff. exists (done ++ keep), old, rest'.
        rewrite Hc, Hrest, !blen_app, <- !app_assoc. repeat split; auto; lia. }
      rewrite HB.
      set (st1 := mk_fstate _ _ _ _).
      assert (HI1 : LInv (f_end f) st1 (done ++ keep ++ f_content f) rest' (pre ++ keep ++ old)).
      { subst st1. constructor; cbn; auto.
        - rewrite Ht, Hrest, <- !app_assoc. reflexivity.
        - rewrite !blen_app. lia.
        - rewrite !blen_app, !app_length. lia. }
      eapply IH; eauto.
Qed.

(** With fixes that do nothing anywhere in the list, under the assumption that the code
    does not panic. *)
Lemma is_empty_fix_spec f :
  is_empty_fix f = true -> f_content f = [] /\ f_start f = 0 /\ f_end f = 0.
Proof.
  unfold is_empty_fix. destruct (f_content f); [|discriminate].
  rewrite andb_true_iff, !Nat.eqb_eq. tauto.
Qed.

Lemma breplace_nil a c c' : breplace a a [] c = Some c' -> c' = c.
Proof.
  intros H. apply breplace_iff in H as (p & m & q & -> & Hp & Hm & ->).
  assert (blen m = 0) as Hm0 by lia. apply blen_0 in Hm0 as ->. reflexivity.
Qed.

Lemma loop_real fs :
  forall p st done rest pre st',
  LInv p st done rest pre ->
  Forall (fun f => p <= f_start f) (real_fixes fs) ->
  ordered_disjoint (real_fixes fs) ->
  Forall (in_text t) (real_fixes fs) -> Forall (byte_neutral t) (real_fixes fs) ->
  fix_loop N0 st fs = Some st' ->
  exists applied out,
    Sublist applied (real_fixes fs) /\
    Splice p applied rest out /\ fs_content st' = done ++ out /\
    (fs_skipped st = true -> fs_skipped st' = true) /\
    (fs_skipped st' = false -> applied = real_fixes fs) /\
    (fs_newlen st = N0 -> fs_last st = 0%Z -> hd_error applied = hd_error (real_fixes fs)).
Proof.
  induction fs as [|f fs IH]; intros p st done rest pre st' HI Hp HO Hin Hneu.
  - cbn. intros [= <-]. exists [], rest. repeat split; auto; try constructor. apply HI.
  - cbn [fix_loop]. destruct (is_empty_fix f) eqn:Hemp.
    + assert (HR : real_fixes (f :: fs) = real_fixes fs) by (cbn; now rewrite Hemp).
      rewrite HR in *. clear HR.
      apply is_empty_fix_spec in Hemp as (Hc & Hs & He).
      destruct (fix_step N0 st f) as [st1|] eqn:Hst; [|discriminate].
      intros Hl.
      assert (HI1 : LInv p st1 done rest pre).
      { unfold fix_step in Hst. destruct (_ <? _)%Z.
        - injection Hst as <-. destruct HI; constructor; auto.
        - destruct (replace_range_i32 _ _ _ _) as [c|] eqn:Hr; [|discriminate].
          injection Hst as <-. unfold replace_range_i32 in Hr.
          destruct (_ || _)%bool; [discriminate|].
          rewrite Hc, Hs, He in Hr. apply breplace_nil in Hr.
          destruct HI as [H1 H2 H3 H4 H5]. constructor; cbn; congruence. }
      destruct (IH p st1 done rest pre st' HI1 Hp HO Hin Hneu Hl)
        as (ap & out & H2 & H3 & H4 & H5 & H6 & H7).
      exists ap, out. repeat split; auto.
      * intros Hk. apply H5. unfold fix_step in Hst. destruct (_ <? _)%Z.
        { injection Hst as <-. reflexivity. }
        { destruct (replace_range_i32 _ _ _ _) as [c|]; [|discriminate].
          injection Hst as <-. exact Hk. }
      * intros Hn Hz. apply H7.
        { unfold fix_step in Hst. rewrite Hn, Hz in Hst. rewrite Hs, He, Hc in Hst.
          rewrite Z.sub_diag in Hst.
          change ((Z.of_nat 0 + 0 <? 0)%Z) with false in Hst. cbv iota zeta beta in Hst.
          change (replace_range_i32 (Z.of_nat 0 + 0) (Z.of_nat 0 + 0) [] (fs_content st))
            with (breplace 0 0 [] (fs_content st)) in Hst.
          destruct (breplace 0 0 [] (fs_content st)) as [c|] eqn:Hr; [|discriminate].
          apply breplace_nil in Hr. injection Hst as <-. cbn. subst c.
          destruct HI as [K1 K2 K3 K4 K5]. congruence. }
        { unfold fix_step in Hst. rewrite Hn, Hz in Hst. rewrite Hs, He, Hc in Hst.
          rewrite Z.sub_diag in Hst.
          change ((Z.of_nat 0 + 0 <? 0)%Z) with false in Hst. cbv iota zeta beta in Hst.
          change (replace_range_i32 (Z.of_nat 0 + 0) (Z.of_nat 0 + 0) [] (fs_content st))
            with (breplace 0 0 [] (fs_content st)) in Hst.
          destruct (breplace 0 0 [] (fs_content st)) as [c|] eqn:Hr; [|discriminate].
          injection Hst as <-. reflexivity. }
    + assert (HR : real_fixes (f :: fs) = f :: real_fixes fs) by (cbn; now rewrite Hemp).
      rewrite HR in *. clear HR.
      inversion Hp as [|? ? Hpf Hpfs]; subst.
      inversion HO as [|? ? Hbf HOfs]; subst.
      inversion Hin as [|? ? Hinf Hinfs]; subst.
      inversion Hneu as [|? ? Hnf Hnfs]; subst.
      unfold fix_step at 1.
      destruct (_ <? _)%Z eqn:Hlt.
      * set (st1 := mk_fstate _ _ _ _). intros Hl.
        assert (HI1 : LInv p st1 done rest pre).
        { destruct HI; constructor; auto. }
        destruct (IH p st1 done rest pre st' HI1 Hpfs HOfs Hinfs Hnfs Hl)
          as (ap & out & H2 & H3 & H4 & H5 & H6 & H7).
        exists ap, out. repeat split; auto.
        { now constructor. }
        { intros Hf. rewrite H5 in Hf; [discriminate|]. reflexivity. }
        { intros Hn Hz. exfalso. apply Z.ltb_lt in Hlt. rewrite Hz, Hn in Hlt. lia. }
      * destruct Hinf as [old Hold].
        destruct HI as [Ht Hpre Hc Hnl Hne].
        pose proof Hold as Hold'. rewrite Ht in Hold'.
        apply bslice_suffix in Hold' as (keep & rest' & Hrest & Hks & Hoe); [|lia].
        pose proof (Hnf _ Hold) as Hno.
        assert (Hd : (fs_newlen st - N0 = Z.of_nat (blen done) - Z.of_nat p)%Z)
          by (eapply li_diff; constructor; eauto).
        rewrite Hd. unfold replace_range_i32.
        destruct ((_ <? 0)%Z || (_ <? 0)%Z)%bool eqn:Hneg; [discriminate|].
        assert (HB : breplace (Z.to_nat (Z.of_nat (f_start f) + (Z.of_nat (blen done) - Z.of_nat p)))
                       (Z.to_nat (Z.of_nat (f_end f) + (Z.of_nat (blen done) - Z.of_nat p)))
                       (f_content f) (fs_content st)
                     = Some ((done ++ keep ++ f_content f) ++ rest')).
        { apply breplace_iff. exists (done ++ keep), old, rest'.
          rewrite Hc, Hrest, !blen_app, <- !app_assoc.
          apply orb_false_iff in Hneg as [Hn1 Hn2]. apply Z.ltb_ge in Hn1, Hn2.
          repeat split; auto; lia. }
        rewrite HB.
        set (st1 := mk_fstate _ _ _ _). intros Hl.
        assert (HI1 : LInv (f_end f) st1 (done ++ keep ++ f_content f) rest' (pre ++ keep ++ old)).
        { subst st1. constructor; cbn; auto.
          - rewrite Ht, Hrest, <- !app_assoc. reflexivity.
          - rewrite !blen_app. lia.
          - rewrite !blen_app, !app_length. lia. }
        destruct (IH _ st1 _ _ _ _ HI1 Hbf HOfs Hinfs Hnfs Hl)
          as (ap & out & H2 & H3 & H4 & H5 & H6 & H7).
        exists (f :: ap), (keep ++ f_content f ++ out). repeat split.
        { now constructor. }
        { rewrite Hrest. constructor; auto; lia. }
        { rewrite H4, <- !app_assoc. reflexivity. }
        { intros Hs. apply H5. exact Hs. }
        { intros Hs. f_equal. auto. }
Qed.
End Loop.

Lemma LInv_init t : LInv t 0 (fix_init t) [] t [].
Proof. constructor; cbn; auto. Qed.

Lemma apply_fixes_real fs t sk out :
  ordered_disjoint (real_fixes fs) ->
  Forall (in_text t) (real_fixes fs) -> Forall (byte_neutral t) (real_fixes fs) ->
  apply_fixes fs t = Some (sk, out) ->
  exists applied,
    Sublist applied (real_fixes fs) /\ Splice 0 applied t out /\
    (sk = false -> applied = real_fixes fs) /\
    hd_error applied = hd_error (real_fixes fs).
Proof.
  intros HO Hin Hne. unfold apply_fixes.
  destruct (fix_loop _ _ _) as [st'|] eqn:Hl; [|discriminate].
  intros [= <- <-].
  destruct (loop_real t fs 0 (fix_init t) [] t [] st' (LInv_init t))
    as (ap & out & H1 & H2 & H3 & H4 & H5 & H6); auto.
  { apply Forall_forall. intros; lia. }
  cbn in H3. rewrite H3. exists ap. repeat split; auto.
Qed.

Lemma Sublist_tail {A} (x : A) a b : Sublist (x :: a) b -> Sublist a b.
Proof.
  remember (x :: a) as l eqn:E. intros H. revert x a E.
  induction H as [|y l1 l2 H IH|y l1 l2 H IH]; intros x a E; [discriminate| |].
  - injection E as -> ->. now constructor.
  - constructor. eapply IH; eauto.
Qed.
Lemma complete_and_progress fs t sk out :
  ordered_disjoint (real_fixes fs) ->
  Forall (in_text t) (real_fixes fs) -> Forall (byte_neutral t) (real_fixes fs) ->
  apply_fixes fs t = Some (sk, out) ->
  (sk = false -> Splice 0 (real_fixes fs) t out) /\
  (forall f rest, real_fixes fs = f :: rest -> exists more, Splice 0 (f :: more) t out /\ Sublist more rest).
Proof.
  intros H1 H2 H3 H4. destruct (apply_fixes_real fs t sk out H1 H2 H3 H4) as (ap & K1 & K2 & K3 & K4).
  split.
  - intros Hs. rewrite <- (K3 Hs). exact K2.
  - intros f rest E. rewrite E in *. destruct ap as [|g ap]; [discriminate|].
    injection K4 as ->. exists ap. split; [exact K2|].
    inversion K1; subst; [auto|]. eapply Sublist_tail; eauto.
Qed.

Lemma apply_fixes_no_panic fs t :
  ordered_disjoint fs ->
  Forall (in_text t) fs -> Forall (byte_neutral t) fs ->
  exists sk out, apply_fixes fs t = Some (sk, out).
Proof.
  intros HO Hin Hne. unfold apply_fixes.
  destruct (loop_ordered t fs 0 (fix_init t) [] t [] (LInv_init t)) as [st' H]; auto.
  { apply Forall_forall. intros; lia. }
  rewrite H. eauto.
Qed.

(** ASCII texts and fixes are byte neutral. *)
Lemma ascii_neutral t f :
  ascii_text t = true -> ascii_text (f_content f) = true -> byte_neutral t f.
Proof.
  intros Ht Hf old H. apply bslice_iff in H as (p & q & -> & _ & _).
  rewrite !ascii_app in Ht. apply andb_true_iff in Ht as [_ Ht]. apply andb_true_iff in Ht as [Ht _].
  rewrite !ascii_blen by auto. lia.
Qed.

(** No fix at all: nothing changes, nothing is skipped. *)
Lemma apply_fixes_empty fs t :
  real_fixes fs = [] -> apply_fixes fs t = Some (false, t).
Proof.
  intros H. unfold apply_fixes, fix_init.
  assert (HL : fix_loop (char_count t) (mk_fstate t 0 false (char_count t)) fs
               = Some (mk_fstate t 0 false (char_count t))).
  { induction fs as [|f fs IH]; [reflexivity|].
    cbn in H. destruct (is_empty_fix f) eqn:E; [|discriminate]. cbn in H.
    apply is_empty_fix_spec in E as (Hc & Hs & He).
    cbn [fix_loop]. unfold fix_step. cbn. rewrite Hc, Hs, He.
    replace (char_count t - char_count t)%Z with 0%Z by lia. cbn.
    unfold replace_range_i32. cbn. unfold breplace. cbn. rewrite !bsplit_0. cbn.
    apply IH, H. }
  rewrite HL. reflexivity.
Qed.

(** Executable version of [Splice], used for refutations. *)
Fixpoint splice_fn (p : nat) (fs : list rfix) (t : text) : option text :=
  match fs with
  | [] => Some t
  | f :: fs' =>
      if (p <=? f_start f) && (f_start f <=? f_end f) then
        match bsplit (f_start f - p) t with
        | None => None
        | Some (keep, r) =>
            match bsplit (f_end f - f_start f) r with
            | None => None
            | Some (_, rest) =>
                match splice_fn (f_end f) fs' rest with
                | None => None
                | Some out => Some (keep ++ f_content f ++ out)
                end
            end
        end
      else None
  end.
Lemma Splice_fn p fs t out : Splice p fs t out -> splice_fn p fs t = Some out.
Proof.
  induction 1 as [p t|p f fs keep old rest out Hs He HS IH]; [reflexivity|].
  cbn [splice_fn].
  destruct (p <=? f_start f) eqn:E1; [|apply Nat.leb_gt in E1; lia].
  destruct (f_start f <=? f_end f) eqn:E2; [|apply Nat.leb_gt in E2; lia].
  cbn. replace (f_start f - p) with (blen keep) by lia. rewrite bsplit_app.
  replace (f_end f - f_start f) with (blen old) by lia. rewrite bsplit_app.
  now rewrite IH.
Qed.
Fixpoint sublists {A} (l : list A) : list (list A) :=
  match l with
  | [] => [[]]
  | x :: r => map (cons x) (sublists r) ++ sublists r
  end.
Lemma Sublist_in {A} (a l : list A) : Sublist a l -> In a (sublists l).
Proof.
  induction 1; cbn; [auto| |]; apply in_or_app.
  - left. apply in_map. auto.
  - right; auto.
Qed.
(** No selection of the fixes explains the output. *)
Definition unexplained (fs : list rfix) (t out : text) : bool :=
  forallb (fun a => match splice_fn 0 a t with Some o => negb (teqb o out) | None => true end)
    (sublists fs).
Lemma unexplained_spec fs t out :
  unexplained fs t out = true -> ~ exists applied, Sublist applied fs /\ Splice 0 applied t out.
Proof.
  intros H (ap & Hs & HS). unfold unexplained in H. rewrite forallb_forall in H.
  apply Sublist_in in Hs. apply H in Hs. apply Splice_fn in HS. rewrite HS in Hs.
  rewrite teqb_refl in Hs. discriminate.
Qed.
