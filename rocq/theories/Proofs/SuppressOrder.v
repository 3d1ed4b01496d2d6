From Coq Require Import Sorted.
From Verif Require Import Model.Text Model.Base Model.Rules Model.Directive Model.Driver Model.Suppress
  Spec.DirectiveSpec Spec.SuppressSpec Proofs.TextProofs Proofs.RulesProofs Proofs.DirectiveProofs
  Proofs.SuppressProofs Proofs.SuppressFilter Proofs.SuppressMain.

(** The visits in source order. *)
Fixpoint svisits (src : text) (n : node) (top : bool) (level : nat) {struct n} : list visit :=
  match n with
  | Node nr _ leading trailing dangling children =>
      map (at_node nr level) (leading_roles top false leading ++ map (fun c => (c, Plain false)) dangling)
      ++ (fix go (l : list node) (top : bool) : list visit :=
            match l with
            | [] => []
            | c :: r => svisits src c top (if node_braced c then S level else level) ++ go r false
            end) children top
      ++ map (at_node nr level) (map (fun c => (c, if end_of_line src c then Eol else Plain false)) trailing)
  end.
Fixpoint svisits_list (src : text) (l : list node) (top : bool) (level : nat) : list visit :=
  match l with
  | [] => []
  | c :: r => svisits src c top (if node_braced c then S level else level) ++ svisits_list src r false level
  end.
Lemma svisits_eq src r b l t d ch top level :
  svisits src (Node r b l t d ch) top level =
  map (at_node r level) (leading_roles top false l ++ map (fun c => (c, Plain false)) d)
  ++ svisits_list src ch top level
  ++ map (at_node r level) (map (fun c => (c, if end_of_line src c then Eol else Plain false)) t).
Proof.
  cbn [svisits]. f_equal. f_equal. revert top. induction ch as [|c ch IH]; intros top; cbn [svisits_list]; auto. now rewrite <- IH.
Qed.
Lemma roles_fst top l : forall ia, map fst (leading_roles top ia l) = l.
Proof.
  induction l as [|c l IH]; intros ia; cbn; auto.
  destruct (ia && is_item c); [|destruct (is_array_header (c_text c))]; cbn; now rewrite IH.
Qed.
Lemma map_pair {A B} (f : A -> B) l : map fst (map (fun c => (c, f c)) l) = l.
Proof. induction l; cbn; congruence. Qed.
Lemma at_node_comment r level l : map v_comment (map (at_node r level) l) = map fst l.
Proof. rewrite map_map. reflexivity. Qed.
Lemma svisits_comments src n : forall top level, map v_comment (svisits src n top level) = source_order n.
Proof.
  induction n as [r b l t d ch IH] using node_rect'. intros top level. rewrite svisits_eq. cbn [source_order].
  rewrite !map_app, !at_node_comment, roles_fst.
  rewrite (map_pair (fun _ => Plain false)), (map_pair (fun c => if end_of_line src c then Eol else Plain false)).
  rewrite <- app_assoc. do 3 f_equal. revert top. induction ch as [|c ch IHc]; intros top; cbn; auto.
  inversion IH; subst. rewrite map_app. f_equal; auto.
Qed.
Definition isbr (v : visit) : bool := match o_br v with Some _ => true | None => false end.
Lemma trailing_none r level src t : Forall (fun c => forall r, parse_comment_directive (c_text c) <> Some (PValid (Dir KStart r)) /\
                             parse_comment_directive (c_text c) <> Some (PValid (Dir KEnd r))) t ->
  filter isbr (map (at_node r level) (map (fun c => (c, if end_of_line src c then Eol else Plain false)) t)) = [].
Proof.
  induction 1 as [|c t H _ IH]; cbn [map filter]; auto.
  assert (E : isbr (at_node r level (c, if end_of_line src c then Eol else Plain false)) = false).
  { unfold isbr, o_br, vparse. cbn [at_node v_role v_comment fst snd]. destruct (end_of_line src c); auto.
    destruct (parse_comment_directive (c_text c)) as [[[[] r']| | |]|]; auto; destruct (H r'); congruence. }
  rewrite E. exact IH.
Qed.
Lemma brackets_parts r b l t d ch : brackets_lead (Node r b l t d ch) ->
  Forall (fun c => forall r, parse_comment_directive (c_text c) <> Some (PValid (Dir KStart r)) /\
                             parse_comment_directive (c_text c) <> Some (PValid (Dir KEnd r))) t /\ Forall brackets_lead ch.
Proof.
  unfold brackets_lead. cbn [trailing_of]. rewrite Forall_app. intros (H1 & H2). split; auto.
  induction ch as [|c ch IH]; cbn in *; constructor; apply Forall_app in H2; tauto.
Qed.
Lemma filter_visits src n : forall top level, brackets_lead n ->
  filter isbr (visits src n top level) = filter isbr (svisits src n top level).
Proof.
  induction n as [r b l t d ch IH] using node_rect'. intros top level H. apply brackets_parts in H. destruct H as (Ht & Hc).
  rewrite visits_eq, svisits_eq. rewrite !map_app, !filter_app. rewrite (trailing_none r level src t Ht).
  rewrite <- !app_assoc. cbn [app]. rewrite app_nil_r. f_equal. f_equal.
  revert top. induction ch as [|c ch IHc]; intros top; cbn; auto. inversion IH; subst. inversion Hc; subst.
  rewrite !filter_app. f_equal; auto.
Qed.
Lemma sorted_filter {A} (R : A -> A -> Prop) f l : StronglySorted R l -> StronglySorted R (filter f l).
Proof.
  induction 1 as [|a l _ IH H]; cbn; [constructor|]. destruct (f a); auto. constructor; auto.
  apply Forall_forall. intros x Hx. apply filter_In in Hx. rewrite Forall_forall in H. now apply H.
Qed.
Lemma sorted_map {A B} (R : B -> B -> Prop) (f : A -> B) l : StronglySorted R (map f l) -> StronglySorted (fun a b => R (f a) (f b)) l.
Proof.
  induction l as [|a l IH]; cbn; [constructor|]. inversion 1 as [|? ? S1 S2]; subst. constructor; [auto|]. clear - S2. induction l; cbn in *; constructor; inversion S2; auto.
Qed.
Lemma sorted_app {A} (R : A -> A -> Prop) l1 a l2 b l3 : StronglySorted R (l1 ++ a :: l2 ++ b :: l3) -> R a b.
Proof.
  induction l1 as [|x l1 IH]; cbn; intros H; inversion H as [|? ? S1 S2]; subst; auto. rewrite Forall_app in S2. destruct S2 as (_ & S2). now inversion S2.
Qed.
Theorem region_in_order src n r s e : in_order n -> brackets_lead n -> region (visits src n true 0) r s e ->
  snd (v_range s) <= fst (v_range e) /\ fst (v_range s) <= snd (v_range s) /\ fst (v_range e) <= snd (v_range e).
Proof.
  intros (Ho & Hw) Hb Hr. apply region_iff in Hr. destruct Hr as (l1 & l2 & l3 & E & H1 & H2 & _).
  pose proof (filter_visits src n true 0 Hb) as F. rewrite E in F. rewrite filter_app in F. cbn [filter] in F.
  assert (B1 : isbr s = true) by (unfold isbr; unfold is_start in H1; now rewrite H1).
  assert (B2 : isbr e = true) by (unfold isbr; unfold is_end in H2; now rewrite H2).
  rewrite B1, filter_app in F. cbn [filter] in F. rewrite B2 in F.
  rewrite <- (svisits_comments src n true 0) in Ho, Hw. apply sorted_map in Ho.
  assert (Ho' := sorted_filter _ isbr _ Ho). rewrite <- F in Ho'. apply sorted_app in Ho'.
  rewrite Forall_map, Forall_forall in Hw.
  assert (I1 : In s (svisits src n true 0)).
  { assert (In s (filter isbr (svisits src n true 0))) by (rewrite <- F; apply in_or_app; right; now left). now apply filter_In in H. }
  assert (I2 : In e (svisits src n true 0)).
  { assert (In e (filter isbr (svisits src n true 0))) by (rewrite <- F; apply in_or_app; right; right; apply in_or_app; right; now left). now apply filter_In in H. }
  split; [exact Ho'|]. split; [now apply Hw|now apply Hw].
Qed.
Theorem no_crash src n : in_source src n -> in_order n -> brackets_lead n -> from_node n src <> None.
Proof.
  intros Hs Ho Hb H. apply from_node_none in H; auto. destruct H as (r & s & e & Hr & Hlt).
  destruct (region_in_order _ _ _ _ _ Ho Hb Hr) as (H1 & H2 & H3). lia.
Qed.

(** [end_of_line] is what it says. *)
Lemma same_line_iff src c : at_source src c -> (end_of_line src c = true <-> code_before src (fst (c_range c))).
Proof.
  intros (a & b & E & R). unfold end_of_line, is_same_line_as_code. rewrite R. cbn [fst].
  assert (G : existsb (fun c => negb (is_ws c)) (match find_char nl (rev a) with Some (x, _) => x | None => rev a end) = true
     <-> code_before src (blen a)).
  { assert (Uniq : forall a1 l1 b1 , src = a1 ++ l1 ++ b1 -> blen (a1 ++ l1) = blen a -> a = a1 ++ l1).
    { intros a1 l1 b1 E1 L1. rewrite app_assoc in E1.
      assert (S1 : bsplit (blen a) src = Some (a, c_text c ++ b)) by (apply bsplit_iff; auto).
      assert (S2 : bsplit (blen a) src = Some (a1 ++ l1, b1)) by (apply bsplit_iff; auto). congruence. }
    rewrite existsb_exists. split.
    - destruct (find_char nl (rev a)) as [[x y]|] eqn:F.
      + apply find_char_some in F. destruct F as (F & Hx). apply (f_equal (@rev N)) in F. rewrite rev_involutive, rev_app_distr in F.
        cbn [rev] in F. intros (ch & Hc & Hw). exists (rev y ++ [nl]), (rev x), (c_text c ++ b), ch.
        rewrite E. unfold char in *. split; [rewrite F; now rewrite <- !app_assoc|]. split; [now rewrite F|].
        split; [right; eauto|]. split; [now rewrite <- in_rev|]. split; [now rewrite <- in_rev|]. now apply negb_true_iff in Hw.
      + apply find_char_none in F. intros (ch & Hc & Hw). exists [], a, (c_text c ++ b), ch. split; auto. split; auto.
        split; auto. rewrite <- in_rev in F. split; auto. rewrite <- in_rev in Hc. split; auto. now apply negb_true_iff in Hw.
    - intros (a1 & l1 & b1 & ch & E1 & L1 & Ha & Hn & Hc & Hw). specialize (Uniq _ _ _ E1 L1).
      destruct Ha as [->|(a' & ->)].
      + cbn [app] in Uniq. subst l1. rewrite (proj2 (find_char_none _ _)) by (rewrite <- in_rev; exact Hn).
        exists ch. rewrite <- in_rev, negb_true_iff. auto.
      + assert (F : find_char nl (rev a) = Some (rev l1, rev a')).
        { apply find_char_some. rewrite Uniq. rewrite !rev_app_distr. cbn [rev app]. split; auto. now rewrite <- in_rev. }
        rewrite F. exists ch. rewrite <- in_rev, negb_true_iff. auto. }
  destruct (blen a =? 0) eqn:Z.
  - apply Nat.eqb_eq in Z. split; [discriminate|]. rewrite Z. intros (a1 & l1 & b1 & ch & _ & L & _ & _ & Hc & _).
    rewrite blen_app in L. destruct l1 as [|x l1]; [destruct Hc|]. cbn in L. pose proof (u8len_pos x). lia.
  - rewrite E, bsplit_app, <- E. exact G.
Qed.
