(** redundant_ifelse, redundant_equals, coalesce and true_false_symbol. *)
From Verif Require Import Spec.RGrammar Spec.RWellFormed Spec.RPosition Spec.RSemantics Spec.RFix.
From Verif Require Import Proofs.TextProofs Proofs.RParse Proofs.RParseSound Proofs.RContext Proofs.RCongruence Proofs.RAlike Proofs.InPlace Proofs.LintSyntax Proofs.LintFixes.

(** ** redundant_ifelse *)

(** The arguments the rule finds are those R's matching gives. *)
Section Matching.
  Variable I : interp.
  Variables a b c : text.
  Hypothesis ab : a <> b.
  Hypothesis ac : a <> c.
  Hypothesis bc : b <> c.

  Lemma name_case : forall m : text,
    (teqb m a = true /\ teqb m b = false /\ teqb m c = false) \/
    (teqb m a = false /\ teqb m b = true /\ teqb m c = false) \/
    (teqb m a = false /\ teqb m b = false /\ teqb m c = true) \/
    (teqb m a = false /\ teqb m b = false /\ teqb m c = false).
  Proof using ab ac bc.
    intros m. destruct (teqb m a) eqn:A, (teqb m b) eqn:B, (teqb m c) eqn:C;
      rewrite ?teqb_eq in *; subst; try congruence; tauto.
  Qed.

  Lemma r_args_found : forall (args : list arg) n1 n2 n3 x y z,
    length args = 3 ->
    get_arg_by_name_then_position args a 1 = Some (n1, Some x) ->
    get_arg_by_name_then_position args b 2 = Some (n2, Some y) ->
    get_arg_by_name_then_position args c 3 = Some (n3, Some z) ->
    r_args [a; b; c] args = Some [Some x; Some y; Some z].
  Proof using ab ac bc.
    intros args n1 n2 n3 x y z L H1 H2 H3.
    destruct args as [|[m1 v1] [|[m2 v2] [|[m3 v3] [|]]]]; try discriminate. clear L.
    unfold get_arg_by_name_then_position, get_arg_by_name, get_unnamed_arg_by_position, get_unnamed_args, has_name in *.
    unfold r_args. cbn [map filter fst snd r_match find option_map] in *.
    assert (C : forall m : option text,
      m = None \/ exists t, m = Some t /\
        ((teqb t a = true /\ teqb t b = false /\ teqb t c = false) \/
         (teqb t a = false /\ teqb t b = true /\ teqb t c = false) \/
         (teqb t a = false /\ teqb t b = false /\ teqb t c = true) \/
         (teqb t a = false /\ teqb t b = false /\ teqb t c = false))).
    { intros [t|]; [right|left; reflexivity]. exists t. split; [reflexivity|]. apply name_case. }
    destruct (C m1) as [ -> |(t1 & -> & D1)], (C m2) as [ -> |(t2 & -> & D2)], (C m3) as [ -> |(t3 & -> & D3)]; clear C;
    repeat match goal with
    | D : _ \/ _ |- _ => destruct D as [D|D]
    | D : _ /\ _ |- _ => destruct D
    end;
    repeat match goal with E : teqb _ _ = _ |- _ => rewrite E in *; clear E end;
    cbn [map filter fst snd find option_map nth_error Nat.sub] in *;
    try discriminate; congruence.
  Qed.

  Lemma match_args_r : forall fs (args : list arg) u,
    match_args I fs (map (sarg I) args) (map (option_map (eval I)) u) =
    option_map (map (option_map (eval I))) (r_match fs args u).
  Proof using.
    induction fs as [|n fs IH]; intros args u; cbn [match_args r_match].
    - destruct u; reflexivity.
    - unfold named_arg.
      assert (F : find (fun x => match fst x with Some m => teqb m n | None => false end) (map (sarg I) args) =
              option_map (sarg I) (find (fun x : arg => match fst x with Some m => teqb m n | None => false end) args)).
      { clear. induction args as [|x args IH]; cbn [map find option_map]; auto.
        change (fst (sarg I x)) with (fst x).
        destruct (match fst x with Some m => teqb m n | None => false end); auto. }
      rewrite F. destruct (find _ args) as [x|]; cbn [option_map].
      + rewrite IH. destruct (r_match fs args u); reflexivity.
      + destruct u as [|v u]; cbn [map]; [reflexivity|]. rewrite IH. destruct (r_match fs args u); reflexivity.
  Qed.
  Lemma match3_r : forall args x y z, length args = 3 ->
    r_args [a; b; c] args = Some [Some x; Some y; Some z] ->
    match3 I a b c (map (sarg I) args) = Some (eval I x, eval I y, eval I z).
  Proof using.
    intros args x y z L H. unfold match3. rewrite map_length, L. cbn [Nat.eqb].
    unfold r_args in H.
    assert (U : unnamed_args I (map (sarg I) args) = map (option_map (eval I))
      (map snd (filter (fun a : arg => match fst a with None => true | _ => false end) args))).
    { clear. unfold unnamed_args. induction args as [|[n v] args IH]; cbn [map filter]; auto.
      change (fst (sarg I (n, v))) with n. cbn [fst]. destruct n; cbn [map]; [exact IH|]. rewrite IH. reflexivity. }
    rewrite U, match_args_r, H. reflexivity.
  Qed.
End Matching.

Lemma formals_distinct : forall f a b c, ifelse_formals f = Some (a, b, c) -> a <> b /\ a <> c /\ b <> c.
Proof.
  intros f a b c H. unfold ifelse_formals in H.
  destruct (teqb f _); [|destruct (teqb f _); [|destruct (teqb f _); [|discriminate]]];
    injection H as <- <- <-; repeat split; discriminate.
Qed.

Lemma has_pick : forall l, map (fun x => pick x (if has true l then Some true else None)
                                       (if has false l then Some false else None)) l = l.
Proof.
  intros l. transitivity (map (fun x => x) l); [|apply map_id]. apply map_ext_in. intros [[]|] H; cbn [pick]; auto.
  - destruct (has true l) eqn:E; auto. exfalso. unfold has in E.
    assert (existsb (fun x => match x with Some c => Bool.eqb true c | None => false end) l = true).
    { apply existsb_exists. exists (Some true). auto. } congruence.
  - destruct (has false l) eqn:E; auto. exfalso. unfold has in E.
    assert (existsb (fun x => match x with Some c => Bool.eqb false c | None => false end) l = true).
    { apply existsb_exists. exists (Some false). auto. } congruence.
Qed.
Lemma has_pick_not : forall l, map (fun x => pick x (if has true l then Some false else None)
                                       (if has false l then Some true else None)) l = map (option_map negb) l.
Proof.
  intros l. apply map_ext_in. intros [[]|] H; cbn [pick option_map negb]; auto.
  - destruct (has true l) eqn:E; auto. exfalso. unfold has in E.
    assert (existsb (fun x => match x with Some c => Bool.eqb true c | None => false end) l = true).
    { apply existsb_exists. exists (Some true). auto. } congruence.
  - destruct (has false l) eqn:E; auto. exfalso. unfold has in E.
    assert (existsb (fun x => match x with Some c => Bool.eqb false c | None => false end) l = true).
    { apply existsb_exists. exists (Some false). auto. } congruence.
Qed.

Lemma ifelse_true_false : forall I t x, yields I x logical -> (forall l, t (VLgl l) = Some l) ->
  ceq (ifelse I t (eval I x) (eval I (EAtom ATrue)) (eval I (EAtom AFalse))) (eval I x).
Proof.
  intros I t x Hx Ht s. unfold ifelse, cbind.
  destruct (eval I x s) as [[v s']|] eqn:E; auto. pose proof (Hx _ _ _ E) as L.
  destruct v as [l| | | |]; try contradiction. rewrite Ht. cbn [eval atom_sem cret].
  generalize (has_pick l). destruct (has true l), (has false l); intros HP; cbn [one_lgl cret]; rewrite HP; reflexivity.
Qed.
Lemma ifelse_false_true : forall I t x, yields I x logical -> (forall l, t (VLgl l) = Some l) ->
  ceq (ifelse I t (eval I x) (eval I (EAtom AFalse)) (eval I (EAtom ATrue)))
      (eval I (EUn UNot (EParen x))).
Proof.
  intros I t x Hx Ht s.
  change (eval I (EUn UNot (EParen x))) with (strict1 I (vnot I) (eval I x)).
  unfold ifelse, strict1, cbind.
  destruct (eval I x s) as [[v s']|] eqn:E; auto. pose proof (Hx _ _ _ E) as L.
  destruct v as [l| | | |]; try contradiction. rewrite Ht. cbn [eval atom_sem cret vnot clift].
  generalize (has_pick_not l). destruct (has true l), (has false l); intros HP; cbn [one_lgl cret]; rewrite HP; reflexivity.
Qed.

Lemma eval_ifelse : forall I f args a b c x y z,
  fname f = Some (get_function_name f) ->
  ifelse_formals (get_function_name f) = Some (a, b, c) ->
  match3 I a b c (map (sarg I) args) = Some (x, y, z) ->
  exists t, (forall l, t (VLgl l) = Some l) /\
    eval I (ECall f args) = ifelse I t x y z.
Proof.
  intros I f args a b c x y z Hf Ha Hm.
  assert (L : length args = 3).
  { unfold match3 in Hm. rewrite map_length in Hm. destruct (length args =? 3) eqn:E; [|discriminate].
    apply Nat.eqb_eq in E. exact E. }
  assert (E : forall n, builtin1 I n = None -> fname f = Some n ->
     eval I (ECall f args) = match builtin3 I n (map (sarg I) args) with
            | Some c => c | None => i_call I (eval I f) (map (sarg I) args) end).
  { intros n Hb Hn. cbn [eval]. rewrite Hn. unfold apply. rewrite Hb. reflexivity. }
  unfold ifelse_formals in Ha. rewrite Hf in E.
  destruct (teqb (get_function_name f) (lit "ifelse")) eqn:E1.
  { apply teqb_eq in E1. injection Ha as <- <- <-. exists (to_lgl I). split; [reflexivity|].
    rewrite (E (lit "ifelse")) by (try reflexivity; rewrite E1; reflexivity). unfold builtin3.
    change (teqb (lit "ifelse") (lit "ifelse")) with true. cbv iota.
    assert (Hm' : match3 I (lit "test") (lit "yes") (lit "no") (map (sarg I) args) = Some (x, y, z)) by exact Hm.
    rewrite Hm'. reflexivity. }
  destruct (teqb (get_function_name f) (lit "if_else")) eqn:E2.
  { apply teqb_eq in E2. injection Ha as <- <- <-. exists (lgl_only I). split; [reflexivity|].
    rewrite (E (lit "if_else")) by (try reflexivity; rewrite E2; reflexivity). unfold builtin3.
    change (teqb (lit "if_else") (lit "ifelse")) with false.
    change (teqb (lit "if_else") (lit "fifelse")) with false.
    change (teqb (lit "if_else") (lit "if_else")) with true. cbv iota.
    assert (Hm' : match3 I (lit "condition") (lit "true") (lit "false") (map (sarg I) args) = Some (x, y, z)) by exact Hm.
    rewrite Hm'. reflexivity. }
  destruct (teqb (get_function_name f) (lit "fifelse")) eqn:E3; [|discriminate].
  { apply teqb_eq in E3. injection Ha as <- <- <-. exists (lgl_only I). split; [reflexivity|].
    rewrite (E (lit "fifelse")) by (try reflexivity; rewrite E3; reflexivity). unfold builtin3.
    change (teqb (lit "fifelse") (lit "ifelse")) with false.
    change (teqb (lit "fifelse") (lit "fifelse")) with true. cbv iota.
    assert (Hm' : match3 I (lit "test") (lit "yes") (lit "no") (map (sarg I) args) = Some (x, y, z)) by exact Hm.
    rewrite Hm'. reflexivity. }
Qed.

(** What the rule finds. *)
Lemma redundant_ifelse_shape : forall fs e r c, redundant_ifelse fs e = Some r -> new_text r = Some c ->
  exists f args x y z n1 n2 n3 a b d,
    e = ECall f args /\ ifelse_formals (get_function_name f) = Some (a, b, d) /\ length args = 3 /\
    get_arg_by_name_then_position args a 1 = Some (n1, Some x) /\
    get_arg_by_name_then_position args b 2 = Some (n2, Some y) /\
    get_arg_by_name_then_position args d 3 = Some (n3, Some z) /\
    at_frames r = fs /\ at_node r = e /\
    ((y = EAtom ATrue /\ z = EAtom AFalse /\ c = toks x) \/
     (y = EAtom AFalse /\ z = EAtom ATrue /\ c = toks (EUn UNot (EParen x)))).
Proof.
  intros fs e r c H Hc. destruct e as [| | | |f args| | | | | | | |]; try discriminate.
  cbn [redundant_ifelse] in H.
  destruct (ifelse_formals _) as [[[a b] d]|] eqn:Ef; [|discriminate].
  destruct (length args =? 3) eqn:L; [|discriminate]. cbn [negb] in H. apply Nat.eqb_eq in L.
  destruct (get_arg_by_name_then_position args a 1) as [[n1 [x|]]|] eqn:G1; try discriminate.
  destruct (get_arg_by_name_then_position args b 2) as [[n2 [y|]]|] eqn:G2; try discriminate.
  destruct (get_arg_by_name_then_position args d 3) as [[n3 [z|]]|] eqn:G3; try discriminate.
  destruct y as [[]| | | | | | | | | | | |]; try discriminate;
    destruct z as [[]| | | | | | | | | | | |]; try discriminate;
    injection H as <-; cbn [new_text] in Hc; try discriminate; injection Hc as <-.
  - exists f, args, x, (EAtom ATrue), (EAtom AFalse), n1, n2, n3, a, b, d. cbn. repeat split; auto.
  - exists f, args, x, (EAtom AFalse), (EAtom ATrue), n1, n2, n3, a, b, d. cbn. repeat split; auto.
Qed.

Lemma arg_wf : forall (args : list arg) n k m x, Forall (fun a : arg => owf (snd a)) args ->
  get_arg_by_name_then_position args n k = Some (m, Some x) -> wf true x /\ arg_level <= lmin x.
Proof.
  intros args n k m x W H. unfold get_arg_by_name_then_position, get_arg_by_name, get_unnamed_arg_by_position in H.
  rewrite Forall_forall in W.
  destruct (find _ args) as [b|] eqn:E.
  - injection H as ->. apply find_some in E. apply (W _ (proj1 E)).
  - apply nth_error_In in H. unfold get_unnamed_args in H. apply filter_In in H. apply (W _ (proj1 H)).
Qed.

(** Where a bare expression may replace a call. *)
Lemma lmin_arg : forall x, arg_level <= lmin x -> 5 <= lmin x.
Proof.
  induction x using expr_ind2; cbn [lmin]; try lia.
  intros H. assert (arg_level <= lbp o /\ arg_level <= lmin x1) as [H1 H2] by lia.
  specialize (IHx1 H2). unfold arg_level in *. destruct o; cbn [lbp] in *; lia.
Qed.
Lemma fits_bare : forall fs x, wf true x /\ arg_level <= lmin x -> (enclosed fs = true \/ breaks x = false) ->
  (primary x = true \/ free_left (left_op fs) = true /\ right_op fs = None) -> fits fs x.
Proof.
  intros fs x [W L] B [Hp|[HL HR]].
  - apply fits_primary; auto. apply wf_enclosed; auto.
  - split; [apply wf_enclosed; auto|]. rewrite HR. split; [|exact I].
    apply lmin_arg in L. destruct (left_op fs) as [[[]|u| ]|]; cbn in *; try discriminate; unfold arg_level; lia.
Qed.

Lemma conditional_formals : forall n fs, conditional n fs ->
  exists a b c, fs = [a; b; c] /\ ifelse_formals n = Some (a, b, c).
Proof. intros n fs []; do 3 eexists; split; reflexivity. Qed.

Lemma redundant_ifelse_core : forall p e r c f args formals x y z,
  node_of_file p e -> redundant_ifelse (frames p) e = Some r -> new_text r = Some c ->
  e = ECall f args -> fname f = Some (get_function_name f) -> conditional (get_function_name f) formals ->
  r_args formals args = Some [Some x; Some y; Some z] ->
  (wf true x /\ arg_level <= lmin x) /\ at_frames r = frames p /\
  (forall I, exists t, (forall l, t (VLgl l) = Some l) /\
     eval I (ECall f args) = ifelse I t (eval I x) (eval I y) (eval I z)) /\
  ((y = EAtom ATrue /\ z = EAtom AFalse /\ c = toks x) \/
     (y = EAtom AFalse /\ z = EAtom ATrue /\ c = toks (EUn UNot (EParen x)))).
Proof.
  intros p e r c f args formals x y z H Hr Hc He Hf HC HM.
  destruct (redundant_ifelse_shape _ _ _ _ Hr Hc) as
    (f' & args' & x' & y' & z' & n1 & n2 & n3 & a & b & d & E & F & L & G1 & G2 & G3 & A1 & A2 & K).
  rewrite He in E. injection E as <- <-.
  destruct (conditional_formals _ _ HC) as (a' & b' & d' & -> & F'). rewrite F in F'. injection F' as <- <- <-.
  pose proof (formals_distinct _ _ _ _ F) as (D1 & D2 & D3).
  pose proof (r_args_found a b d D1 D2 D3 args _ _ _ _ _ _ L G1 G2 G3) as M. rewrite HM in M. injection M as <- <- <-.
  pose proof (node_wf _ _ H) as W. rewrite He in W. cbn [wf] in W. destruct W as (_ & _ & _ & W).
  apply wf_args_Forall in W.
  split; [eapply arg_wf; eauto|]. split; [exact A1|]. split; [|exact K].
  intros I. eapply eval_ifelse; eauto. apply match3_r; auto.
Qed.

Lemma redundant_ifelse_harmless : forall p e r f args formals x,
  node_of_file p e -> redundant_ifelse (frames p) e = Some r ->
  e = ECall f args -> fname f = Some (get_function_name f) -> conditional (get_function_name f) formals ->
  assigned (frames p) = false -> callee (frames p) = false -> pipe_target (frames p) = false ->
  r_args formals args = Some [Some x; Some (EAtom ATrue); Some (EAtom AFalse)] ->
  enclosed (frames p) = true \/ breaks x = false ->
  primary x = true \/ free_left (left_op (frames p)) = true /\ right_op (frames p) = None ->
  fix_both (fun I => yields I x logical) p e r.
Proof.
  intros p e r f args formals x H Hr He Hf HC HA HCa HP HM HB HN c Hc.
  destruct (redundant_ifelse_core _ _ _ _ _ _ _ _ _ _ H Hr Hc He Hf HC HM) as (Wx & A & M & K).
  destruct K as [(_ & _ & ->)|(E & _)]; [|discriminate]. revert Hc.
  generalize (eq_refl (Some (toks x))). intros _ Hc.
  refine (harmless_here (fun I => yields I x logical) p e r x H A (at_same _ _ _ (place_redundant_ifelse _ _ _ Hr) A) Hc _ _ _ Hc).
  - apply fits_bare; auto.
  - intros I HI. apply eqv_value; auto. subst e. destruct (M I) as (t & Ht & Et). rewrite Et.
    apply ifelse_true_false; auto.
Qed.
Lemma redundant_ifelse_not_harmless : forall p e r f args formals x,
  node_of_file p e -> redundant_ifelse (frames p) e = Some r ->
  e = ECall f args -> fname f = Some (get_function_name f) -> conditional (get_function_name f) formals ->
  assigned (frames p) = false -> pipe_target (frames p) = false ->
  r_args formals args = Some [Some x; Some (EAtom AFalse); Some (EAtom ATrue)] ->
  loose_right (right_op (frames p)) = true ->
  fix_both (fun I => yields I x logical) p e r.
Proof.
  intros p e r f args formals x H Hr He Hf HC HA HP HM HR c Hc.
  destruct (redundant_ifelse_core _ _ _ _ _ _ _ _ _ _ H Hr Hc He Hf HC HM) as (Wx & A & M & K).
  destruct K as [(E & _)|(_ & _ & ->)]; [discriminate|].
  refine (harmless_here (fun I => yields I x logical) p e r (EUn UNot (EParen x)) H A (at_same _ _ _ (place_redundant_ifelse _ _ _ Hr) A) Hc _ _ _ Hc).
  - apply fits_not; auto. apply Wx.
  - intros I HI. apply eqv_value; auto using loose_not_callee. subst e. destruct (M I) as (t & Ht & Et). rewrite Et.
    apply ifelse_false_true; auto.
Qed.

(** ** redundant_equals *)
Lemma map_nth_seq : forall {A} (l : list A) d, map (fun k => nth k l d) (seq 0 (length l)) = l.
Proof.
  intros A l d. apply nth_ext with (d := d) (d' := d).
  - rewrite map_length, seq_length. reflexivity.
  - intros n Hn. rewrite map_length, seq_length in Hn.
    rewrite nth_indep with (d' := nth 0 l d) by (rewrite map_length, seq_length; exact Hn).
    rewrite (map_nth (fun k => nth k l d)). rewrite seq_nth by exact Hn. reflexivity.
Qed.
Lemma recycle_one_r : forall {A B C} (f : option A -> option B -> C) l b,
  recycle f l [b] = map (fun a => f a b) l.
Proof.
  intros A B C f l b. unfold recycle. destruct l as [|a l]; [reflexivity|].
  set (L := a :: l). assert (E : Nat.max (length L) (length [b]) = length L) by (cbn; lia). rewrite E.
  transitivity (map (fun a => f a b) (map (fun k => nth k L None) (seq 0 (length L)))); [|rewrite map_nth_seq; reflexivity].
  rewrite map_map. apply map_ext_in.
  intros k Hk. apply in_seq in Hk. rewrite Nat.mod_small by lia.
  cbn [length]. rewrite Nat.mod_1_r. reflexivity.
Qed.
Lemma recycle_one_l : forall {A B C} (f : option A -> option B -> C) a l,
  recycle f [a] l = map (fun b => f a b) l.
Proof.
  intros A B C f a l. unfold recycle. destruct l as [|b l]; [reflexivity|].
  set (L := b :: l). assert (E : Nat.max (length [a]) (length L) = length L) by (cbn; lia). rewrite E.
  transitivity (map (fun b => f a b) (map (fun k => nth k L None) (seq 0 (length L)))); [|rewrite map_nth_seq; reflexivity].
  rewrite map_map. apply map_ext_in.
  intros k Hk. apply in_seq in Hk. cbn [length]. rewrite Nat.mod_1_r, Nat.mod_small by (cbn [length] in *; lia).
  reflexivity.
Qed.

Lemma eq_true_r : forall I l, compare I CEq (VLgl l) (VLgl [Some true]) = Some (VLgl l).
Proof.
  intros I l. unfold compare. cbn [to_num map option_map]. rewrite recycle_one_r, map_map.
  f_equal. f_equal. transitivity (map (fun x => x) l); [|apply map_id]. apply map_ext.
  intros [b|]; cbn [option_map ncompare]; [|reflexivity]. unfold bnum. rewrite !nnat_num, nnat_cmp.
  destruct b; reflexivity.
Qed.
Lemma eq_sym_lgl : forall I c l r, (c = CEq \/ c = CNe) ->
  compare I c (VLgl l) (VLgl r) = compare I c (VLgl r) (VLgl l).
Proof.
  intros I c l r Hc. unfold compare. cbn [to_num].
  assert (S : forall a b : option bool, ncompare I c (option_map (bnum I) a) (option_map (bnum I) b) =
                          ncompare I c (option_map (bnum I) b) (option_map (bnum I) a)).
  { intros [a|] [b|]; cbn [option_map ncompare]; auto. unfold bnum. rewrite !nnat_num, !nnat_cmp.
    destruct Hc as [ -> | -> ]; destruct a, b; reflexivity. }
  f_equal. f_equal. unfold recycle. destruct l as [|a l]; [destruct r; reflexivity|].
  destruct r as [|b r]; [reflexivity|]. cbn [map].
  change (option_map (bnum I) a :: map (option_map (bnum I)) l) with (map (option_map (bnum I)) (a :: l)).
  change (option_map (bnum I) b :: map (option_map (bnum I)) r) with (map (option_map (bnum I)) (b :: r)).
  rewrite Nat.max_comm. apply map_ext. intros k. rewrite !map_length.
  change (@None (num I)) with (option_map (bnum I) None). rewrite !map_nth. apply S.
Qed.
Lemma cmp_lit : forall I l (b : bool),
  compare I CEq (VLgl l) (VLgl [Some b]) = (if b then Some (VLgl l) else vnot I (VLgl l)) /\
  compare I CNe (VLgl l) (VLgl [Some b]) = (if b then vnot I (VLgl l) else Some (VLgl l)).
Proof.
  intros I l b.
  assert (E : forall c, compare I c (VLgl l) (VLgl [Some b]) =
    Some (VLgl (map (fun x => option_map (fun y => test c (Nat.compare (if y : bool then 1 else 0) (if b then 1 else 0))) x) l))).
  { intros c. unfold compare. cbn [to_num map option_map]. rewrite recycle_one_r, map_map.
    f_equal. f_equal. apply map_ext. intros [y|]; cbn [option_map ncompare]; [|reflexivity].
    unfold bnum. rewrite !nnat_num, nnat_cmp. reflexivity. }
  rewrite !E. split.
  - destruct b; cbn [vnot].
    + f_equal. f_equal. transitivity (map (fun x => x) l); [|apply map_id]. apply map_ext. intros [[]|]; reflexivity.
    + f_equal. f_equal. apply map_ext. intros [[]|]; reflexivity.
  - destruct b; cbn [vnot].
    + f_equal. f_equal. apply map_ext. intros [[]|]; reflexivity.
    + f_equal. f_equal. transitivity (map (fun x => x) l); [|apply map_id]. apply map_ext. intros [[]|]; reflexivity.
Qed.

(** The operand that is kept, and whether it is negated. *)
Definition kept (c : cmpop) (l r : expr) : option (expr * bool) :=
  match c with
  | CEq | CNe =>
      let eq := match c with CEq => true | _ => false end in
      match l, r with
      | EAtom ATrue, _ => Some (r, negb eq)
      | _, EAtom ATrue => Some (l, negb eq)
      | EAtom AFalse, _ => Some (r, eq)
      | _, EAtom AFalse => Some (l, eq)
      | _, _ => None
      end
  | _ => None
  end.
Definition neg_if (b : bool) (e : expr) : expr := if b then EUn UNot e else e.

Lemma redundant_equals_shape : forall fs e r, redundant_equals fs e = Some r ->
  exists c nl a b x n, e = EBin (BCmp c) nl a b /\ kept c a b = Some (x, n) /\
    at_frames r = fs /\ new_text r = Some (toks (neg_if n x)).
Proof.
  intros fs e r H. destruct e as [| | |o nl a b| | | | | | | | |]; try discriminate.
  destruct o as [| | | | | | | |c| | | | | | | |]; try discriminate. exists c, nl, a, b.
  destruct c; try discriminate; cbn [redundant_equals kept] in *;
    repeat match type of H with
    | match ?x with _ => _ end = _ => destruct x; try discriminate
    end;
    injection H as <-; do 2 eexists; repeat split; reflexivity.
Qed.

Lemma kept_cases : forall c a b x n, kept c a b = Some (x, n) ->
  (c = CEq \/ c = CNe) /\
  exists t : bool, n = (match c with CEq => negb t | _ => t end) /\
    ((x = a /\ b = EAtom (if t then ATrue else AFalse)) \/ (x = b /\ a = EAtom (if t then ATrue else AFalse))).
Proof.
  intros c a b x n H. destruct c; try discriminate; cbn [kept] in H;
    (split; [auto|]);
    repeat match type of H with
    | match ?x with _ => _ end = _ => destruct x; try discriminate
    end;
    injection H as <- <-;
    first [exists true; cbn; split; [reflexivity|]; solve [auto] | exists false; cbn; split; [reflexivity|]; solve [auto]].
Qed.

Lemma redundant_equals_ceq : forall I c nl a b x n, kept c a b = Some (x, n) -> yields I x logical ->
  ceq (eval I (EBin (BCmp c) nl a b)) (eval I (neg_if n x)).
Proof.
  intros I c nl a b x n H Hx s. destruct (kept_cases _ _ _ _ _ H) as (Hc & t & -> & K).
  change (eval I (EBin (BCmp c) nl a b)) with (strict2 I (compare I c) (eval I a) (eval I b)).
  assert (V : forall v s', eval I x s = Some (v, s') -> exists l, v = VLgl l).
  { intros v s' E. specialize (Hx _ _ _ E). destruct v; try contradiction. eauto. }
  assert (E : strict2 I (compare I c) (eval I a) (eval I b) s =
    match eval I x s with
    | Some (v, s') => match compare I c v (VLgl [Some t]) with Some w => Some (w, s') | None => None end
    | None => None end).
  { destruct K as [[ -> -> ]|[ -> -> ]]; unfold strict2, cbind.
    - destruct (eval I a s) as [[v s']|]; auto.
      destruct t; cbn [eval atom_sem cret]; destruct (compare I c v _); reflexivity.
    - destruct t; cbn [eval atom_sem cret];
      (destruct (eval I b s) as [[v s']|] eqn:Eb; auto;
       destruct (V _ _ eq_refl) as [l -> ]; rewrite eq_sym_lgl by auto; destruct (compare I c (VLgl l) _); reflexivity). }
  rewrite E. clear E K.
  destruct (eval I x s) as [[v s']|] eqn:E.
  - destruct (V _ _ eq_refl) as [l -> ]. pose proof (cmp_lit I l t) as [L1 L2].
    destruct Hc as [ -> | -> ]; rewrite ?L1, ?L2; destruct t; cbn [negb neg_if]; try (rewrite E; reflexivity);
      change (eval I (EUn UNot x)) with (strict1 I (vnot I) (eval I x)); unfold strict1, cbind; rewrite E; reflexivity.
  - destruct Hc as [ -> | -> ]; destruct t; cbn [negb neg_if]; try (rewrite E; reflexivity);
      change (eval I (EUn UNot x)) with (strict1 I (vnot I) (eval I x)); unfold strict1, cbind; rewrite E; reflexivity.
Qed.

(** The replacement fits wherever the comparison did. *)
Lemma cmp_left_lmin : forall i c nl a b, wf i (EBin (BCmp c) nl a b) -> 12 <= lmin a.
Proof.
  intros i c nl a b W. cbn [wf] in W. destruct W as (W1 & W2 & W3 & W4 & W5 & _). cbn [lbp] in W3.
  destruct a as [| | |o' nl' l1 l2| | | | | | | | |]; cbn [lmin]; try lia.
  cbn [wf] in W1. destruct W1 as (V1 & V2 & V3 & V4 & V5 & V6).
  cbn [rmin] in W3. assert (H0 : 12 <= lbp o'). { clear - W3. destruct o'; cbn [lbp rbp] in *; lia. }
  clear - V3 V1 H0.
  revert o' V3 H0. induction l1; intros; cbn [lmin]; try lia.
  cbn [wf] in V1. destruct V1 as (V1 & U2 & U3 & U4 & U5 & U6).
  cbn [rmin] in V3. assert (H : 12 <= lbp o). { clear - V3 H0. destruct o; cbn [lbp rbp] in *; lia. }
  specialize (IHl1_1 V1 o U3 H). lia.
Qed.

Lemma operand_fits : forall fs c nl a b x n,
  fits fs (EBin (BCmp c) nl a b) -> kept c a b = Some (x, n) -> fits fs (neg_if n x).
Proof.
  intros fs c nl a b x n (W & L & R) H.
  pose proof (cmp_left_lmin _ _ _ _ _ W) as La. cbn [wf] in W. destruct W as (W1 & W2 & W3 & W4 & W5 & W6).
  cbn [lmin lbp] in L.
  destruct (kept_cases _ _ _ _ _ H) as (_ & t & _ & K).
  assert (Wx : wf (enclosed fs) x) by (destruct K as [[ -> _]|[ -> _]]; auto).
  assert (Lx : 12 <= lmin x) by (destruct K as [[ -> _]|[ -> _]]; auto; cbn [rbp lbp] in W4; lia).
  assert (Rx : match right_op fs with
     | None => True | Some RElse => opens x = false | Some RPost => False
     | Some (ROp o) => lbp o < 12 /\ lbp o < rmin x /\ is_cmp o = false end).
  { change (rmin (EBin (BCmp c) nl a b)) with (Nat.min 13 (rmin b)) in R.
    destruct (right_op fs) as [[o| |]|]; cbn [rfits] in R; auto.
    - destruct R as [R1 R2]. cbn [cmp_top is_cmp] in R2. rewrite Bool.andb_true_r in R2.
      assert (lbp o < 12).
      { change (rmin (EBin (BCmp c) nl a b)) with (Nat.min 13 (rmin b)) in R1.
        assert (lbp o < 13) by lia. clear - H0 R2. destruct o; cbn in *; try lia. }
      split; [lia|]. split; [|exact R2].
      change (rmin (EBin (BCmp c) nl a b)) with (Nat.min 13 (rmin b)) in R1.
      destruct K as [[ -> _]|[ -> _]]; [cbn [lbp] in W3|]; lia.
    - change (rmin (EBin (BCmp c) nl a b)) with (Nat.min 13 (rmin b)) in R. lia.
    - destruct K as [[ -> _]|[ -> _]]; auto.
      destruct (opens a) eqn:E; auto. exfalso. clear - E W3. cbn [lbp] in W3. revert E W3.
      assert (G : forall e, opens e = true -> rmin e = 0).
      { induction e; cbn [opens rmin]; intros; try discriminate; auto; try (rewrite IHe by auto; lia).
        all: rewrite IHe2 by auto; lia. }
      intros E. rewrite G by auto. lia. }
  destruct n; cbn [neg_if].
  - split; [cbn [wf ubp]; split; auto|]. split; [cbn [lmin]; lia|].
    destruct (right_op fs) as [[o| |]|]; cbn [rfits rmin opens ubp cmp_top] in *; auto; [|contradiction].
    split; [lia|apply Bool.andb_false_r].
  - split; [exact Wx|]. split; [lia|].
    destruct (right_op fs) as [[o| |]|]; cbn [rfits] in *; auto; [|contradiction].
    destruct Rx as (R1 & R2 & R3). rewrite R3. auto.
Qed.

Lemma redundant_equals_harmless : forall p e r c nl a b x n,
  node_of_file p e -> redundant_equals (frames p) e = Some r ->
  e = EBin (BCmp c) nl a b -> kept c a b = Some (x, n) ->
  assigned (frames p) = false ->
  fix_both (fun I => yields I x logical) p e r.
Proof.
  intros p e r c nl a b x n H Hr He Hk HA.
  destruct (redundant_equals_shape _ _ _ Hr) as (c' & nl' & a' & b' & x' & n' & E & K & A & T).
  rewrite He in E. injection E as <- <- <- <-. rewrite Hk in K. injection K as <- <-.
  eapply harmless_here with (e' := neg_if n x); eauto using at_same, place_redundant_equals.
  - eapply operand_fits; eauto. rewrite <- He. apply reads_fits. exact H.
  - intros I HI. apply eqv_value; auto.
    + eapply not_callee; eauto. rewrite He. reflexivity.
    + apply reads_fits in H. destruct H as (_ & L & _). rewrite He in L.
      destruct (frames p) as [|[] fs]; auto. destruct o; auto. cbn [left_op lneed rbp lbp lmin] in L. lia.
    + rewrite He. apply redundant_equals_ceq; auto.
Qed.
