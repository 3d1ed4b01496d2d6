(** Fixes that are read as one expression wherever they are put. *)
From Verif Require Import Spec.RGrammar Spec.RWellFormed Spec.RPosition Spec.RSemantics Spec.RFix.
From Verif Require Import Proofs.TextProofs Proofs.RParse Proofs.RParseSound Proofs.RContext Proofs.RCongruence Proofs.LintSyntax Proofs.LintFixes Proofs.LintMore Proofs.LintNested.

Notation unit shape p e r := (reports_a_node p e r /\ fix_is_one_expression shape p r).

Lemma unit_intro : forall (shape : expr -> Prop) p r e0 e',
  node_of_file (fix_place p r) e0 -> new_text r = Some (toks e') -> shape e' -> fits (at_frames r) e' ->
  fix_is_one_expression shape p r.
Proof.
  intros shape p r e0 e' H T S F c Hc. rewrite T in Hc. injection Hc as <-.
  exists e'. split; [reflexivity|]. split; [exact S|].
  apply reads_edited with (e := e0); auto.
Qed.
Lemma place_eta : forall p e f c, mk_place (before p) (at_frames (mk_report (frames p) e f)) (after p) = c -> c = p.
Proof. intros [b fs a] e f c <-. reflexivity. Qed.
Lemma fix_place_here : forall p e c, fix_place p (mk_report (frames p) e c) = p.
Proof. intros [b fs a] e c. reflexivity. Qed.

(** The fix replaces the node that was looked at. *)
Lemma unit_here : forall (shape : expr -> Prop) p e t e',
  node_of_file p e -> t = Some (toks e') -> shape e' -> fits (frames p) e' ->
  unit shape p e (mk_report (frames p) e t).
Proof.
  intros shape p e t e' H -> S F. split.
  - unfold reports_a_node. rewrite fix_place_here. reflexivity.
  - apply unit_intro with (e0 := e) (e' := e'); try rewrite fix_place_here; auto.
Qed.
Lemma unit_call_here : forall p e t n args,
  node_of_file p e -> t = Some (call_text n (args_toks args)) ->
  args <> [(None, None)] -> Forall (fun a : arg => owf (snd a)) args ->
  unit (call_of n) p e (mk_report (frames p) e t).
Proof.
  intros p e t n args H -> A1 A2. apply unit_here with (e' := ECall (EAtom (AId n)) args); auto.
  - exists args. reflexivity.
  - apply fits_primary; [reflexivity|]. apply call_wf; auto.
Qed.

(** *** Rules on a call of a call *)
Lemma nested_unit : forall p e outer inner n c fs' e',
  node_of_file p e ->
  get_nested_functions_content (frames p) e outer inner = Some (c, (fs', e')) ->
  unit (call_of n) p e (mk_report fs' e' (Some (call_text n c))).
Proof.
  intros p e outer inner n c fs' e' H G.
  destruct (nested_args _ _ _ _ _ _ _ H G) as (E & N & args & -> & A1 & A2).
  split.
  - unfold reports_a_node. unfold fix_place. cbn [at_frames at_node].
    rewrite edited_toks, edited_toks in E.
    unfold node_of_file in *. rewrite !edited_toks, E in N. rewrite edited_toks in H.
    eapply reads_det; eauto.
  - eapply unit_intro with (e0 := e') (e' := ECall (EAtom (AId n)) args); eauto.
    + exists args. reflexivity.
    + apply fits_primary; [reflexivity|]. apply call_wf; auto.
Qed.

Lemma any_is_na_unit : forall p e r, node_of_file p e -> any_is_na (frames p) e = Some r ->
  unit (call_of (lit "anyNA")) p e r.
Proof.
  intros p e r H Hr. unfold any_is_na in Hr.
  destruct (get_nested_functions_content _ _ _ _) as [[c [fs' e']]|] eqn:G; [|discriminate].
  injection Hr as <-. eapply nested_unit; eauto.
Qed.
Lemma length_levels_unit : forall p e r, node_of_file p e -> length_levels (frames p) e = Some r ->
  unit (call_of (lit "nlevels")) p e r.
Proof.
  intros p e r H Hr. unfold length_levels in Hr.
  destruct (get_nested_functions_content _ _ _ _) as [[c [fs' e']]|] eqn:G; [|discriminate].
  injection Hr as <-. eapply nested_unit; eauto.
Qed.
Lemma which_grepl_unit : forall p e r, node_of_file p e -> which_grepl (frames p) e = Some r ->
  unit (call_of (lit "grep")) p e r.
Proof.
  intros p e r H Hr. unfold which_grepl in Hr.
  destruct (get_nested_functions_content _ _ _ _) as [[c [fs' e']]|] eqn:G; [|discriminate].
  injection Hr as <-. eapply nested_unit; eauto.
Qed.

(** *** Rules on an operator *)
Lemma call1_args : forall x i, wf i x -> arg_level <= lmin x -> Forall (fun a : arg => owf (snd a)) [(None, Some x)].
Proof. intros x i W L. constructor; [|constructor]. split; [eapply wf_weaken; eauto|exact L]. Qed.
Lemma equality_level : forall i o nl l r b, wf i (EBin o nl l r) -> equality o = Some b ->
  arg_level <= lmin l /\ arg_level <= lmin r.
Proof.
  intros i o nl l r b W E. assert (o <> BEq) by (destruct o; discriminate).
  split; [eapply left_operand_level|eapply right_operand_level]; eauto.
Qed.

Lemma any_is_na_2_unit : forall p e r, node_of_file p e -> any_is_na_2 (frames p) e = Some r ->
  unit (call_of (lit "anyNA")) p e r.
Proof.
  intros p e r H Hr. unfold any_is_na_2 in Hr.
  destruct e as [| | |o nl l x| | | | | | | | |]; try discriminate. destruct o as [| | | | | | | | | | | | |t| | |]; try discriminate.
  destruct (teqb t _); [|discriminate].
  assert (r = mk_report (frames p) (EBin (BSpecial t) nl l x) (Some (call_text (lit "anyNA") (toks x)))) as ->.
  { destruct l as [[]| | | | | | | | | | | |]; destruct x as [[]| | | | | | | | | | | |]; try discriminate; injection Hr as <-; reflexivity. }
  pose proof (node_wf _ _ H) as W.
  apply unit_call_here with (args := [(None, Some x)]); auto; [discriminate|]. eapply call1_args; [apply W|].
  eapply right_operand_level; [exact W|discriminate].
Qed.

(** A negated call fits wherever a comparison does. *)
Lemma not_call_fits : forall p c nl l r n args, node_of_file p (EBin (BCmp c) nl l r) ->
  args <> [(None, None)] -> Forall (fun a : arg => owf (snd a)) args ->
  fits (frames p) (EUn UNot (ECall (EAtom (AId n)) args)).
Proof.
  intros p c nl l r n args H A1 A2. apply reads_fits in H. destruct H as (W & L & R).
  apply fits_not; [reflexivity|apply call_wf; auto|].
  change (rmin (EBin (BCmp c) nl l r)) with (Nat.min 13 (rmin r)) in R.
  destruct (right_op (frames p)) as [[o| |]|]; cbn [rfits] in R; auto.
  - change (rmin (EBin (BCmp c) nl l r)) with (Nat.min 13 (rmin r)) in R.
    destruct R as [R1 R2]. cbn [cmp_top is_cmp] in R2. rewrite Bool.andb_true_r in R2.
    assert (lbp o < 13) by lia. clear - H R2. destruct o; cbn in *; try reflexivity; try lia; discriminate.
  - change (rmin (EBin (BCmp c) nl l r)) with (Nat.min 13 (rmin r)) in R. lia.
Qed.

Lemma equality_unit : forall p o nl l r b n args, node_of_file p (EBin o nl l r) -> equality o = Some b ->
  args <> [(None, None)] -> Forall (fun a : arg => owf (snd a)) args ->
  unit (if b then call_of n else not_call_of n) p (EBin o nl l r)
       (mk_report (frames p) (EBin o nl l r) (Some (maybe_not b (call_text n (args_toks args))))).
Proof.
  intros p o nl l r b n args H E A1 A2. destruct b; cbn [maybe_not].
  - eapply unit_call_here; eauto.
  - assert (Hn : o = BCmp CNe).
    { destruct o as [| | | | | | | |c| | | | |t| | |]; try discriminate; [destruct c; try discriminate; reflexivity|].
      cbn in E. destruct (teqb _ _); discriminate. }
    subst o. apply unit_here with (e' := EUn UNot (ECall (EAtom (AId n)) args)); auto.
    + exists args. reflexivity.
    + eapply not_call_fits; eauto.
Qed.

Lemma equals_na_unit : forall p e r, node_of_file p e -> equals_na (frames p) e = Some r ->
  unit (fun e' => call_of (lit "is.na") e' \/ not_call_of (lit "is.na") e') p e r.
Proof.
  intros p e r H Hr. unfold equals_na in Hr.
  destruct e as [| | |o nl a b| | | | | | | | |]; try discriminate.
  destruct (equality o) as [t|] eqn:E; [|discriminate].
  destruct (_ && _); [discriminate|]. destruct (Bool.eqb _ _); [discriminate|]. injection Hr as <-.
  pose proof (node_wf _ _ H) as W. pose proof (equality_level _ _ _ _ _ _ W E) as L.
  cbn [wf] in W. destruct W as (W1 & W2 & _).
  destruct (equality_unit p o nl a b t (lit "is.na") [(None, Some (if is_na_text a then b else a))] H E) as [U1 U2].
  - discriminate.
  - destruct (is_na_text a); eapply call1_args; eauto; apply L.
  - split; [exact U1|]. intros c Hc. destruct (U2 c Hc) as (e' & K1 & K2 & K3).
    exists e'. repeat split; auto. destruct t; auto.
Qed.
Lemma equals_null_unit : forall p e r, node_of_file p e -> equals_null (frames p) e = Some r ->
  unit (fun e' => call_of (lit "is.null") e' \/ not_call_of (lit "is.null") e') p e r.
Proof.
  intros p e r H Hr. unfold equals_null in Hr.
  destruct e as [| | |o nl a b| | | | | | | | |]; try discriminate.
  destruct (equality o) as [t|] eqn:E; [|discriminate].
  destruct (Bool.eqb _ _); [discriminate|]. injection Hr as <-.
  pose proof (node_wf _ _ H) as W. pose proof (equality_level _ _ _ _ _ _ W E) as L.
  cbn [wf] in W. destruct W as (W1 & W2 & _).
  destruct (equality_unit p o nl a b t (lit "is.null") [(None, Some (if is_null_lit a then b else a))] H E) as [U1 U2].
  - discriminate.
  - destruct (is_null_lit a); eapply call1_args; eauto; apply L.
  - split; [exact U1|]. intros c Hc. destruct (U2 c Hc) as (e' & K1 & K2 & K3).
    exists e'. repeat split; auto. destruct t; auto.
Qed.

(** *** class() == "..." *)
Lemma nth_error_owf : forall (args : list arg) i a, Forall (fun a : arg => owf (snd a)) args ->
  nth_error args i = Some a -> owf (snd a).
Proof. intros args i a H E. rewrite Forall_forall in H. apply H. eapply nth_error_In; eauto. Qed.

Lemma extract_args : forall i l r x c, wf i l -> wf i r ->
  extract_class_and_string l r = Some (x, c) ->
  exists args, x ++ TComma :: c = args_toks args /\ args <> [(None, None)] /\
    Forall (fun a : arg => owf (snd a)) args.
Proof.
  intros i l r x c Wl Wr H. unfold extract_class_and_string in H.
  assert (K : forall k s, is_class_call k = true -> is_string s = true -> wf i k ->
     option_map (fun c => (c, toks s)) (first_arg_text k) = Some (x, c) ->
     exists args, x ++ TComma :: c = args_toks args /\ args <> [(None, None)] /\
       Forall (fun a : arg => owf (snd a)) args).
  { intros k s Hk Hs Wk E. destruct k as [| | | |f args| | | | | | | |]; try discriminate.
    cbn [first_arg_text] in E. destruct (get_arg_by_position args 1) as [a|] eqn:G; [|discriminate].
    cbn [option_map] in E. injection E as <- <-.
    destruct s as [[]| | | | | | | | | | | |]; try discriminate.
    exists [a; (None, Some (EAtom (AStr t)))]. split; [reflexivity|]. split; [discriminate|].
    cbn [wf] in Wk. destruct Wk as (_ & _ & _ & W4). apply wf_args_Forall in W4.
    constructor; [|constructor; [split; [exact Logic.I|cbn; unfold arg_level; lia]|constructor]].
    eapply nth_error_owf; eauto. }
  destruct (is_class_call l && is_string r) eqn:E1.
  - apply andb_prop in E1. destruct E1. eapply K; eauto.
  - destruct (is_string l && is_class_call r) eqn:E2; [|discriminate].
    apply andb_prop in E2. destruct E2. eapply K; eauto.
Qed.

Lemma class_equals_unit : forall p e r, node_of_file p e -> class_equals (frames p) e = Some r ->
  unit (fun e' => call_of (lit "inherits") e' \/ not_call_of (lit "inherits") e') p e r.
Proof.
  intros p e r H Hr. unfold class_equals in Hr.
  destruct e as [| | |o nl a b| | | | | | | | |]; try discriminate.
  destruct (equality o) as [t|] eqn:E; [|discriminate].
  destruct (parent_is_condition _); [|discriminate].
  destruct (extract_class_and_string a b) as [[x c]|] eqn:X; [|discriminate]. injection Hr as <-.
  pose proof (node_wf _ _ H) as W. cbn [wf] in W. destruct W as (W1 & W2 & _).
  destruct (extract_args _ _ _ _ _ W1 W2 X) as (args & -> & A1 & A2).
  destruct (equality_unit p o nl a b t (lit "inherits") args H E A1 A2) as [U1 U2].
  split; [exact U1|]. intros k Hk. destruct (U2 k Hk) as (e' & K1 & K2 & K3).
  exists e'. repeat split; auto. destruct t; auto.
Qed.

Lemma get_value_wf : forall i f args k n v, wf i (ECall f args) ->
  get_arg_by_position args k = Some (n, Some v) -> wf true v /\ arg_level <= lmin v.
Proof.
  intros i f args k n v W E. cbn [wf] in W. destruct W as (_ & _ & _ & W). apply wf_args_Forall in W.
  apply (nth_error_owf _ _ _ W E).
Qed.

Lemma class_identical_unit : forall p e r, node_of_file p e -> class_identical (frames p) e = Some r ->
  unit (call_of (lit "inherits")) p e r.
Proof.
  intros p e r H Hr. unfold class_identical in Hr.
  destruct e as [| | | |f args| | | | | | | |]; try discriminate.
  destruct (teqb _ _); [|discriminate].
  destruct (get_arg_by_position args 1) as [[n1 [a|]]|] eqn:G1; try discriminate.
  destruct (get_arg_by_position args 2) as [[n2 [b|]]|] eqn:G2; try discriminate.
  destruct (extract_class_and_string a b) as [[x c]|] eqn:X; [|discriminate]. injection Hr as <-.
  pose proof (node_wf _ _ H) as W.
  destruct (extract_args true _ _ _ _ (proj1 (get_value_wf _ _ _ _ _ _ W G1)) (proj1 (get_value_wf _ _ _ _ _ _ W G2)) X)
    as (args' & -> & A1 & A2).
  eapply unit_call_here; eauto.
Qed.

(** *** seq, seq2, sort *)
Lemma seq_unit_aux : forall p e f args, node_of_file p e ->
  args <> [(None, None)] -> Forall (fun a : arg => owf (snd a)) args ->
  unit (fun e' => call_of (lit "seq_along") e' \/ call_of (lit "seq_len") e') p e
       (mk_report (frames p) e (Some (seq_text f (args_toks args)))).
Proof.
  intros p e f args H A1 A2. unfold seq_text. destruct (teqb f (lit "length")).
  - destruct (unit_call_here p e _ (lit "seq_along") args H eq_refl A1 A2) as [U1 U2].
    split; [exact U1|]. intros k Hk. destruct (U2 k Hk) as (e' & K1 & K2 & K3). exists e'. auto.
  - rewrite <- toks_call.
    destruct (unit_call_here p e _ (lit "seq_len") [(None, Some (ECall (EAtom (AId f)) args))] H eq_refl) as [U1 U2].
    + discriminate.
    + apply call1_args with (i := true); [apply call_wf; auto|apply primary_level; reflexivity].
    + split; [exact U1|]. intros k Hk. destruct (U2 k Hk) as (e' & K1 & K2 & K3). exists e'. auto.
Qed.
Lemma call_args : forall i f args, wf i (ECall f args) ->
  args <> [(None, None)] /\ Forall (fun a : arg => owf (snd a)) args.
Proof. intros i f args W. cbn [wf] in W. destruct W as (_ & _ & W3 & W4). split; auto. apply wf_args_Forall. auto. Qed.

Lemma seq_rule_unit : forall p e r, node_of_file p e -> seq_rule (frames p) e = Some r ->
  unit (fun e' => call_of (lit "seq_along") e' \/ call_of (lit "seq_len") e') p e r.
Proof.
  intros p e r H Hr. unfold seq_rule in Hr.
  destruct e as [| | |o nl a b| | | | | | | | |]; try discriminate. destruct o; try discriminate.
  destruct b as [| | | |f args| | | | | | | |]; try discriminate.
  destruct (_ && _); [|discriminate]. injection Hr as <-.
  pose proof (node_wf _ _ H) as W. cbn [wf] in W. destruct W as (_ & W2 & _).
  destruct (call_args _ _ _ W2). apply seq_unit_aux; auto.
Qed.
Lemma seq2_rule_unit : forall p e r, node_of_file p e -> seq2_rule (frames p) e = Some r ->
  unit (fun e' => call_of (lit "seq_along") e' \/ call_of (lit "seq_len") e') p e r.
Proof.
  intros p e r H Hr. unfold seq2_rule in Hr.
  destruct e as [| | | |f args| | | | | | | |]; try discriminate.
  destruct args as [|[[?|] [v|]] [|? ?]]; try discriminate; try (destruct v; discriminate).
  destruct v as [| | | |g gargs| | | | | | | |]; try discriminate.
  destruct (_ && _); [|discriminate]. injection Hr as <-.
  pose proof (node_wf _ _ H) as W. cbn [wf fold_right snd] in W. destruct W as (_ & _ & _ & (W4 & _) & _).
  destruct (call_args true g gargs W4). apply seq_unit_aux; auto.
Qed.

Lemma find_owf : forall f (args : list arg) a, Forall (fun a : arg => owf (snd a)) args ->
  find f args = Some a -> owf (snd a).
Proof. intros f args a H E. apply find_some in E. rewrite Forall_forall in H. apply H. apply E. Qed.

Lemma sort_rule_unit : forall p e r, node_of_file p e -> sort_rule (frames p) e = Some r ->
  unit (call_of (lit "sort")) p e r.
Proof.
  intros p e r H Hr. unfold sort_rule in Hr.
  destruct e as [| | | | |d x args| | | | | | |]; try discriminate.
  destruct d; [discriminate|]. destruct args as [|[[?|] [v|]] [|? ?]]; try discriminate; try (destruct v; discriminate).
  destruct v as [| | | |f args| | | | | | | |]; try discriminate.
  destruct (teqb _ _); [|discriminate].
  destruct (get_unnamed_args args) as [|v [|? ?]]; try discriminate.
  destruct (same_text _ _); [|discriminate]. injection Hr as <-.
  pose proof (node_wf _ _ H) as W. cbn [wf] in W. destruct W as (W1 & P1 & _ & W4).
  apply wf_args_Forall in W4. inversion W4 as [|? ? K _]; subst. cbn [snd] in K. destruct K as [K _].
  destruct (call_args _ _ _ K) as [_ A2].
  apply unit_call_here with (args := (None, Some x) ::
    flat_map (fun n => match get_arg_by_name args n with Some a => [a] | None => [] end)
      [lit "na.last"; lit "decreasing"; lit "method"]); auto.
  - assert (M : forall ns, flat_map (fun n => match get_arg_by_name args n with Some a => [arg_toks a] | None => [] end) ns =
       map arg_toks (flat_map (fun n => match get_arg_by_name args n with Some a => [a] | None => [] end) ns)).
    { induction ns as [|n ns IH]; [reflexivity|]. cbn [flat_map]. rewrite map_app, IH.
      destruct (get_arg_by_name args n); reflexivity. }
    transitivity (Some (call_text (lit "sort") (sep [TComma] (toks x ::
      flat_map (fun n => match get_arg_by_name args n with Some a => [arg_toks a] | None => [] end)
        [lit "na.last"; lit "decreasing"; lit "method"])))); [reflexivity|].
    rewrite M. reflexivity.
  - destruct (flat_map _ _); discriminate.
  - constructor; [split; [eapply wf_weaken; eauto|apply primary_level; exact P1]|].
    apply Forall_forall. intros a Ha. apply in_flat_map in Ha. destruct Ha as (n & _ & Ha).
    destruct (get_arg_by_name args n) as [b|] eqn:G; [|destruct Ha]. destruct Ha as [ <- |[]].
    eapply find_owf; eauto.
Qed.

(** *** all_equal *)
Lemma weaken_unit : forall (S T : expr -> Prop) p e r, (forall x, S x -> T x) -> unit S p e r -> unit T p e r.
Proof.
  intros S T p e r H [U1 U2]. split; [exact U1|]. intros k Hk. destruct (U2 k Hk) as (e' & K1 & K2 & K3).
  exists e'. auto.
Qed.

(** The fix replaces the parent. *)
Lemma unit_parent : forall (shape : expr -> Prop) p e f fs t e',
  node_of_file p e -> frames p = f :: fs -> t = Some (toks e') -> shape e' -> fits fs e' ->
  unit shape p e (mk_report fs (fill f e) t).
Proof.
  intros shape [b fs0 a] e f fs t e' H E -> S F. cbn [frames] in E. subst fs0. split.
  - reflexivity.
  - apply unit_intro with (e0 := fill f e) (e' := e'); auto. apply (lift_node _ _ _ _ _ H).
Qed.

Lemma all_equal_unit : forall p e r, node_of_file p e -> all_equal (frames p) e = Some r ->
  loose_right (right_op (at_frames r)) = true \/
  get_nested_functions_content (frames p) e (lit "isFALSE") (lit "all.equal") = None ->
  unit (fun e' => call_of (lit "isTRUE") e' \/ not_call_of (lit "isTRUE") e') p e r.
Proof.
  intros p e r H Hr C. unfold all_equal in Hr.
  destruct (get_nested_functions_content _ _ _ _) as [[c [fs' e']]|] eqn:G.
  - destruct C as [C|C]; [|discriminate]. injection Hr as <-. cbn [at_frames] in C.
    destruct (nested_args _ _ _ _ _ _ _ H G) as (E & N & args & -> & A1 & A2).
    destruct (nested_unit _ _ _ _ (lit "isTRUE") _ _ _ H G) as [U1 _].
    split; [exact U1|].
    eapply unit_intro with (e0 := e') (e' := EUn UNot (ECall (EAtom (AId (lit "isTRUE")))
       [(None, Some (ECall (EAtom (AId (lit "all.equal"))) args))])); eauto.
    + right. eexists. reflexivity.
    + apply fits_not; [reflexivity| |exact C]. apply call1_wf; [apply call_wf; auto|apply primary_level; reflexivity].
  - clear C. destruct e as [| | | |f args| | | | | | | |]; try discriminate.
    destruct (teqb _ _); [|discriminate].
    pose proof (node_wf _ _ H) as W. apply wf_weaken in W.
    destruct (parent_is_bang_unary (frames p)) eqn:B.
    + destruct (frames p) as [|f0 fs] eqn:Fr; [discriminate|]. destruct f0 as [|u| | | | | | | | | | | | | | | | | | ]; try discriminate.
      assert (u = UNot) as -> by (destruct u; cbn in B; try discriminate; reflexivity).
      injection Hr as <-.
      eapply (unit_parent _ p (ECall f args) (FUn UNot) fs) with
        (e' := EUn UNot (ECall (EAtom (AId (lit "isTRUE"))) [(None, Some (ECall f args))])); auto.
      * right. eexists. reflexivity.
      * apply fits_not; [reflexivity|apply call1_wf; [exact W|apply primary_level; reflexivity]|].
        assert (F : fits fs (EUn UNot (ECall f args))).
        { destruct p as [b fs0 a]. cbn [frames] in Fr. subst fs0. exact (reads_fits _ _ (lift_node _ _ _ _ _ H)). }
        apply (fits_not fs (ECall f args)); auto. apply F.
    + destruct (parent_is_condition (frames p)); [|discriminate]. injection Hr as <-.
      apply weaken_unit with (S := call_of (lit "isTRUE")); [auto|].
      apply unit_call_here with (args := [(None, Some (ECall f args))]);
        [exact H|reflexivity|discriminate|eapply call1_args; [exact W|apply primary_level; reflexivity]].
Qed.

(** *** repeat *)
Lemma repeat_unit : forall p e r c b, node_of_file p e -> repeat_loop (frames p) e = Some r ->
  e = EWhile c b -> breaks b = false ->
  unit (fun e' => e' = ERepeat b \/ e' = ERepeat (EBraces [b])) p e r.
Proof.
  intros p e r c b H Hr -> Bb. cbn [repeat_loop] in Hr. destruct c as [[]| | | | | | | | | | | |]; try discriminate.
  injection Hr as <-. pose proof (reads_fits _ _ H) as (W & L & R). cbn [wf lmin] in W, L.
  destruct W as [_ Wb].
  set (b' := match b with EBraces _ => b | _ => EBraces [b] end).
  assert (Wb' : wf (enclosed (frames p)) b').
  { assert (wf false b) by (apply wf_unbroken; [eapply wf_weaken; eauto|exact Bb]).
    unfold b'. destruct b; try (cbn [wf fold_right]; split; [assumption|exact Logic.I]). exact Wb. }
  assert (Ob' : opens b' = false) by (unfold b'; destruct b; reflexivity).
  apply unit_here with (e' := ERepeat b'); auto.
  - f_equal. unfold b'. destruct b; reflexivity.
  - unfold b'. destruct b; auto.
  - split; [exact Wb'|]. split; [exact L|].
    destruct (right_op (frames p)) as [[o| |]|]; cbn [rfits rmin opens] in *; auto; lia.
Qed.
Lemma repeat_braces_unit : forall p e r c es, node_of_file p e -> repeat_loop (frames p) e = Some r ->
  e = EWhile c (EBraces es) -> unit (fun e' => e' = ERepeat (EBraces es)) p e r.
Proof.
  intros p e r c es H Hr He. pose proof (repeat_unit p e r c (EBraces es) H Hr He eq_refl) as [U1 U2].
  split; [exact U1|]. rewrite He in *. cbn [repeat_loop] in Hr.
  destruct c as [[]| | | | | | | | | | | |]; try discriminate. injection Hr as <-.
  intros k Hk. destruct (U2 k Hk) as (e' & K1 & K2 & K3). exists e'. repeat split; auto.
  destruct K2 as [K2|K2]; auto. cbn [new_text] in Hk. injection Hk as <-. subst e'. cbn [toks map sep] in K1.
  exfalso. injection K1 as K1.
  apply (f_equal (@length tok)) in K1. cbn [length] in K1. rewrite !app_length in K1. cbn [length] in K1. lia.
Qed.

(** *** lengths, sample_int, grepv, system_file *)
Lemma some_inj : forall A (x y : A), Some x = Some y -> y = x.
Proof. congruence. Qed.
Lemma ok_inj : forall A (x y : A), ROk x = ROk y -> x = y.
Proof. congruence. Qed.
Lemma filter_owf : forall f (args : list arg), Forall (fun a : arg => owf (snd a)) args ->
  Forall (fun a : arg => owf (snd a)) (filter f args).
Proof.
  intros f args H. rewrite Forall_forall in *. intros a Ha. apply filter_In in Ha. apply H. apply Ha.
Qed.
Lemma by_name_then_position_owf : forall (args : list arg) n k a, Forall (fun a : arg => owf (snd a)) args ->
  get_arg_by_name_then_position args n k = Some a -> owf (snd a).
Proof.
  intros args n k a H E. unfold get_arg_by_name_then_position in E.
  destruct (get_arg_by_name args n) eqn:G.
  - injection E as <-. eapply find_owf; eauto.
  - apply (nth_error_owf _ _ _ (filter_owf _ _ H) E).
Qed.
Lemma dropped_owf : forall (args more : list arg) n k, Forall (fun a : arg => owf (snd a)) args ->
  drop_arg_by_name_or_position args n k = Some more -> Forall (fun a : arg => owf (snd a)) more.
Proof.
  intros args more n k H E. unfold drop_arg_by_name_or_position in E.
  destruct (existsb _ _).
  - injection E as <-. apply filter_owf. exact H.
  - destruct (_ =? _); [discriminate|]. injection E as <-. rewrite Forall_forall in *.
    intros a Ha. apply H. apply in_app_or in Ha. destruct Ha as [Ha|Ha].
    + rewrite <- (firstn_skipn (k - 1) args). apply in_or_app. auto.
    + rewrite <- (firstn_skipn k args). apply in_or_app. auto.
Qed.

(** The text of an argument list, read as one: a single empty argument is no
    argument. *)
Definition as_args (l : list arg) : list arg := match l with [(None, None)] => [] | _ => l end.
Lemma as_args_ok : forall l, Forall (fun a : arg => owf (snd a)) l ->
  args_toks l = args_toks (as_args l) /\ as_args l <> [(None, None)] /\
  Forall (fun a : arg => owf (snd a)) (as_args l).
Proof.
  intros [|[[?|] [?|]] [|? ?]] H; cbn [as_args]; repeat split; auto; discriminate.
Qed.
Lemma unit_call_text : forall p e t n l,
  node_of_file p e -> t = Some (call_text n (args_toks l)) ->
  Forall (fun a : arg => owf (snd a)) l ->
  unit (call_of n) p e (mk_report (frames p) e t).
Proof.
  intros p e t n l H -> A. destruct (as_args_ok l A) as (E & A1 & A2). rewrite E.
  eapply unit_call_here; eauto.
Qed.

Lemma lengths_unit : forall p e r, node_of_file p e -> lengths_rule (frames p) e = ROk (Some r) ->
  unit (call_of (lit "lengths")) p e r.
Proof.
  intros p e r H Hr. unfold lengths_rule in Hr.
  destruct e as [| | | |f args| | | | | | | |]; try discriminate.
  destruct (negb _); [discriminate|].
  destruct (get_arg_by_name_then_position args (lit "FUN") 2) as [[n [g|]]|]; try discriminate.
  destruct (same_text _ _); [|discriminate].
  destruct (get_arg_by_name_then_position args (lit "x") 1) as [a|] eqn:G; try discriminate.
  apply ok_inj, some_inj in Hr; subst r. destruct (call_args _ _ _ (node_wf _ _ H)) as [_ A].
  apply unit_call_text with (l := [a]); auto.
  constructor; [|constructor]. eapply by_name_then_position_owf; eauto.
Qed.

Lemma grepv_unit : forall p e r, node_of_file p e -> grepv (frames p) e = Some r ->
  unit (call_of (lit "grepv")) p e r.
Proof.
  intros p e r H Hr. unfold grepv in Hr.
  destruct e as [| | | |f args| | | | | | | |]; try discriminate.
  destruct (_ && _); [|discriminate]. apply some_inj in Hr; subst r.
  destruct (call_args _ _ _ (node_wf _ _ H)) as [_ A].
  destruct (drop_arg_by_name_or_position args (lit "value") 5) as [more|] eqn:D.
  - apply unit_call_text with (l := more); auto. eapply dropped_owf; eauto.
  - apply unit_call_text with (l := []); auto.
Qed.

Lemma sample_int_unit : forall p e r, node_of_file p e -> sample_int (frames p) e = ROk (Some r) ->
  unit (call_of (lit "sample.int")) p e r.
Proof.
  intros p e r H Hr. unfold sample_int in Hr.
  destruct e as [| | | |f args| | | | | | | |]; try discriminate.
  destruct (negb _); [discriminate|].
  destruct (call_args _ _ _ (node_wf _ _ H)) as [_ A].
  destruct (get_arg_by_name_then_position args (lit "n") 1) as [[n [v|]]|] eqn:G; try discriminate.
  apply (by_name_then_position_owf _ _ _ _ A) in G. cbn [snd owf] in G.
  destruct v as [| | |o nl a b| | | | | | | | |]; try discriminate.
  destruct (negb _); [discriminate|]. destruct o; try discriminate. apply ok_inj, some_inj in Hr; subst r.
  destruct G as [G _].
  assert (Wb : wf true b /\ arg_level <= lmin b).
  { split; [apply G|]. eapply right_operand_level; [exact G|discriminate]. }
  destruct (drop_arg_by_name_or_position args (lit "n") 1) as [more|] eqn:D.
  - apply unit_call_text with (l := (None, Some b) :: match more with [] => [(None, None)] | _ => more end); auto.
    + destruct more; reflexivity.
    + constructor; [exact Wb|]. apply (dropped_owf _ _ _ _ A) in D.
      destruct more; auto. constructor; [exact Logic.I|constructor].
  - apply unit_call_text with (l := [(None, Some b)]); auto.
Qed.

Lemma sep_app_args : forall a b, a <> [] ->
  args_toks a ++ TComma :: args_toks b = args_toks (a ++ match b with [] => [(None, None)] | _ => b end).
Proof.
  unfold args_toks. induction a as [|x a IH]; intros b Ha; [congruence|].
  destruct a as [|y a].
  - destruct b; reflexivity.
  - specialize (IH b ltac:(discriminate)). cbn [map app] in *.
    change (sep [TComma] (arg_toks x :: arg_toks y :: map arg_toks a)) with
      (arg_toks x ++ [TComma] ++ sep [TComma] (arg_toks y :: map arg_toks a)).
    rewrite <- !app_assoc. rewrite IH. reflexivity.
Qed.
Lemma system_file_unit : forall p e r, node_of_file p e -> system_file (frames p) e = Some r ->
  unit (call_of (lit "system.file")) p e r.
Proof.
  intros p e r H Hr. unfold system_file in Hr.
  destruct e as [| | | |f args| | | | | | | |]; try discriminate.
  destruct (teqb _ _); [|discriminate].
  destruct (call_args _ _ _ (node_wf _ _ H)) as [_ A].
  destruct (filter is_file_path (get_unnamed_args args)) as [|[n [v|]] [|? ?]] eqn:F; try discriminate;
    try (destruct v; discriminate).
  destruct v as [| | | |g gargs| | | | | | | |]; try discriminate.
  assert (Wg : wf true (ECall g gargs)).
  { assert (K : In (n, Some (ECall g gargs)) args).
    { assert (K : In (n, Some (ECall g gargs)) (filter is_file_path (get_unnamed_args args))) by (rewrite F; left; reflexivity).
      apply filter_In in K. destruct K as [K _]. apply filter_In in K. apply K. }
    rewrite Forall_forall in A. apply (A _ K). }
  destruct (call_args _ _ _ Wg) as [_ Ag].
  set (has := fun a : arg => match snd a with Some _ => true | None => false end) in Hr.
  assert (Ap : Forall (fun a : arg => owf (snd a)) (filter has gargs)) by (apply filter_owf; exact Ag).
  destruct (filter has gargs) as [|q parts]; [discriminate|].
  set (parts' := q :: parts) in *. apply some_inj in Hr; subst r.
  fold (args_toks parts') (args_toks (get_named_args args)).
  rewrite sep_app_args by discriminate.
  eapply unit_call_text; eauto. apply Forall_app. split.
  - exact Ap.
  - assert (K : Forall (fun a : arg => owf (snd a)) (get_named_args args)) by (apply filter_owf; exact A).
    destruct (get_named_args args); auto. constructor; [exact Logic.I|constructor].
Qed.

(** *** length_test *)
Lemma length_test_unit : forall p e r f n c nl x y args, node_of_file p e ->
  length_test (frames p) e = ROk (Some r) ->
  e = ECall f ((n, Some (EBin c nl x y)) :: args) ->
  loose_left (left_op (frames p)) = true -> loose_right (right_op (frames p)) = true ->
  right_op (frames p) = None \/ swallows y = false ->
  enclosed (frames p) = true \/ breaks y = false ->
  unit (fun e' => e' = EBin c false (ECall (EAtom (AId (lit "length"))) [(None, Some x)]) y) p e r.
Proof.
  intros p e r f n c nl x y args H Hr -> LL LR SW EN.
  unfold length_test in Hr.
  destruct (negb (teqb (get_function_name f) (lit "length"))); [discriminate|].
  destruct c as [| | | | | | | |c| | | | | | | |]; try discriminate.
  apply ok_inj in Hr. apply eq_sym, some_inj in Hr. subst r.
  pose proof (node_wf _ _ H) as W.
  destruct (call_args _ _ _ W) as [_ A]. inversion A as [|a l A1 A2]; subst. cbn [snd owf] in A1. destruct A1 as [A1 _].
  pose proof (left_operand_level _ _ _ _ _ A1 ltac:(discriminate)) as Lx. cbn [wf] in A1. destruct A1 as (Wx & Wy & W3 & W4 & W5 & W6).
  apply unit_here with (e' := EBin (BCmp c) false (ECall (EAtom (AId (lit "length"))) [(None, Some x)]) y); auto.
  apply fits_comparison; auto.
  - apply call1_wf; auto.
  - apply wf_enclosed; auto.
  - cbn [rmin]. lia.
  - cbn [lmin]. lia.
Qed.
