(** Every rule: a fix adds nothing but its own tokens. *)
From Verif Require Import Spec.RMention Proofs.TextProofs Proofs.MentionProofs.

(** The report is about the node or one around it, and the fix does not mention [t] more often. *)
Definition tame (t : tok) (fs : list frame) (e : expr) (r : report) : Prop :=
  plug (at_frames r) (at_node r) = plug fs e /\
  forall c, new_text r = Some c -> mentions t c <= mentions t (toks (at_node r)).

Lemma some_inj : forall {A} (a b : A), Some a = Some b -> b = a.
Proof. congruence. Qed.
Lemma tame_here : forall t fs e c, mentions t c <= mentions t (toks e) -> tame t fs e (mk_report fs e (Some c)).
Proof. intros t fs e c H. split; [reflexivity|]. cbn. intros c' E. injection E as <-. exact H. Qed.
Lemma tame_none : forall t fs e, tame t fs e (mk_report fs e None).
Proof. intros. split; [reflexivity|]. discriminate. Qed.
Lemma tame_around : forall t fs e fs' e' c, plug fs' e' = plug fs e -> mentions t c <= mentions t (toks e') -> tame t fs e (mk_report fs' e' (Some c)).
Proof. intros t fs e fs' e' c E H. split; [exact E|]. cbn. intros c' E'. injection E' as <-. exact H. Qed.

Ltac here H := unfold fixed_as, reported in H; apply some_inj in H; rewrite H; first [apply tame_here|apply tame_none].

Section Rules.
Variable t : tok.
Hypothesis Ht : punctuation t = false.
Notation cnt := (mentions t).
(** [t] is not one of the tokens [n] adds. *)
Variable n : text.
Hypothesis Ha : forall u, adds n u -> cnt [u] = 0.

Lemma named0 : forall l, (forall u, a_name l u -> adds n u) -> forall x, In x l -> cnt [id_tok x] = 0.
Proof. intros l H x Hx. apply Ha, H. exists x. split; [exact Hx|reflexivity]. Qed.
Lemma function0 : forall x f, (forall u, a_function x u -> adds n u) -> cnt [same_package f x] = 0.
Proof.
  intros x f H. apply Ha, H. destruct f as [[]| | | | | | | | | | | |]; cbn [same_package]; try (left; reflexivity).
  right. eexists. reflexivity.
Qed.

Ltac cn := repeat (progress rewrite
  ?(cnt_call t Ht), ?(cnt_expect t Ht), ?(cnt_not t Ht), ?(cnt_bang t Ht), ?(cnt_ECall t Ht), ?(cnt_ESub t Ht), ?(cnt_EBin t Ht), ?(cnt_EUn t),
  ?(cnt_EParen t Ht), ?(cnt_EIf t Ht), ?(cnt_EWhile t Ht), ?(cnt_EFor t Ht), ?(cnt_args t Ht), ?(cnt_join t Ht), ?mentions_app, ?total_cons, ?total_nil, ?cnt_arg;
  cbn [opt_toks]).

(** [any(is.na(x))] and the like. *)
Lemma nested_tame : forall fs e outer inner c fs' e',
  get_nested_functions_content fs e outer inner = Some (c, (fs', e')) ->
  plug fs' e' = plug fs e /\ cnt c <= cnt (toks e').
Proof.
  intros fs e outer inner c fs' e' H. unfold get_nested_functions_content in H.
  destruct e as [| | | |f args| | | | | | | |]; try discriminate. destruct (negb _); [discriminate|].
  destruct (nested_content args inner) as [c'|] eqn:E.
  - injection H as <- <- <-. split; [reflexivity|]. unfold nested_content in E.
    destruct (find is_unnamed args) as [[nm [[]|]]|] eqn:F; try discriminate.
    match type of E with context [teqb ?a ?b] => destruct (teqb a b); [|discriminate] end. injection E as <-.
    apply find_some in F as [F _]. apply (total_in t) in F. rewrite cnt_arg in F. cbn [opt_toks] in F. rewrite (cnt_ECall t Ht) in F.
    cn. lia.
  - destruct fs as [|[| |o nl r|o nl l| | | | | | | | | | | | | | | |] fs]; try discriminate; destruct o; try discriminate.
    + match type of H with context [teqb ?a ?b] => destruct (teqb a b); [|discriminate] end. injection H as <- <- <-. split; [reflexivity|]. cn. lia.
    + destruct l as [| | |o' nl' a b|g gargs| | | | | | | |]; try discriminate.
      * destruct o'; try discriminate. destruct b; try discriminate.
        match type of H with context [if ?a then _ else _] => destruct a; [|discriminate] end. injection H as <- <- <-. split; [reflexivity|]. cn. lia.
      * match type of H with context [teqb ?a ?b] => destruct (teqb a b); [|discriminate] end. injection H as <- <- <-. split; [reflexivity|]. cn. lia.
Qed.

Lemma any_is_na_tame : n = lit "any_is_na" -> forall fs e r, any_is_na fs e = Some r -> tame t fs e r.
Proof.
  intros Hn fs e r H. unfold any_is_na in H. destruct (get_nested_functions_content _ _ _ _) as [[c [fs' e']]|] eqn:G; [|discriminate].
  apply some_inj in H; subst r. apply nested_tame in G as [G1 G2]. apply tame_around; [exact G1|].
  cn. rewrite (named0 [lit "anyNA"]); [exact G2|intros; rewrite Hn; constructor; auto|cbn; auto].
Qed.
Lemma any_duplicated_tame : n = lit "any_duplicated" -> forall fs e r, any_duplicated fs e = Some r -> tame t fs e r.
Proof.
  intros Hn fs e r H. unfold any_duplicated in H. destruct (get_nested_functions_content _ _ _ _) as [[c [fs' e']]|] eqn:G; [|discriminate].
  apply some_inj in H; subst r. apply nested_tame in G as [G1 G2]. apply tame_around; [exact G1|].
  cn. rewrite (named0 [lit "anyDuplicated"]); [|intros; rewrite Hn; constructor; auto|cbn; auto].
  rewrite mentions_cons, (Ha (TOp (BCmp CGt))), (Ha (TAtom (ANum (lit "0")))) by (rewrite Hn; constructor; auto). lia.
Qed.
Lemma length_levels_tame : n = lit "length_levels" -> forall fs e r, length_levels fs e = Some r -> tame t fs e r.
Proof.
  intros Hn fs e r H. unfold length_levels in H. destruct (get_nested_functions_content _ _ _ _) as [[c [fs' e']]|] eqn:G; [|discriminate].
  apply some_inj in H; subst r. apply nested_tame in G as [G1 G2]. apply tame_around; [exact G1|].
  cn. rewrite (named0 [lit "nlevels"]); [exact G2|intros; rewrite Hn; constructor; auto|cbn; auto].
Qed.
Lemma which_grepl_tame : n = lit "which_grepl" -> forall fs e r, which_grepl fs e = Some r -> tame t fs e r.
Proof.
  intros Hn fs e r H. unfold which_grepl in H. destruct (get_nested_functions_content _ _ _ _) as [[c [fs' e']]|] eqn:G; [|discriminate].
  apply some_inj in H; subst r. apply nested_tame in G as [G1 G2]. apply tame_around; [exact G1|].
  cn. rewrite (named0 [lit "grep"]); [exact G2|intros; rewrite Hn; constructor; auto|cbn; auto].
Qed.
Lemma all_equal_tame : n = lit "all_equal" -> forall fs e r, all_equal fs e = Some r -> tame t fs e r.
Proof.
  intros Hn fs e r H. unfold all_equal in H.
  assert (Z1 : cnt [id_tok (lit "isTRUE")] = 0) by (apply (named0 [lit "isTRUE"; lit "all.equal"]); [intros; rewrite Hn; constructor; auto|cbn; auto]).
  assert (Z2 : cnt [id_tok (lit "all.equal")] = 0) by (apply (named0 [lit "isTRUE"; lit "all.equal"]); [intros; rewrite Hn; constructor; auto|cbn; auto]).
  destruct (get_nested_functions_content _ _ _ _) as [[c [fs' e']]|] eqn:G.
  { apply some_inj in H; subst r. apply nested_tame in G as [G1 G2]. apply tame_around; [exact G1|]. cn. lia. }
  destruct e as [| | | |f args| | | | | | | |]; try discriminate. destruct (teqb _ _); [|discriminate].
  destruct (parent_is_bang_unary fs) eqn:P.
  - destruct fs as [|[|u| | | | | | | | | | | | | | | | | |] fs]; try discriminate. apply some_inj in H; subst r.
    assert (u = UNot) as -> by (destruct u; [reflexivity|destruct fs as [|[]]; discriminate P..]).
    apply tame_around; [reflexivity|]. cn.
 lia.
  - destruct (parent_is_condition fs); [|discriminate]. here H. cn. lia.
Qed.

Lemma comparison_negation_tame : n = lit "comparison_negation" -> forall fs e r, comparison_negation fs e = Some r -> tame t fs e r.
Proof.
  intros Hn fs e r H. unfold comparison_negation in H. destruct e as [| |[] x| | | | | | | | | |]; try discriminate.
  destruct x as [|[| | |[] nl x y| | | | | | | | |]| | | | | | | | | | |]; try discriminate. here H.
  change (toks x ++ TOp (BCmp (negated c)) :: toks y) with (toks x ++ [TOp (BCmp (negated c))] ++ toks y).
  cn. rewrite (Ha (TOp (BCmp (negated c)))) by (rewrite Hn; constructor). lia.
Qed.
Lemma outer_negation_tame : n = lit "outer_negation" -> forall fs e r, outer_negation fs e = Some r -> tame t fs e r.
Proof.
  intros Hn fs e r H. unfold outer_negation in H. destruct (parent_is_bang_unary fs); [discriminate|].
  destruct e as [| | | |f args| | | | | | | |]; try discriminate. destruct f as [[]| | | | | | | | | | | |]; try discriminate.
  destruct args as [|[nm [[| |u y| | | | | | | | | |]|]] [|]]; try discriminate.
  destruct (_ || _); [|discriminate]. 
  assert (r = mk_report fs (ECall (EAtom (AId x)) [(nm, Some (EUn u y))]) (Some (TBang :: call_text (if teqb x (lit "any") then lit "all" else lit "any") (toks y)))) as ->.
  { destruct y; try discriminate; apply some_inj in H; subst r; reflexivity. }
  apply tame_here. cn.
  assert (Z : forall z, In z [lit "all"; lit "any"] -> cnt [id_tok z] = 0) by (apply (named0 [lit "all"; lit "any"]); intros; rewrite Hn; constructor; auto).
  destruct (teqb x (lit "any")); rewrite Z by (cbn; auto); lia.
Qed.
Lemma redundant_ifelse_tame : forall fs e r, redundant_ifelse fs e = Some r -> tame t fs e r.
Proof.
  intros fs e r H. unfold redundant_ifelse in H. destruct e as [| | | |f args| | | | | | | |]; try discriminate.
  destruct (ifelse_formals _) as [[[a b] d]|]; [|discriminate]. destruct (negb _); [discriminate|].
  destruct (get_arg_by_name_then_position args a 1) as [[n1 [x|]]|] eqn:E1; try discriminate.
  destruct (get_arg_by_name_then_position args b 2) as [[n2 [y|]]|]; try discriminate.
  destruct (get_arg_by_name_then_position args d 3) as [[n3 [z|]]|]; try discriminate.
  apply (chosen_total t) in E1. cbn [opt_toks] in E1.
  destruct y as [[]| | | | | | | | | | | |]; try discriminate; destruct z as [[]| | | | | | | | | | | |]; try discriminate; here H; try (cn; lia).
  change (TBang :: TLp :: toks x ++ [TRp]) with (TBang :: [TLp] ++ toks x ++ [TRp]). cn. rewrite (lp0 t Ht), (rp0 t Ht). lia.
Qed.
Lemma redundant_equals_tame : forall fs e r, redundant_equals fs e = Some r -> tame t fs e r.
Proof.
  intros fs e r H. unfold redundant_equals in H. destruct e as [| | |o nl x y| | | | | | | | |]; try discriminate.
  destruct o as [| | | | | | | |c| | | | | | | |]; try discriminate.
  assert (exists z b, (z = x \/ z = y) /\ r = mk_report fs (EBin (BCmp c) nl x y) (Some (if b : bool then TBang :: toks z else toks z))) as (z & b & Z & ->).
  { destruct c; try discriminate; destruct x as [[]| | | | | | | | | | | |]; destruct y as [[]| | | | | | | | | | | |]; try discriminate; injection H as <-;
      match goal with |- exists z b, (z = ?x \/ z = ?y) /\ _ =>
        first [solve [exists x, true; split; [auto|reflexivity]] | solve [exists y, true; split; [auto|reflexivity]]
              |solve [exists x, false; split; [auto|reflexivity]] | solve [exists y, false; split; [auto|reflexivity]]] end. }
  apply tame_here. destruct b, Z as [-> | ->]; cn; lia.
Qed.
Lemma any_is_na_2_tame : n = lit "any_is_na" -> forall fs e r, any_is_na_2 fs e = Some r -> tame t fs e r.
Proof.
  intros Hn fs e r H. unfold any_is_na_2 in H. destruct e as [| | |o nl x y| | | | | | | | |]; try discriminate.
  destruct o as [| | | | | | | | | | | | |s| | |]; try discriminate. destruct (teqb s _); [|discriminate].
  assert (r = mk_report fs (EBin (BSpecial s) nl x y) (Some (call_text (lit "anyNA") (toks y)))) as ->.
  { destruct x as [[]| | | | | | | | | | | |]; destruct y as [[]| | | | | | | | | | | |]; try discriminate; apply some_inj in H; subst r; reflexivity. }
  apply tame_here. cn. rewrite (named0 [lit "anyNA"]); [lia|intros; rewrite Hn; constructor; auto|cbn; auto].
Qed.
Lemma single_le : forall e, cnt (toks (single_expression e)) <= cnt (toks e).
Proof.
  intros e. destruct e as [| | | | | | | | | | | |es]; cbn [single_expression]; try apply Nat.le_refl.
  destruct es as [|x [|]]; try apply Nat.le_refl. rewrite (cnt_EBraces t Ht). cbn [map list_sum fold_right]. lia.
Qed.
Lemma coalesce_tame : n = lit "coalesce" -> forall fs e r, coalesce fs e = Some r -> tame t fs e r.
Proof.
  intros Hn fs e r H. unfold coalesce in H. destruct e as [| | | | | | |c a [b|]| | | | |]; try discriminate.
  assert (Z : cnt [TOp (BSpecial (lit "%||%"))] = 0) by (apply Ha; rewrite Hn; constructor).
  assert (T : forall g args x, given_values args = [x] -> cnt (toks x) <= cnt (toks (ECall g args))).
  { intros g args x G. pose proof (total_given t args) as Q. rewrite G in Q. cbn [map list_sum fold_right] in Q. cn. lia. }
  assert (O : forall x y, cnt (toks x) + cnt (toks y) <= cnt (toks (EIf c a (Some b))) ->
    Some (mk_report fs (EIf c a (Some b)) (if has_multiple_expressions a || has_multiple_expressions b then None
      else Some (toks x ++ TOp (BSpecial (lit "%||%")) :: toks (single_expression y)))) = Some r -> tame t fs (EIf c a (Some b)) r).
  { intros x y L E. apply some_inj in E; rewrite E. destruct (_ || _); [apply tame_none|]. apply tame_here.
    rewrite mentions_app, mentions_cons, Z. pose proof (single_le y). lia. }
  destruct c as [| |[] c| |g args| | | | | | | |]; try discriminate.
  - destruct c as [| | | |g args| | | | | | | |]; try discriminate. destruct (teqb _ _); [|discriminate]. destruct (given_values args) as [|x [|]] eqn:G; try discriminate.
    destruct (same_text _ _); [|discriminate]. eapply O; [|exact H]. pose proof (T g args x G). rewrite (cnt_EIf t Ht), (cnt_EUn t). lia.
  - destruct (teqb _ _); [|discriminate]. destruct (given_values args) as [|x [|]] eqn:G; try discriminate.
    destruct (same_text _ _); [|discriminate]. eapply O; [|exact H]. pose proof (T g args x G). rewrite (cnt_EIf t Ht). lia.
Qed.
Lemma true_false_symbol_tame : n = lit "true_false_symbol" -> forall fs e r, true_false_symbol fs e = Some r -> tame t fs e r.
Proof.
  intros Hn fs e r H. unfold true_false_symbol in H. destruct e as [[]| | | | | | | | | | | |]; try discriminate.
  destruct (_ || _); [|discriminate].
  assert (r = mk_report fs (EAtom (AId x)) (Some [TAtom (if teqb x (lit "T") then ATrue else AFalse)])) as ->.
  { destruct fs as [|[| |[]|[]| | | | | | | | | | | | | | | |] fs]; try discriminate; injection H as <-; reflexivity. }
  apply tame_here. rewrite (Ha (TAtom _)); [lia|]. rewrite Hn. constructor. destruct (teqb x _); auto.
Qed.
Lemma true_false_symbol_for_tame : n = lit "true_false_symbol" -> forall fs e r, true_false_symbol_for fs e = Some r -> tame t fs e r.
Proof.
  intros Hn fs e r H. unfold true_false_symbol_for in H. destruct e as [| | | | | | | | |v s b| | |]; try discriminate.
  destruct (_ || _); [|discriminate]. here H.
  rewrite (mentions_cons t TFor), (mentions_cons t TLp), (mentions_cons t (TAtom _)), (mentions_cons t TIn), mentions_app, (mentions_cons t TRp), (lp0 t Ht), (rp0 t Ht).
  rewrite (Ha (TAtom (if teqb v (lit "T") then ATrue else AFalse))); [cn; lia|]. rewrite Hn. constructor. destruct (teqb v _); auto.
Qed.
Lemma equals_na_tame : n = lit "equals_na" -> forall fs e r, equals_na fs e = Some r -> tame t fs e r.
Proof.
  intros Hn fs e r H. unfold equals_na in H. destruct e as [| | |o nl x y| | | | | | | | |]; try discriminate.
  destruct (equality o) as [b|]; [|discriminate]. destruct (_ && _); [discriminate|]. destruct (Bool.eqb _ _); [discriminate|]. here H.
  cn. rewrite (named0 [lit "is.na"]); [|intros; rewrite Hn; constructor; auto|cbn; auto]. destruct (is_na_text x); lia.
Qed.
Lemma equals_nan_tame : n = lit "equals_nan" -> forall fs e r, equals_nan fs e = Some r -> tame t fs e r.
Proof.
  intros Hn fs e r H. unfold equals_nan in H. destruct e as [| | |o nl x y| | | | | | | | |]; try discriminate.
  destruct (equality o) as [b|]; [|discriminate]. destruct (_ && _); [discriminate|]. destruct (Bool.eqb _ _); [discriminate|]. here H.
  cn. rewrite (named0 [lit "is.nan"]); [|intros; rewrite Hn; constructor; auto|cbn; auto]. destruct (is_nan_lit x); lia.
Qed.
Lemma equals_null_tame : n = lit "equals_null" -> forall fs e r, equals_null fs e = Some r -> tame t fs e r.
Proof.
  intros Hn fs e r H. unfold equals_null in H. destruct e as [| | |o nl x y| | | | | | | | |]; try discriminate.
  destruct (equality o) as [b|]; [|discriminate]. destruct (Bool.eqb _ _); [discriminate|]. here H.
  cn. rewrite (named0 [lit "is.null"]); [|intros; rewrite Hn; constructor; auto|cbn; auto]. destruct (is_null_lit x); lia.
Qed.
Lemma repeat_tame : n = lit "repeat" -> forall fs e r, repeat_loop fs e = Some r -> tame t fs e r.
Proof.
  intros Hn fs e r H. unfold repeat_loop in H. destruct e as [| | | | | | | | | |c b| |]; try discriminate.
  destruct c as [[]| | | | | | | | | | | |]; try discriminate. here H.
  rewrite mentions_cons, (Ha TRepeat) by (rewrite Hn; constructor). rewrite (cnt_EWhile t Ht).
  assert (cnt (TLc :: toks b ++ [TRc]) = cnt (toks b)) by (rewrite mentions_cons, mentions_app, (lc0 t Ht), (rc0 t Ht); lia).
  destruct b; lia.
Qed.
Lemma first_arg_le : forall e c, first_arg_text e = Some c -> cnt c <= cnt (toks e).
Proof.
  intros e c H. unfold first_arg_text in H. destruct e as [| | | |f args| | | | | | | |]; try discriminate.
  destruct (get_arg_by_position args 1) as [a|] eqn:E; [|discriminate]. cbn [option_map] in H. injection H as <-.
  apply nth_error_In, (total_in t) in E. cn. lia.
Qed.
Lemma extract_le : forall l r x c, extract_class_and_string l r = Some (x, c) -> cnt x + cnt c <= cnt (toks l) + cnt (toks r).
Proof.
  intros l r x c H. unfold extract_class_and_string in H. destruct (_ && _).
  - destruct (first_arg_text l) eqn:E; [|discriminate]. injection H as <- <-. apply first_arg_le in E. lia.
  - destruct (_ && _); [|discriminate]. destruct (first_arg_text r) eqn:E; [|discriminate]. injection H as <- <-. apply first_arg_le in E. lia.
Qed.
Lemma class_equals_tame : n = lit "class_equals" -> forall fs e r, class_equals fs e = Some r -> tame t fs e r.
Proof.
  intros Hn fs e r H. unfold class_equals in H. destruct e as [| | |o nl x y| | | | | | | | |]; try discriminate.
  destruct (equality o) as [b|]; [|discriminate]. destruct (parent_is_condition fs); [|discriminate].
  destruct (extract_class_and_string x y) as [[u v]|] eqn:E; [|discriminate]. here H. apply extract_le in E.
  cn. rewrite (mentions_cons t TComma), (comma0 t Ht), (named0 [lit "inherits"]); [lia|intros; rewrite Hn; constructor; auto|cbn; auto].
Qed.
Lemma class_identical_tame : n = lit "class_equals" -> forall fs e r, class_identical fs e = Some r -> tame t fs e r.
Proof.
  intros Hn fs e r H. unfold class_identical in H. destruct e as [| | | |f args| | | | | | | |]; try discriminate.
  destruct (teqb _ _); [|discriminate].
  destruct (get_arg_by_position args 1) as [[n1 [x|]]|] eqn:E1; try discriminate.
  destruct (get_arg_by_position args 2) as [[n2 [y|]]|] eqn:E2; try discriminate.
  destruct (extract_class_and_string x y) as [[u v]|] eqn:E; [|discriminate]. here H. apply extract_le in E.
  unfold get_arg_by_position in *. pose proof (nth_apart t _ _ _ _ _ E1 E2 ltac:(discriminate)) as Q.
  rewrite !cnt_arg in Q. cbn [opt_toks] in Q.
  cn. rewrite (mentions_cons t TComma), (comma0 t Ht), (named0 [lit "inherits"]); [lia|intros; rewrite Hn; constructor; auto|cbn; auto].
Qed.
Lemma seq_le : (forall u, a_name [lit "seq_along"; lit "seq_len"; lit "nrow"; lit "ncol"; lit "NROW"; lit "NCOL"] u -> adds n u) ->
  forall f c, existsb (teqb f) size_names = true -> cnt (seq_text f c) <= cnt c.
Proof.
  intros Hn f c H. unfold seq_text. pose proof (named0 _ Hn) as Z.
  destruct (teqb f (lit "length")) eqn:E; [cn; rewrite Z by (cbn; auto); lia|].
  cn. rewrite (Z (lit "seq_len")) by (cbn; auto). rewrite (Z f); [lia|].
  apply existsb_exists in H as (g & Hg & T). apply teqb_eq in T. subst g. apply teqb_neq in E.
  destruct Hg as [<- |Hg]; [contradiction|]. right; right. exact Hg.
Qed.
Lemma seq_tame : n = lit "seq" -> forall fs e r, seq_rule fs e = Some r -> tame t fs e r.
Proof.
  intros Hn fs e r H. unfold seq_rule in H. destruct e as [| | |[] nl x y| | | | | | | | |]; try discriminate.
  destruct y as [| | | |f args| | | | | | | |]; try discriminate. destruct (is_one x && _) eqn:B; [|discriminate]. here H.
  apply andb_prop in B as [_ B]. pose proof (fun Q => seq_le Q _ (args_toks args) B) as L. specialize (L ltac:(intros; rewrite Hn; constructor; auto)).
  rewrite (cnt_args t Ht) in L. cn. lia.
Qed.
Lemma seq2_tame : n = lit "seq2" -> forall fs e r, seq2_rule fs e = Some r -> tame t fs e r.
Proof.
  intros Hn fs e r H. unfold seq2_rule in H. destruct e as [| | | |f [|[[nm|] [[| | | |g args| | | | | | | |]|]] [|]]| | | | | | | |]; try discriminate.
  destruct (_ && _) eqn:B; [|discriminate]. here H.
  apply andb_prop in B as [_ B]. pose proof (fun Q => seq_le Q _ (args_toks args) B) as L. specialize (L ltac:(intros; rewrite Hn; constructor; auto)).
  rewrite (cnt_args t Ht) in L. cn. lia.
Qed.
Lemma named_total : forall args names, NoDup names ->
  list_sum (map (mentions t) (flat_map (fun n => match get_arg_by_name args n with Some a => [arg_toks a] | None => [] end) names))
  <= total_of t (filter (fun a : arg => match fst a with Some m => mem m names | None => false end) args).
Proof.
  intros args names. induction names as [|x names IH]; intros D; [cbn; lia|]. apply NoDup_cons_iff in D as [D1 D2].
  cbn [flat_map]. rewrite map_app, list_sum_app.
  pose proof (total_parts t (has_name x) (filter (fun a : arg => match fst a with Some m => mem m (x :: names) | None => false end) args)) as Q.
  rewrite <- Q. apply Nat.add_le_mono.
  - destruct (get_arg_by_name args x) as [a|] eqn:E; cbn [map list_sum fold_right]; [|lia]. rewrite Nat.add_0_r.
    apply total_in. apply filter_In. pose proof (by_name _ _ _ E) as [E1 E2]. split; [apply filter_In; split; [exact E1|]|].
    + rewrite E2. unfold mem. cbn [existsb]. rewrite teqb_refl. reflexivity.
    + unfold has_name. rewrite E2. apply teqb_refl.
  - specialize (IH D2). etransitivity; [exact IH|]. clear - D1. induction args as [|[m v] l IH]; [cbn; lia|]. cbn [filter fst].
    assert (B : mem x names = false).
    { destruct (mem x names) eqn:B; [|reflexivity]. unfold mem in B. apply existsb_exists in B as (y & Y & T). apply teqb_eq in T. subst. contradiction. }
    destruct m as [m|]; [|exact IH]. change (mem m (x :: names)) with (teqb m x || mem m names).
    destruct (teqb m x) eqn:T; cbn [orb].
    + apply teqb_eq in T. subst m. rewrite B. cbn [filter]. replace (has_name x (Some x, v)) with true by (symmetry; apply teqb_refl). cbn [negb]. exact IH.
    + destruct (mem m names); [|exact IH]. cbn [filter]. replace (has_name x (Some m, v)) with false by (symmetry; exact T). cbn [negb]. rewrite !total_cons. lia.
Qed.
Lemma sort_tame : n = lit "sort" -> forall fs e r, sort_rule fs e = Some r -> tame t fs e r.
Proof.
  intros Hn fs e r H. unfold sort_rule in H. destruct e as [| | | | |[] x [|[[nm|] [[| | | |f args| | | | | | | |]|]] [|]]| | | | | | |]; try discriminate.
  destruct (teqb _ _); [|discriminate]. destruct (get_unnamed_args args) as [|v [|]]; try discriminate. destruct (same_text _ _); [|discriminate].
  here H. cn. rewrite (named0 [lit "sort"]); [|intros; rewrite Hn; constructor; auto|cbn; auto].
  rewrite mentions_sep by apply (comma0 t Ht). cbn [map]. 
  change (list_sum (?a :: ?l)) with (a + list_sum l).
  pose proof (named_total args [lit "na.last"; lit "decreasing"; lit "method"]) as Q.
  assert (D : NoDup [lit "na.last"; lit "decreasing"; lit "method"]) by (repeat constructor; cbn; intuition discriminate).
  specialize (Q D). pose proof (total_filter t (fun a : arg => match fst a with Some m => mem m [lit "na.last"; lit "decreasing"; lit "method"] | None => false end) args).
  lia.
Qed.
Lemma length_test_tame : n = lit "length_test" -> forall fs e r, length_test fs e = ROk (Some r) -> tame t fs e r.
Proof.
  intros Hn fs e r H. unfold length_test in H. destruct e as [| | | |f args| | | | | | | |]; try discriminate.
  destruct (negb _); [discriminate|]. destruct args as [|[nm [[| | |[] nl x y| | | | | | | | |]|]] args]; try discriminate.
  assert (H' : Some (mk_report fs (ECall f ((nm, Some (EBin (BCmp c) nl x y)) :: args)) (Some (call_text (lit "length") (toks x) ++ TOp (BCmp c) :: toks y))) = Some r) by congruence.
  here H'. cn. rewrite (mentions_cons t (TOp _)), (named0 [lit "length"]); [lia|intros; rewrite Hn; constructor; auto|cbn; auto].
Qed.
Lemma lengths_tame : n = lit "lengths" -> forall fs e r, lengths_rule fs e = ROk (Some r) -> tame t fs e r.
Proof.
  intros Hn fs e r H. unfold lengths_rule in H. destruct e as [| | | |f args| | | | | | | |]; try discriminate.
  destruct (negb _); [discriminate|]. destruct (get_arg_by_name_then_position args (lit "FUN") 2) as [[n1 [g|]]|]; try discriminate.
  destruct (same_text _ _); [|discriminate]. destruct (get_arg_by_name_then_position args (lit "x") 1) as [a|] eqn:E; [|discriminate].
  assert (H' : Some (mk_report fs (ECall f args) (Some (call_text (lit "lengths") (arg_toks a)))) = Some r) by congruence.
  here H'. apply chosen_in, (total_in t) in E. cn. rewrite (named0 [lit "lengths"]); [lia|intros; rewrite Hn; constructor; auto|cbn; auto].
Qed.
Lemma sample_int_tame : n = lit "sample_int" -> forall fs e r, first_or_named (lit "n") e -> sample_int fs e = ROk (Some r) -> tame t fs e r.
Proof.
  intros Hn fs e r F H. unfold sample_int in H. destruct e as [| | | |f args| | | | | | | |]; try discriminate.
  destruct (negb _); [discriminate|]. destruct (get_arg_by_name_then_position args (lit "n") 1) as [[n1 [[| | |o nl x y| | | | | | | | |]|]]|] eqn:E; try discriminate.
  destruct (negb _); [discriminate|]. destruct o; try discriminate.
  match type of H with ROk (Some ?a) = _ => assert (H' : Some a = Some r) by congruence end.
  here H'. cn. rewrite (named0 [lit "sample.int"]); [|intros; rewrite Hn; constructor; auto|cbn; auto].
  assert (Y : cnt (toks y) <= cnt (arg_toks (n1, Some (EBin BColon nl x y)))) by (cn; lia).
  pose proof (total_in t _ _ (chosen_in _ _ _ _ E)) as I.
  destruct (drop_arg_by_name_or_position args (lit "n") 1) as [more|] eqn:D; [|lia].
  rewrite mentions_sep by apply (comma0 t Ht). cbn [map]. rewrite (cnt_join t Ht). change (list_sum [?a; ?b]) with (a + (b + 0)).
  enough (cnt (arg_toks (n1, Some (EBin BColon nl x y))) + total_of t more <= total_of t args) by lia. clear Y I.
  unfold drop_arg_by_name_or_position in D. unfold get_arg_by_name_then_position, get_arg_by_name in E.
  destruct (existsb (has_name (lit "n")) args) eqn:B.
  - apply some_inj in D. rewrite D. destruct (find (has_name (lit "n")) args) as [a|] eqn:G.
    + apply some_inj in E. rewrite E. apply find_some in G as [G1 G2].
      rewrite <- (total_parts t (has_name (lit "n")) args). apply Nat.add_le_mono_r. apply total_in. apply filter_In. auto.
    + apply existsb_exists in B as (a & A1 & A2). eapply find_none in G; [|exact A1]. congruence.
  - destruct (find (has_name (lit "n")) args) as [a|] eqn:G.
    { apply find_some in G as [G1 G2]. apply Bool.not_true_iff_false in B. exfalso. apply B. apply existsb_exists. eauto. }
    cbn [firstn Nat.sub app] in D. destruct args as [|a l]; [discriminate|]. cbn [skipn] in D.
    assert (N : fst a = None).
    { destruct (F f a l eq_refl) as [Q|[v Q]]; [exact Q|]. apply Bool.not_true_iff_false in B. exfalso. apply B.
      apply existsb_exists. exists (Some (lit "n"), v). split; [exact Q|]. apply teqb_refl. }
    destruct (_ =? _); [discriminate|]. apply some_inj in D. rewrite D.
    unfold get_unnamed_arg_by_position, get_unnamed_args in E. cbn [filter Nat.sub] in E. rewrite N in E. cbn [nth_error] in E. apply some_inj in E. rewrite E.
    rewrite total_cons. lia.
Qed.
Lemma grepv_tame : n = lit "grepv" -> forall fs e r, grepv fs e = Some r -> tame t fs e r.
Proof.
  intros Hn fs e r H. unfold grepv in H. destruct e as [| | | |f args| | | | | | | |]; try discriminate.
  destruct (_ && _); [|discriminate]. here H. cn. rewrite (named0 [lit "grepv"]); [|intros; rewrite Hn; constructor; auto|cbn; auto].
  destruct (drop_arg_by_name_or_position _ _ _) as [more|] eqn:D; [|cbn [mentions]; lia]. apply (total_drop t) in D. rewrite (cnt_join t Ht). lia.
Qed.
Lemma system_file_tame : n = lit "system_file" -> forall fs e r, system_file fs e = Some r -> tame t fs e r.
Proof.
  intros Hn fs e r H. unfold system_file in H. destruct e as [| | | |f args| | | | | | | |]; try discriminate.
  destruct (teqb _ _); [|discriminate]. destruct (filter is_file_path (get_unnamed_args args)) as [|[nm [[| | | |g gargs| | | | | | | |]|]] [|]] eqn:E; try discriminate.
  set (parts := filter (fun a : arg => match snd a with Some _ => true | None => false end) gargs) in *.
  assert (P : total_of t parts <= total_of t gargs) by apply total_filter.
  assert (Q : total_of t (get_named_args args) + total_of t (get_unnamed_args args) <= total_of t args).
  { unfold get_named_args, get_unnamed_args. apply total_apart. intros a. destruct (fst a); discriminate. }
  pose proof (total_filter t is_file_path (get_unnamed_args args)) as U. rewrite E in U. rewrite total_cons, cnt_arg in U. cbn [opt_toks] in U. rewrite (cnt_ECall t Ht) in U.
  assert (H' : Some (mk_report fs (ECall f args) (Some (call_text (lit "system.file")
     (sep [TComma] (map arg_toks parts) ++ TComma :: sep [TComma] (map arg_toks (get_named_args args)))))) = Some r) by (destruct parts; [discriminate|exact H]).
  here H'. cn. rewrite (mentions_cons t TComma), (comma0 t Ht), !(cnt_join t Ht), (named0 [lit "system.file"]); [lia|intros; rewrite Hn; constructor; auto|cbn; auto].
Qed.
Lemma assignment_tame : n = lit "assignment" -> forall arrow fs e r, assignment arrow fs e = Some r -> tame t fs e r.
Proof.
  intros Hn arrow fs e r H. unfold assignment in H. destruct e as [| | |o nl x y| | | | | | | | |]; try discriminate.
  assert (Z : forall b, cnt [assign_tok b] = 0) by (intros []; apply Ha; rewrite Hn; constructor; auto).
  destruct o as [|s|s| | | | | | | | | | | | | |]; try discriminate.
  - destruct arrow; [|discriminate]. here H. rewrite mentions_app, mentions_cons, Z. cn. lia.
  - destruct (_ && _); [|discriminate]. here H. rewrite mentions_app, mentions_cons, Z. cn. lia.
  - destruct (teqb _ _); [|discriminate]. here H. rewrite mentions_app, mentions_cons, Z. cn. lia.
Qed.
Lemma unnecessary_nesting_tame : n = lit "unnecessary_nesting" -> forall fs e r, unnecessary_nesting fs e = Some r -> tame t fs e r.
Proof.
  intros Hn fs e r H. unfold unnecessary_nesting in H.
  destruct e as [| | | | | | |c a [|]| | | | |]; try discriminate; destruct a as [| | | | | | | | | | | |[|[| | | | | | |c2 a [|]| | | | |] [|]]]; try discriminate.
  here H.
  assert (P : forall c, cnt (in_parens c) = cnt (toks c)).
  { intros c'. assert (cnt (TLp :: toks c' ++ [TRp]) = cnt (toks c')) by (rewrite mentions_cons, mentions_app, (lp0 t Ht), (rp0 t Ht); lia).
    destruct c' as [[]| | | | | | | | | | | |]; cbn [in_parens]; auto. }
  rewrite (mentions_cons t TIf), (mentions_cons t TLp), mentions_app, mentions_app, (mentions_cons t (TOp BAnd2)), (mentions_cons t TRp), !P, (lp0 t Ht), (rp0 t Ht).
  rewrite (Ha (TOp BAnd2)) by (rewrite Hn; constructor).
  rewrite (cnt_EIf t Ht), (cnt_EBraces t Ht). cbn [map]. change (list_sum [?a]) with (a + 0). rewrite (cnt_EIf t Ht). lia.
Qed.
Lemma is_numeric_tame : forall fs e r, is_numeric fs e = Some r -> tame t fs e r.
Proof.
  intros fs e r H. unfold is_numeric in H. destruct e as [| | |[] nl x y| | | | | | | | |]; try discriminate.
  destruct x as [| | | |f fargs| | | | | | | |]; try discriminate. destruct y as [| | | |g gargs| | | | | | | |]; try discriminate.
  destruct (_ || _) eqn:B; [|discriminate]. destruct (same_text _ _); [|discriminate]. here H. cn.
  assert (Q : cnt [id_tok (lit "is.numeric")] <= cnt (toks f) + cnt (toks g)); [|lia].
  assert (R : forall h, is_call_to (lit "is.numeric") h = true -> toks h = [id_tok (lit "is.numeric")]).
  { intros h Hh. destruct h as [[]| | | | | | | | | | | |]; cbn [is_call_to] in Hh; try discriminate. apply teqb_eq in Hh. rewrite Hh. reflexivity. }
  apply Bool.orb_prop in B as [B|B]; apply andb_prop in B as [B1 B2]; [rewrite (R _ B2)|rewrite (R _ B1)]; lia.
Qed.
Lemma string_boundary_tame : n = lit "string_boundary" -> forall fs e r, string_boundary fs e = Some r -> tame t fs e r.
Proof.
  intros Hn fs e r H. unfold string_boundary in H. destruct e as [| | |o nl l r'| | | | | | | | |]; try discriminate.
  destruct o as [| | | | | | | |c| | | | | | | |]; try discriminate.
  pose proof (named0 [lit "startsWith"; lit "endsWith"] ltac:(intros; rewrite Hn; constructor; auto)) as Z.
  set (e := EBin (BCmp c) nl l r') in *.
  assert (L : forall b f args other, cnt (toks (ECall f args)) + cnt (toks other) <= cnt (toks e) ->
    (if mem (get_function_name f) [lit "substr"; lit "substring"] then
       match args with
       | (_, Some x) :: (_, Some start) :: (_, Some stop) :: _ =>
           if is_literal_one start then fixed_as fs e (maybe_not b (call_text (lit "startsWith") (toks x ++ TComma :: toks other)))
           else if is_nchar_of stop x then fixed_as fs e (maybe_not b (call_text (lit "endsWith") (toks x ++ TComma :: toks other)))
           else None
       | _ => None end else None) = Some r -> tame t fs e r).
  { intros b f args other LE Q. destruct (mem _ _); [|discriminate].
    destruct args as [|[n1 [x|]] [|[n2 [st|]] [|[n3 [sp|]] args]]]; try discriminate.
    rewrite (cnt_ECall t Ht), !total_cons, !cnt_arg in LE. cbn [opt_toks] in LE.
    destruct (is_literal_one st); [|destruct (is_nchar_of sp x); [|discriminate]]; here Q;
      rewrite (cnt_not t Ht), (cnt_call t Ht), mentions_app, (mentions_cons t TComma), (comma0 t Ht), Z by (cbn; auto); lia. }
  assert (E : cnt (toks e) = cnt (toks l) + cnt [TOp (BCmp c)] + cnt (toks r')) by apply (cnt_EBin t Ht).
  destruct c; try discriminate; [set (b := true)|set (b := false)];
    (destruct (is_call l) eqn:C;
     [destruct l as [| | | |f args| | | | | | | |]; try discriminate; (eapply (L b f args); [|exact H]; lia)
     |destruct r' as [| | | |f args| | | | | | | |]; destruct l; try discriminate; (eapply (L b f args); [|exact H]; lia)]).
Qed.
Lemma matrix_apply_tame : n = lit "matrix_apply" -> forall fs e r, matrix_apply fs e = Some r -> tame t fs e r.
Proof.
  intros Hn fs e r H. unfold matrix_apply in H. destruct e as [| | | |f args| | | | | | | |]; try discriminate.
  destruct (teqb _ _); [|discriminate].
  pose proof (named0 [lit "rowMeans"; lit "colMeans"; lit "rowSums"; lit "colSums"] ltac:(intros; rewrite Hn; constructor; auto)) as Z.
  destruct (_ <? _); [discriminate|].
  destruct (get_arg_by_name_then_position args (lit "X") 1) as [[n1 [x|]]|] eqn:E; try discriminate.
  destruct (get_arg_by_name_then_position args (lit "FUN") 3) as [[n2 [g|]]|]; try discriminate.
  destruct (get_arg_by_name_then_position args (lit "MARGIN") 2) as [[n3 [m|]]|]; try discriminate.
  set (more := match get_arg_by_name args (lit "na.rm") with Some a => TComma :: arg_toks a | None => [] end) in *.
  assert (Q : cnt (toks x) + cnt more <= total_of t args).
  { subst more. destruct (get_arg_by_name args (lit "na.rm")) as [a|] eqn:E2.
    - rewrite mentions_cons, (comma0 t Ht). pose proof (name_apart t _ _ _ _ _ _ E E2 ltac:(discriminate)) as Q. rewrite cnt_arg in Q. cbn [opt_toks] in Q. lia.
    - cbn [mentions]. apply (chosen_total t) in E. cbn [opt_toks] in E. lia. }
  destruct (is_id (lit "mean") g).
  - destruct (lit_in _ m); [|destruct (lit_in _ m); [|discriminate]]; here H; cn; rewrite Z by (cbn; auto); lia.
  - destruct (is_id (lit "sum") g); [|discriminate]. destruct (lit_in _ m); [|destruct (lit_in _ m); [|discriminate]]; here H; cn; rewrite Z by (cbn; auto 6); lia.
Qed.
Lemma list2df_tame : n = lit "list2df" -> forall fs e r, list2df fs e = Some r -> tame t fs e r.
Proof.
  intros Hn fs e r H. unfold list2df in H. destruct e as [| | | |f args| | | | | | | |]; try discriminate.
  destruct (teqb _ _); [|discriminate].
  destruct (get_arg_by_name_then_position args (lit "what") 1) as [[n1 [x|]]|]; try discriminate.
  destruct (get_arg_by_name_then_position args (lit "args") 2) as [[n2 [g|]]|] eqn:E; try discriminate.
  destruct (get_arg_by_position args 3); [discriminate|]. destruct (is_cbind_df x); [|discriminate]. here H.
  apply (chosen_total t) in E. cbn [opt_toks] in E. cn. rewrite (named0 [lit "list2DF"]); [lia|intros; rewrite Hn; constructor; auto|cbn; auto].
Qed.
Lemma fixed_regex_tame : n = lit "fixed_regex" -> forall fs e r, fixed_regex fs e = Some r -> tame t fs e r.
Proof.
  intros Hn fs e r H. unfold fixed_regex in H. destruct e as [| | | |f args| | | | | | | |]; try discriminate.
  destruct (fixed_position (get_function_name f)) as [pos|] eqn:P; [|discriminate].
  destruct (is_true _); [discriminate|]. destruct (is_true _); [discriminate|].
  destruct (arg_value _) as [[[]| | | | | | | | | | | |]|]; try discriminate. destruct (is_fixed_pattern _); [|discriminate].
  pose proof (named0 [lit "fixed"; lit "grep"; lit "gsub"; lit "sub"; lit "regexpr"; lit "gregexpr"; lit "regexec"; lit "grepl"] ltac:(intros; rewrite Hn; constructor; auto)) as Z.
  assert (ZN : cnt [id_tok (get_function_name f)] = 0).
  { apply Z. unfold fixed_position, mem in P. right. destruct (existsb (teqb (get_function_name f)) [lit "grep"; lit "gsub"; lit "sub"]) eqn:B.
    - apply existsb_exists in B as (g & G & T). apply teqb_eq in T. rewrite T. cbn in G |- *. tauto.
    - destruct (existsb (teqb (get_function_name f)) [lit "regexpr"; lit "gregexpr"; lit "regexec"; lit "grepl"]) eqn:B2; [|discriminate P]. apply existsb_exists in B2 as (g & G & T). apply teqb_eq in T. rewrite T. cbn in G |- *. tauto. }
  assert (O : forall l, total_of t l <= total_of t args ->
    fixed_as fs (ECall f args) (call_text (get_function_name f) (args_toks l ++ TComma :: [id_tok (lit "fixed"); TEq; TAtom ATrue])) = Some r ->
    tame t fs (ECall f args) r).
  { intros l L Q. here Q. cn. rewrite ZN, (mentions_cons t TComma), (mentions_cons t (id_tok _)), (mentions_cons t TEq), (comma0 t Ht).
    rewrite (Z (lit "fixed")) by (cbn; auto). rewrite (Ha TEq), (Ha (TAtom ATrue)) by (rewrite Hn; constructor; auto). lia. }
  destruct (is_false _).
  - destruct (drop_arg_by_name_or_position _ _ _) as [l|] eqn:D; [|discriminate]. eapply O; [eapply total_drop; exact D|exact H].
  - eapply O; [|exact H]. lia.
Qed.
Lemma sprintf_tame : n = lit "sprintf" -> forall fs e r, sprintf_rule fs e = Some r -> tame t fs e r.
Proof.
  intros Hn fs e r H. unfold sprintf_rule in H. destruct e as [| | | |f args| | | | | | | |]; try discriminate.
  match type of H with (if ?b then _ else _) = _ => destruct b; [discriminate|] end. destruct (has_previous_pipe fs); [discriminate|].
  destruct (get_arg_by_name_then_position _ _ _) as [[nm [[[]| | | | | | | | | | | |]|]]|]; try discriminate. cbv zeta in H.
  destruct (invalid _); [here H|]. destruct (specs _).
  - here H. rewrite Ha; [lia|]. rewrite Hn. constructor.
  - destruct (_ =? _)%N; [discriminate|]. here H.
Qed.
Lemma numeric_leading_zero_tame : n = lit "numeric_leading_zero" -> forall fs e r, numeric_leading_zero fs e = Some r -> tame t fs e r.
Proof.
  intros Hn fs e r H. unfold numeric_leading_zero in H. destruct e as [[]| | | | | | | | | | | |]; try discriminate.
  destruct (_ && _) eqn:B; [|discriminate]. here H. rewrite Ha; [lia|]. rewrite Hn.
  apply andb_prop in B as [_ B]. apply starts_with_iff in B as [u ->]. apply (adds_numeric_leading_zero u).
Qed.

(** *** testthat *)
Lemma x_of_le : forall e x, x_of e = Some x -> cnt (toks x) <= cnt (toks e).
Proof.
  intros e x H. unfold x_of in H. destruct e as [| | | |f args| | | | | | | |]; try discriminate. apply (value_total t) in H. cn. lia.
Qed.
Lemma object_expected_le : forall args a b, object_expected args = Some (a, b) -> cnt (toks a) + cnt (toks b) <= total_of t args.
Proof.
  intros args a b H. unfold object_expected in H.
  destruct (get_arg_by_name_then_position args (lit "object") 1) as [[n1 [x|]]|] eqn:E1; try discriminate.
  destruct (get_arg_by_name_then_position args (lit "expected") 2) as [[n2 [y|]]|] eqn:E2; try discriminate.
  injection H as <- <-. pose proof (chosen_apart t _ _ _ _ _ _ _ E1 E2 ltac:(discriminate) ltac:(discriminate)) as Q. rewrite !cnt_arg in Q. cbn [opt_toks] in Q. lia.
Qed.
Lemma expect_length_tame : n = lit "expect_length" -> forall fs e r, expect_length fs e = Some r -> tame t fs e r.
Proof.
  intros Hn fs e r H. unfold expect_length in H. destruct e as [| | | |f args| | | | | | | |]; try discriminate.
  destruct (is_expect_equal f); [|discriminate]. destruct (object_expected args) as [[a b]|] eqn:E; [|discriminate]. apply object_expected_le in E.
  destruct (_ <? _); [discriminate|].
  pose proof (function0 (lit "expect_length") f ltac:(intros; rewrite Hn; constructor; auto)) as Z. cbv beta zeta in H.
  assert (O : forall c other, cnt (toks c) + cnt (toks other) <= total_of t args ->
    (if is_call_named (lit "length") other then None else match x_of c with
      | Some x => fixed_as fs (ECall f args) (expect_text f (lit "expect_length") (toks x ++ TComma :: toks other)) | None => None end) = Some r -> tame t fs (ECall f args) r).
  { intros c other L Q. destruct (is_call_named _ other); [discriminate|]. destruct (x_of c) as [x|] eqn:X; [|discriminate]. apply x_of_le in X. here Q.
    rewrite (cnt_expect t Ht), mentions_app, (mentions_cons t TComma), (comma0 t Ht), (cnt_ECall t Ht). lia. }
  destruct (is_call_named (lit "length") a) eqn:A.
  - eapply O; [|exact H]. exact E.
  - destruct (is_call_named (lit "length") b) eqn:B; [|discriminate]. eapply (O b a); [lia|rewrite A; exact H].
Qed.
Lemma expect_named_tame : n = lit "expect_named" -> forall fs e r, expect_named fs e = Some r -> tame t fs e r.
Proof.
  intros Hn fs e r H. unfold expect_named in H. destruct e as [| | | |f args| | | | | | | |]; try discriminate.
  destruct (is_expect_equal f); [|discriminate]. destruct (object_expected args) as [[a b]|] eqn:E; [|discriminate]. apply object_expected_le in E.
  pose proof (function0 (lit "expect_named") f ltac:(intros; rewrite Hn; constructor; auto)) as Z.
  destruct (is_call_named _ a); [|discriminate]. destruct (is_call_named _ b); [discriminate|]. destruct (x_of a) as [x|] eqn:X; [|discriminate]. apply x_of_le in X. here H.
  rewrite (cnt_expect t Ht), mentions_app, (mentions_cons t TComma), (comma0 t Ht), (cnt_ECall t Ht). lia.
Qed.
Lemma expect_not_tame : n = lit "expect_not" -> forall fs e r, expect_not fs e = Some r -> tame t fs e r.
Proof.
  intros Hn fs e r H. unfold expect_not in H. destruct e as [| | | |f args| | | | | | | |]; try discriminate. cbv zeta in H.
  destruct (mem _ _); [|discriminate]. destruct (get_arg_by_name_then_position args (lit "object") 1) as [[nm v]|] eqn:E; [|discriminate].
  apply (chosen_total t) in E. destruct (_ <? _); [discriminate|].
  destruct v as [[| |[] x| | | | | | | | | |]|]; try discriminate. cbn [opt_toks] in E. rewrite cnt_EUn in E.
  pose proof (function0 (lit "expect_true") f ltac:(intros; rewrite Hn; constructor; auto)) as Z1.
  pose proof (function0 (lit "expect_false") f ltac:(intros; rewrite Hn; constructor; auto)) as Z2.
  assert (H' : fixed_as fs (ECall f args) (expect_text f (if teqb (get_function_name f) (lit "expect_true") then lit "expect_false" else lit "expect_true")
     (match x with EParen y => toks y | _ => toks x end)) = Some r) by (destruct x as [| |[] x| | | | | | | | | |]; try discriminate; exact H).
  here H'. rewrite (cnt_expect t Ht), (cnt_ECall t Ht).
  assert (Q : cnt (match x with EParen y => toks y | _ => toks x end) <= cnt (toks x)) by (destruct x; try apply Nat.le_refl; rewrite (cnt_EParen t Ht); lia).
  destruct (teqb _ _); lia.
Qed.
Lemma expect_null_tame : n = lit "expect_null" -> forall fs e r, expect_null fs e = Some r -> tame t fs e r.
Proof.
  intros Hn fs e r H. unfold expect_null in H. destruct e as [| | | |f args| | | | | | | |]; try discriminate.
  pose proof (function0 (lit "expect_null") f ltac:(intros; rewrite Hn; constructor; auto)) as Z.
  assert (O : forall x, cnt (toks x) <= total_of t args -> fixed_as fs (ECall f args) (expect_text f (lit "expect_null") (toks x)) = Some r -> tame t fs (ECall f args) r).
  { intros x L Q. here Q. rewrite (cnt_expect t Ht), (cnt_ECall t Ht). lia. }
  destruct (is_expect_equal f).
  - destruct (object_expected args) as [[a b]|] eqn:E; [|discriminate]. apply object_expected_le in E.
    assert (H' : fixed_as fs (ECall f args) (expect_text f (lit "expect_null") (toks a)) = Some r \/ fixed_as fs (ECall f args) (expect_text f (lit "expect_null") (toks b)) = Some r).
    { destruct b as [[]| | | | | | | | | | | |]; destruct a as [[]| | | | | | | | | | | |]; try discriminate; first [left; exact H|right; exact H]. }
    destruct H' as [H'|H']; eapply O; try exact H'; lia.
  - destruct (teqb _ _); [|discriminate]. destruct (arg_value _) as [c|] eqn:E; [|discriminate]. apply (value_total t) in E.
    destruct (is_call_named _ c); [|discriminate]. destruct (x_of c) as [x|] eqn:X; [|discriminate]. apply x_of_le in X. eapply O; [|exact H]. lia.
Qed.
Lemma expect_s3_class_tame : n = lit "expect_s3_class" -> forall fs e r, expect_s3_class fs e = Some r -> tame t fs e r.
Proof.
  intros Hn fs e r H. unfold expect_s3_class in H. destruct e as [| | | |f args| | | | | | | |]; try discriminate.
  destruct (is_expect_equal f); [|discriminate]. destruct (object_expected args) as [[a b]|] eqn:E; [|discriminate]. apply object_expected_le in E.
  destruct (_ <? _); [discriminate|].
  pose proof (function0 (lit "expect_s3_class") f ltac:(intros; rewrite Hn; constructor; auto)) as Z. cbv beta zeta in H.
  assert (O : forall c other, cnt (toks c) + cnt (toks other) <= total_of t args ->
    (if is_call_named (lit "class") c && is_s3_class other then match x_of c with
      | Some x => fixed_as fs (ECall f args) (expect_text f (lit "expect_s3_class") (toks x ++ TComma :: toks other)) | None => None end else None) = Some r -> tame t fs (ECall f args) r).
  { clear H. intros c other L Q. destruct (_ && _); [|discriminate]. destruct (x_of c) as [x|] eqn:X; [|discriminate]. apply x_of_le in X. here Q.
    rewrite (cnt_expect t Ht), mentions_app, (mentions_cons t TComma), (comma0 t Ht), (cnt_ECall t Ht). lia. }
  destruct (is_call a).
  - eapply (O a b); [lia|exact H].
  - destruct (is_call b); [|discriminate]. eapply (O b a); [lia|exact H].
Qed.
Lemma expect_true_false_tame : n = lit "expect_true_false" -> forall fs e r, expect_true_false fs e = Some r -> tame t fs e r.
Proof.
  intros Hn fs e r H. unfold expect_true_false in H. destruct e as [| | | |f args| | | | | | | |]; try discriminate.
  destruct (is_expect_equal f); [|discriminate]. destruct (object_expected args) as [[a b]|] eqn:E; [|discriminate]. apply object_expected_le in E.
  pose proof (function0 (lit "expect_true") f ltac:(intros; rewrite Hn; constructor; auto)) as Z1.
  pose proof (function0 (lit "expect_false") f ltac:(intros; rewrite Hn; constructor; auto)) as Z2. cbv beta zeta in H.
  assert (O : forall (v : bool) x, cnt (toks x) <= total_of t args ->
    fixed_as fs (ECall f args) (expect_text f (if v then lit "expect_true" else lit "expect_false") (toks x)) = Some r -> tame t fs (ECall f args) r).
  { intros v x L Q. here Q. rewrite (cnt_expect t Ht), (cnt_ECall t Ht). destruct v; lia. }
  assert (H' : exists (v : bool) x, (x = a \/ x = b) /\ fixed_as fs (ECall f args) (expect_text f (if v then lit "expect_true" else lit "expect_false") (toks x)) = Some r).
  { destruct a as [[]| | | | | | | | | | | |]; destruct b as [[]| | | | | | | | | | | |]; try discriminate;
      match goal with |- exists v x, (x = ?a \/ x = ?b) /\ _ =>
        first [solve [exists true, a; auto] | solve [exists false, a; auto] | solve [exists true, b; auto] | solve [exists false, b; auto]] end. }
  destruct H' as (v & x & [-> | ->] & H'); eapply O; try exact H'; lia.
Qed.
Lemma expect_type_tame : n = lit "expect_type" -> forall fs e r, expect_type fs e = Some r -> tame t fs e r.
Proof.
  intros Hn fs e r H. unfold expect_type in H. destruct e as [| | | |f args| | | | | | | |]; try discriminate. cbv beta zeta in H.
  pose proof (function0 (lit "expect_type") f ltac:(intros; rewrite Hn; constructor; auto)) as Z.
  assert (O : forall x c, cnt (toks x) + cnt c <= total_of t args -> fixed_as fs (ECall f args) (expect_text f (lit "expect_type") (toks x ++ TComma :: c)) = Some r -> tame t fs (ECall f args) r).
  { intros x c L Q. here Q. rewrite (cnt_expect t Ht), mentions_app, (mentions_cons t TComma), (comma0 t Ht), (cnt_ECall t Ht). lia. }
  destruct (is_expect_equal f).
  - destruct (_ <? _); [discriminate|]. destruct (object_expected args) as [[a b]|] eqn:E; [|discriminate]. apply object_expected_le in E.
    destruct (is_call_named _ a).
    + destruct (x_of a) as [x|] eqn:X; [|discriminate]. apply x_of_le in X. eapply O; [|exact H]. lia.
    + destruct (is_call_named _ b); [|discriminate]. destruct (x_of b) as [x|] eqn:X; [|discriminate]. apply x_of_le in X. eapply O; [|exact H]. lia.
  - destruct (teqb _ _); [|discriminate]. destruct (_ <? _); [discriminate|].
    destruct (arg_value (get_arg_by_name_then_position args (lit "object") 1)) as [[| | | |g gargs| | | | | | | |]|] eqn:E; try discriminate. apply (value_total t) in E.
    destruct (type_tested (get_function_name g)) as [k|] eqn:K; [|discriminate].
    destruct (arg_value (get_arg_by_name_then_position gargs (lit "x") 1)) as [x|] eqn:X; [|discriminate]. apply (value_total t) in X.
    eapply O; [|exact H]. rewrite (cnt_ECall t Ht) in E. rewrite (Ha (TAtom (AStr k))); [lia|]. rewrite Hn. constructor. right.
    unfold type_tested in K. destruct (find _ type_functions) as [[g' k']|] eqn:F; [|discriminate]. cbn [option_map snd] in K. injection K as ->.
    apply find_some in F as [F _]. eauto.
Qed.
Lemma drop_total : forall args i j k x y, k <= i -> k <= j -> i <> j -> nth_error args (i - k) = Some x -> nth_error args (j - k) = Some y ->
  cnt (arg_toks x) + cnt (arg_toks y) + total_of t (drop_indices i j k args) <= total_of t args.
Proof.
  assert (Z : forall args i j k, total_of t (drop_indices i j k args) <= total_of t args).
  { intros args. induction args as [|a l IH]; intros i j k; cbn [drop_indices]; [lia|]. rewrite total_app, total_cons. specialize (IH i j (S k)).
    destruct (_ || _); rewrite ?total_cons, ?total_nil; lia. }
  assert (Y : forall args i j k x, j < k -> k <= i -> nth_error args (i - k) = Some x -> cnt (arg_toks x) + total_of t (drop_indices i j k args) <= total_of t args).
  { intros args. induction args as [|a l IH]; intros i j k x J I E; cbn [drop_indices]; [destruct (i - k); discriminate|]. rewrite total_app, total_cons.
    destruct (Nat.eqb_spec k i) as [->|N].
    - rewrite Nat.sub_diag in E. cbn [nth_error] in E. injection E as ->. cbn [orb]. rewrite total_nil. specialize (Z l i j (S i)). lia.
    - replace (i - k) with (S (i - S k)) in E by lia. cbn [nth_error] in E. specialize (IH i j (S k) x ltac:(lia) ltac:(lia) E).
      replace (k =? j) with false by (symmetry; apply Nat.eqb_neq; lia). cbn [orb]. rewrite total_cons, total_nil. lia. }
  assert (Y' : forall args i j k y, i < k -> k <= j -> nth_error args (j - k) = Some y -> cnt (arg_toks y) + total_of t (drop_indices i j k args) <= total_of t args).
  { intros args. induction args as [|a l IH]; intros i j k x J I E; cbn [drop_indices]; [destruct (j - k); discriminate|]. rewrite total_app, total_cons.
    replace (k =? i) with false by (symmetry; apply Nat.eqb_neq; lia). cbn [orb].
    destruct (Nat.eqb_spec k j) as [->|N].
    - rewrite Nat.sub_diag in E. cbn [nth_error] in E. injection E as ->. rewrite total_nil. specialize (Z l i j (S j)). lia.
    - replace (j - k) with (S (j - S k)) in E by lia. cbn [nth_error] in E. specialize (IH i j (S k) x ltac:(lia) ltac:(lia) E).
      rewrite total_cons, total_nil. lia. }
  intros args. induction args as [|a l IH]; intros i j k x y I J N E1 E2; [destruct (i - k); discriminate|].
  cbn [drop_indices]. rewrite total_app, total_cons.
  destruct (Nat.eqb_spec k i) as [->|Ni].
  - rewrite Nat.sub_diag in E1. cbn [nth_error] in E1. injection E1 as ->. cbn [orb]. rewrite total_nil.
    replace (j - i) with (S (j - S i)) in E2 by lia. cbn [nth_error] in E2. specialize (Y' l i j (S i) y ltac:(lia) ltac:(lia) E2). lia.
  - cbn [orb]. replace (i - k) with (S (i - S k)) in E1 by lia. cbn [nth_error] in E1. destruct (Nat.eqb_spec k j) as [->|Nj].
    + rewrite Nat.sub_diag in E2. cbn [nth_error] in E2. injection E2 as ->. rewrite total_nil. specialize (Y l i j (S j) x ltac:(lia) ltac:(lia) E1). lia.
    + replace (j - k) with (S (j - S k)) in E2 by lia. cbn [nth_error] in E2. specialize (IH i j (S k) x y ltac:(lia) ltac:(lia) N E1 E2).
      rewrite total_cons, total_nil. lia.
Qed.
Lemma index_of_name : forall args x i k, index_of (has_name x) i args = Some k -> i <= k /\ exists v, nth_error args (k - i) = Some (Some x, v).
Proof.
  intros args x. induction args as [|[m v] l IH]; intros i k H; cbn [index_of] in H; [discriminate|].
  destruct (has_name x (m, v)) eqn:B.
  - injection H as <-. split; [lia|]. exists v. rewrite Nat.sub_diag. cbn [nth_error]. unfold has_name in B. cbn [fst] in B. destruct m; [|discriminate].
    apply teqb_eq in B. rewrite B. reflexivity.
  - apply IH in H as (L & w & H). split; [lia|]. exists w. replace (k - i) with (S (k - S i)) by lia. exact H.
Qed.
Lemma index_unnamed_at : forall args p i k, index_unnamed p i args = Some k ->
  i <= k /\ exists v, nth_error args (k - i) = Some (None, v).
Proof.
  intros args. induction args as [|[m v] l IH]; intros p i k H; cbn [index_unnamed] in H; [discriminate|].
  assert (S1 : forall q, index_unnamed q (S i) l = Some k -> i <= k /\ exists v', nth_error ((m, v) :: l) (k - i) = Some (None, v')).
  { intros q Q. apply IH in Q as (L & w & Q). split; [lia|]. exists w. replace (k - i) with (S (k - S i)) by lia. exact Q. }
  destruct (is_unnamed (m, v)) eqn:B; [|eapply S1; exact H].
  destruct p; [|eapply S1; exact H]. injection H as <-. split; [lia|]. exists v. rewrite Nat.sub_diag. unfold is_unnamed in B. cbn [fst] in B. destruct m; [discriminate|reflexivity].
Qed.
Lemma index_unnamed_inj : forall args p q i k, index_unnamed p i args = Some k -> index_unnamed q i args = Some k -> p = q.
Proof.
  intros args. induction args as [|a l IH]; intros p q i k P Q; cbn [index_unnamed] in P, Q; [discriminate|].
  destruct (is_unnamed a); [|eapply IH; eauto].
  destruct p, q; auto.
  - injection P as <-. apply index_unnamed_at in Q as [Q _]. lia.
  - injection Q as <-. apply index_unnamed_at in P as [P _]. lia.
  - f_equal. eapply IH; eauto.
Qed.
Lemma index_apart : forall args x y p q i j, x <> y -> p - 1 <> q - 1 -> arg_index args x p = Some i -> arg_index args y q = Some j -> i <> j.
Proof.
  intros args x y p q i j N P A B E. subst j. unfold arg_index in *.
  destruct (index_of (has_name x) 0 args) as [i'|] eqn:E1, (index_of (has_name y) 0 args) as [j'|] eqn:E2.
  - injection A as ->. injection B as ->. apply index_of_name in E1 as (_ & v & E1), E2 as (_ & w & E2). congruence.
  - injection A as ->. apply index_of_name in E1 as (_ & v & E1). apply index_unnamed_at in B as (_ & w & B). congruence.
  - injection B as ->. apply index_of_name in E2 as (_ & v & E2). apply index_unnamed_at in A as (_ & w & A). congruence.
  - apply P. eapply index_unnamed_inj; eauto.
Qed.
Lemma expect_grepl_tame : forall outer new, (forall u, a_function new u -> adds n u) -> forall fs e r, expect_grepl outer new fs e = Some r -> tame t fs e r.
Proof.
  intros outer new Hn fs e r H. unfold expect_grepl in H. destruct e as [| | | |f args| | | | | | | |]; try discriminate.
  destruct (negb _); [discriminate|].
  assert (O : match arg_value (get_arg_by_name_then_position args (lit "object") 1) with
            | Some (ECall g gargs) =>
                if teqb (get_function_name g) (lit "grepl") then
                  match arg_index gargs (lit "pattern") 1, arg_index gargs (lit "x") 2 with
                  | Some i, Some j =>
                      match arg_value (nth_error gargs j), arg_value (nth_error gargs i) with
                      | Some x, Some pat =>
                          let rest := drop_indices i j 0 gargs in
                          if 1 <? length args then reported fs (ECall f args)
                          else if existsb is_unnamed rest then reported fs (ECall f args)
                          else fixed_as fs (ECall f args) (expect_text f new
                                 (sep [TComma] (toks x :: toks pat :: map arg_toks rest)))
                      | _, _ => None
                      end
                  | _, _ => None
                  end
                else None
            | _ => None
            end = Some r -> tame t fs (ECall f args) r).
  { clear H. intros H. destruct (arg_value (get_arg_by_name_then_position args (lit "object") 1)) as [[| | | |g gargs| | | | | | | |]|] eqn:E; try discriminate.
    match type of H with (if ?b then _ else _) = _ => destruct b; [|discriminate] end. destruct (arg_index gargs (lit "pattern") 1) as [i|] eqn:I; [|discriminate]. destruct (arg_index gargs (lit "x") 2) as [j|] eqn:J; [|discriminate].
    assert (N : i <> j) by (apply (index_apart gargs (lit "pattern") (lit "x") 1 2 i j); [discriminate|discriminate|exact I|exact J]).
    destruct (nth_error gargs j) as [[n1 v1]|] eqn:E1; cbn [arg_value] in H; [|discriminate]. destruct v1 as [x|]; [|discriminate].
    destruct (nth_error gargs i) as [[n2 v2]|] eqn:E2; cbn [arg_value] in H; [|discriminate]. destruct v2 as [pat|]; [|discriminate]. cbv zeta in H.
    destruct (1 <? _); [here H|]. destruct (existsb _ _); [here H|]. here H.
    apply (value_total t) in E. rewrite (cnt_ECall t Ht) in E.
    pose proof (drop_total gargs i j 0 (n2, Some pat) (n1, Some x) ltac:(lia) ltac:(lia) N) as D. rewrite !Nat.sub_0_r in D. specialize (D E2 E1). rewrite !cnt_arg in D. cbn [opt_toks] in D.
    rewrite (cnt_expect t Ht), (function0 new f Hn), mentions_sep by apply (comma0 t Ht). cbn [map]. rewrite map_map.
    change (list_sum (?a :: ?b :: ?l)) with (a + (b + list_sum l)). change (list_sum (map (fun a => cnt (arg_toks a)) (drop_indices i j 0 gargs))) with (total_of t (drop_indices i j 0 gargs)).
    rewrite (cnt_ECall t Ht). lia. }
  destruct (get_nested_functions_content fs (ECall f args) outer (lit "grepl")) as [[c [fs' e']]|] eqn:G; [|exact (O H)].
  destruct e'; try exact (O H). apply nested_tame in G as [G _].
  assert (Q : Some (mk_report fs' (EBin o nl e'1 e'2) None) = Some r) by (destruct fs' as [|[|[]| | | | | | | | | | | | | | | | | |] fs']; try discriminate; exact H).
  apply some_inj in Q. rewrite Q. split; [exact G|discriminate].
Qed.

(** *** Rules without a fix *)
Lemma quiet : forall fs e (o : option report), o = None \/ o = reported fs e -> forall r, o = Some r -> tame t fs e r.
Proof. intros fs e o [-> | ->] r H; [discriminate|]. here H. Qed.
End Rules.
