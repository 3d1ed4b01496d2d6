(** The other rules: exactly what they report. *)
From Verif Require Import Spec.RFlagged Proofs.TextProofs Proofs.RulesProofs Proofs.RStopsProofs Proofs.LintConstant Proofs.RFlaggedProofs
  Proofs.RFlaggedCompare Proofs.RFlaggedCalls Proofs.RFlaggedMore Proofs.RFlaggedTestthat Proofs.RSearchProofs.

(** ** Conditions that are always true *)
Lemma decimal_value : forall a m b x, Forall digit a -> (m = [] /\ b = [] \/ m = lit "." ++ b) -> Forall digit b ->
  a ++ b <> [] -> exponent x -> parse_f64_nonzero (a ++ m ++ x) = Some (some_nonzero (a ++ b)).
Proof.
  intros a m b x Ha Hm Hb Hne Hx. unfold parse_f64_nonzero.
  rewrite take_digits_app; [|exact Ha|].
  2:{ intros d u Hd E. destruct Hm as [[-> ->]| ->]; [exact (exponent_digit _ _ _ Hx Hd E)|].
      cbn in E. injection E as <- _. apply digit_not_point in Hd. congruence. }
  assert (P : match m ++ x with c :: u => if ceqb c 46%N then take_digits u else ([], m ++ x) | [] => ([], []) end = (b, x)).
  { destruct Hm as [[-> ->]| ->].
    - destruct x as [|c u]; [reflexivity|]. cbn [app]. destruct (ceqb c 46%N) eqn:E; [|reflexivity].
      apply N.eqb_eq in E. subst c. destruct (exponent_point _ u Hx eq_refl).
    - change ((if ceqb 46%N 46%N then take_digits (b ++ x) else ([], (lit "." ++ b) ++ x)) = (b, x)).
      unfold ceqb; rewrite N.eqb_refl. apply take_digits_app; [exact Hb|]. intros d u Hd E. exact (exponent_digit _ _ _ Hx Hd E). }
  match goal with |- context [let (_, _) := ?M in _] => replace M with (b, x) by (symmetry; exact P) end.
  destruct (a ++ b) as [|d ds]; [congruence|].
  rewrite (parse_exponent_iff x Hx). reflexivity.
Qed.
Lemma some_nonzero_iff : forall ds, some_nonzero ds = negb (forallb (N.eqb 48) ds).
Proof.
  induction ds as [|d ds IH]; [reflexivity|]. unfold some_nonzero in *. cbn [existsb forallb]. rewrite IH.
  unfold ceqb. rewrite (N.eqb_sym d 48), Bool.negb_andb. reflexivity.
Qed.
Lemma all_zero_iff : forall ds, all_zero ds <-> forallb (N.eqb 48) ds = true.
Proof.
  intro ds. unfold all_zero. rewrite forallb_forall, Forall_forall. split; intros H x Hx; [apply N.eqb_eq|apply N.eqb_eq]; auto.
Qed.
Lemma number_is_iff : forall t b, numeral t -> (number_constant t = ROk (Some b) <-> number_is t b).
Proof.
  intros t b Ht. split.
  - intro H. destruct (is_integer_lit t) eqn:Ei.
    + unfold number_constant in H. rewrite Ei in H. apply integer_iff in Ei. destruct Ei as [a ->].
      match type of H with context [removelast ?x] =>
        replace (removelast x) with a in H by (symmetry; exact (removelast_last a 76%N)) end.
      unfold parse_i64 in H. destruct a as [|c a]; [discriminate|].
      destruct (forallb is_digit (c :: a) && (number (c :: a) <? 9223372036854775808)%N) eqn:E; [|discriminate].
      apply Bool.andb_true_iff in E. destruct E as [E1 E2]. apply N.ltb_lt in E2.
      assert (Hb : negb (number (c :: a) =? 0)%N = b) by congruence. rewrite <- Hb.
      apply integer_is; [discriminate|apply stands_for_iff; split; [apply digits_iff, E1|reflexivity]|exact E2].
    + destruct (number_literal t b Ht H) as (ds & Hd & Hz).
      assert (b = negb (forallb (N.eqb 48) ds)) as ->.
      { rewrite all_zero_iff in Hz. destruct b, (forallb (N.eqb 48) ds); try reflexivity; destruct Hz as [Z1 Z2]; [discriminate (Z2 eq_refl)|discriminate (Z1 eq_refl)]. }
      apply decimal_is; [exact Hd|]. intros a E. assert (is_integer_lit t = true) by (apply integer_iff; eauto). congruence.
  - intro H. unfold number_constant. destruct H as [a v Hn Hs Hv|t ds Hl Hi].
    + assert (E : is_integer_lit (a ++ lit "L") = true) by (apply integer_iff; eauto). rewrite E.
      match goal with |- context [removelast ?x] =>
        replace (removelast x) with a by (symmetry; exact (removelast_last a 76%N)) end.
      apply stands_for_iff in Hs. destruct Hs as [D <-].
      unfold parse_i64. destruct a as [|c a]; [congruence|].
      rewrite (proj2 (digits_iff _) D). change (2 ^ 63)%N with 9223372036854775808%N in Hv. rewrite (proj2 (N.ltb_lt _ _) Hv). reflexivity.
    + destruct (is_integer_lit t) eqn:E.
      { apply integer_iff in E. destruct E as [b E]. destruct (Hi b E). }
      assert (C : is_complex_lit t = false).
      { destruct (is_complex_lit t) eqn:C; [|reflexivity]. apply complex_iff in C. destruct C as [c C]. exfalso.
        assert (D : forall l, Forall digit l -> forall r, l <> r ++ lit "i").
        { intros l Dl r ->. apply Forall_app in Dl. destruct Dl as [_ Dl]. inversion Dl as [|? ? [D1 D2] _]; subst. vm_compute in D2. destruct D2. reflexivity. }
        assert (X : forall x l, exponent x -> Forall digit l -> forall r, l ++ x <> r ++ lit "i").
        { intros x l Hx Dl r F. destruct Hx as [|e s u He Hs Hu Du]; [rewrite app_nil_r in F; exact (D _ Dl _ F)|].
          destruct (exists_last Hu) as (u' & z & ->). rewrite !app_assoc in F. apply app_inj_tail in F. destruct F as [_ ->].
          apply Forall_app in Du. destruct Du as [_ Du]. exact (D _ Du [] eq_refl). }
        destruct Hl as [a Ha Da|a x Ha Da Hx|a b' x Hne Da Db Hx].
        - apply app_inj_tail in C. destruct C as [_ C]. discriminate C.
        - exact (X x a Hx Da c C).
        - destruct Hx as [|e s u He Hs Hu Du].
          + rewrite app_nil_r in C. destruct b' as [|z b'].
            * change (lit "." ++ []) with (lit ".") in C. apply app_inj_tail in C. destruct C as [_ C]. discriminate C.
            * assert (Hz : z :: b' <> []) by discriminate. destruct (exists_last Hz) as (b2 & w & Ew). rewrite Ew in *.
              rewrite !app_assoc in C. apply app_inj_tail in C. destruct C as [_ ->].
              apply Forall_app in Db. destruct Db as [_ Db]. exact (D _ Db [] eq_refl).
          + destruct (exists_last Hu) as (u' & z & ->). rewrite !app_assoc in C. apply app_inj_tail in C. destruct C as [_ ->].
            apply Forall_app in Du. destruct Du as [_ Du]. exact (D _ Du [] eq_refl). }
      rewrite C. rewrite <- some_nonzero_iff. destruct Hl as [a Ha Da|a x Ha Da Hx|a b' x Hne Da Db Hx].
      * destruct (Hi a eq_refl).
      * assert (S : starts_with (lit ".") (a ++ x) = false).
        { destruct (starts_with (lit ".") (a ++ x)) eqn:S; [|reflexivity]. apply starts_with_iff in S.
          destruct S as [r S]. destruct a as [|c a]; [congruence|]. cbn in S. injection S as -> _.
          inversion Da as [|? ? Hc _]; subst. apply digit_not_point in Hc. congruence. }
        rewrite S. pose proof (decimal_value a [] [] x Da (or_introl (conj eq_refl eq_refl)) (Forall_nil _)) as K.
        rewrite !app_nil_r in K. cbn [app] in K. rewrite (K Ha Hx). reflexivity.
      * destruct (starts_with (lit ".") (a ++ lit "." ++ b' ++ x)) eqn:S.
        -- destruct a as [|c a].
           ++ pose proof (decimal_value (lit "0") (lit "." ++ b') b' x) as K. rewrite <- app_assoc in K.
              cbn [app]. rewrite K; [reflexivity| |auto|exact Db|discriminate|exact Hx]. constructor; [split; vm_compute; discriminate|constructor].
           ++ exfalso. apply starts_with_iff in S. destruct S as [r S]. cbn in S. injection S as -> _.
              inversion Da as [|? ? Hc _]; subst. apply digit_not_point in Hc. congruence.
        -- pose proof (decimal_value a (lit "." ++ b') b' x) as K. rewrite <- app_assoc in K. rewrite K; auto.
Qed.
Lemma or_constant_true : forall a b, or_constant a b = Some true <-> a = Some true \/ b = Some true.
Proof. intros [[|]|] [[|]|]; cbn; intuition congruence. Qed.
Lemma or_constant_false : forall a b, or_constant a b = Some false <-> a = Some false /\ b = Some false.
Proof. intros [[|]|] [[|]|]; cbn; intuition congruence. Qed.
Lemma and_constant_true : forall a b, and_constant a b = Some true <-> a = Some true /\ b = Some true.
Proof. intros [[|]|] [[|]|]; cbn; intuition congruence. Qed.
Lemma and_constant_false : forall a b, and_constant a b = Some false <-> a = Some false \/ b = Some false.
Proof. intros [[|]|] [[|]|]; cbn; intuition congruence. Qed.
Lemma always_iff : forall c o, (forall u, deciding c u -> numeral u) -> evaluate_constant_condition c = ROk o ->
  forall b, o = Some b <-> always c b.
Proof.
  induction c as [a|x IHx|u x IHx|p nl l IHl r IHr|f IHf args|d x IHx args|x IHx p n|c IHc t IHt el|ps b' IHb|v q IHq b' IHb|c IHc b' IHb|b' IHb|es];
    intros o Hn H b; try (assert (o = None) as -> by (cbn [evaluate_constant_condition] in H; congruence); split; [discriminate|intro F; inversion F; fail]).
  - destruct a; cbn [evaluate_constant_condition] in H;
      try (assert (o = None) as -> by congruence; split; [discriminate|intro F; inversion F; fail]).
    + split.
      * intros ->. constructor. apply number_is_iff; [apply Hn; constructor|exact H].
      * intro F. inversion F as [| | |t' b' F'| | | | | | |]; subst. apply number_is_iff in F'; [|apply Hn; constructor]. congruence.
    + assert (o = Some true) as -> by congruence. split; [intro E; injection E as <-; constructor|intro F; inversion F; reflexivity].
    + assert (o = Some false) as -> by congruence. split; [intro E; injection E as <-; constructor|intro F; inversion F; reflexivity].
    + destruct (teqb t (lit "Inf")) eqn:E.
      * apply teqb_eq in E. subst t. assert (o = Some true) as -> by congruence.
        split; [intro E; injection E as <-; constructor|intro F; inversion F; reflexivity].
      * assert (o = None) as -> by congruence. split; [discriminate|]. intro F. inversion F; subst. apply teqb_neq in E. destruct E. reflexivity.
  - cbn [evaluate_constant_condition] in H. rewrite (IHx o (fun u Hu => Hn u (deciding_paren _ _ Hu)) H b).
    split; [apply always_paren|intro F; inversion F; auto].
  - destruct u; cbn [evaluate_constant_condition] in H;
      try (assert (o = None) as -> by congruence; split; [discriminate|intro F; inversion F as [| | | | | |? ? ? [K|K]| | | |]; discriminate K]).
    + destruct (evaluate_constant_condition x) as [o'| |] eqn:E; try discriminate H. cbn [rbind] in H.
      assert (o = option_map negb o') as -> by congruence.
      assert (Hx : forall u, deciding x u -> numeral u) by (intros u Hu; apply Hn; apply deciding_unary; cbn; auto).
      specialize (IHx o' Hx eq_refl). split.
      * intro K. destruct o' as [b'|]; [|discriminate K]. cbn in K. injection K as <-. apply always_not, IHx. reflexivity.
      * intro F. inversion F as [| | | | |? b' F'|? ? ? [K|K]| | | |]; subst; try discriminate K. apply IHx in F'. subst o'. reflexivity.
    + rewrite (IHx o (fun u Hu => Hn u (deciding_unary UNeg _ _ (or_intror (or_introl eq_refl)) Hu)) H b).
      split; [apply always_sign; auto|]. intro F. inversion F; auto.
    + rewrite (IHx o (fun u Hu => Hn u (deciding_unary UPos _ _ (or_intror (or_intror (or_introl eq_refl))) Hu)) H b).
      split; [apply always_sign; auto|]. intro F. inversion F; auto.
  - assert (Kl : In p [BOr; BOr2; BAnd; BAnd2] -> forall u, deciding l u -> numeral u) by (intros Hp u Hu; apply Hn, deciding_left; auto).
    assert (Kr : In p [BOr; BOr2; BAnd; BAnd2] -> forall u, deciding r u -> numeral u) by (intros Hp u Hu; apply Hn, deciding_right; auto).
    destruct p; cbn [evaluate_constant_condition] in H;
      try (assert (o = None) as -> by congruence; split; [discriminate|];
           intro F; inversion F as [| | | | | | |? ? ? ? [K|K]|? ? ? ? [K|K]|? ? ? ? [K|K]|? ? ? ? [K|K]]; discriminate K);
      (destruct (evaluate_constant_condition l) as [a1| |]; try discriminate H;
       destruct (evaluate_constant_condition r) as [a2| |]; try discriminate H; cbn [rbind] in H);
      specialize (IHl a1 (Kl ltac:(cbn; auto)) eq_refl); specialize (IHr a2 (Kr ltac:(cbn; auto)) eq_refl);
      [assert (o = or_constant a1 a2) as -> by congruence|assert (o = or_constant a1 a2) as -> by congruence
      |assert (o = and_constant a1 a2) as -> by congruence|assert (o = and_constant a1 a2) as -> by congruence].
    1,2: destruct b; rewrite ?or_constant_true, ?or_constant_false, !IHl, !IHr;
      (split; [intro F; first [apply always_or; [auto|exact F]|destruct F; apply always_nor; auto]
              |intro F; inversion F as [| | | | | | |? ? ? ? K|? ? ? ? K|? ? ? ? K|? ? ? ? K]; subst; auto; destruct K as [K|K]; discriminate K]).
    1,2: destruct b; rewrite ?and_constant_true, ?and_constant_false, !IHl, !IHr;
      (split; [intro F; first [apply always_nand; [auto|exact F]|destruct F; apply always_and; auto]
              |intro F; inversion F as [| | | | | | |? ? ? ? K|? ? ? ? K|? ? ? ? K|? ? ? ? K]; subst; auto; destruct K as [K|K]; discriminate K]).
Qed.
Lemma if_always_true_flags : forall fs e, numerals e -> (ok_some (if_always_true fs e) <-> flags_if_always_true fs e).
Proof.
  intros fs e Hn. unfold flags_if_always_true. destruct e as [ | | | | | | |c t el| | | | | ]; try (ok_off; fail).
  destruct el as [el|]; [ok_off|].
  assert (N : forall u, deciding c u -> numeral u).
  { intros u Hu. apply Hn. cbn [toks]. right. right. apply in_or_app. left. apply deciding_token, Hu. }
  assert (K : (exists c0 t0, EIf c t None = EIf c0 t0 None /\ always c0 true /\ (forall u, deciding c0 u -> understood u)) <->
    always c true /\ forall u, deciding c u -> understood u).
  { split; [intros (c0 & t0 & E & H); injection E as -> ->; exact H|intro H; eauto]. }
  rewrite K. clear K. cbn [if_always_true].
  assert (U : (forall u, deciding c u -> understood u) <-> fine (evaluate_constant_condition c)).
  { rewrite evaluate_fine. split; intros H u Hu; apply (number_constant_fails u (N u Hu)), H, Hu. }
  rewrite U. destruct (evaluate_constant_condition c) as [o| |] eqn:E; cbn [rbind].
  - pose proof (always_iff c o N E true) as A. destruct o as [[|]|].
    + apply ok_yes_iff. split; [apply A; reflexivity|eexists; reflexivity].
    + apply ok_no_iff; [auto|]. intros [F _]. apply A in F. discriminate F.
    + apply ok_no_iff; [auto|]. intros [F _]. apply A in F. discriminate F.
  - apply ok_no_iff; [auto|]. intros [_ [r F]]. discriminate F.
  - apply ok_no_iff; [auto|]. intros [_ [r F]]. discriminate F.
Qed.
