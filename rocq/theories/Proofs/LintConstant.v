(** A condition that if_always_true reports is never FALSE. *)
From Verif Require Import Spec.RSemantics Spec.RFix Spec.RMore.
From Verif Require Import Proofs.TextProofs Proofs.RParse Proofs.RCongruence Proofs.LintFixes.

(** ** Numeric literals *)
Lemma is_digit_iff : forall c, is_digit c = true <-> digit c.
Proof. intro c; unfold is_digit, digit. rewrite Bool.andb_true_iff, !N.leb_le. reflexivity. Qed.
Lemma digits_iff : forall t, forallb is_digit t = true <-> Forall digit t.
Proof.
  intro t; rewrite forallb_forall, Forall_forall. split; intros H c Hc; apply is_digit_iff; auto.
Qed.
Lemma take_digits_spec : forall t a r, take_digits t = (a, r) -> t = a ++ r /\ Forall digit a.
Proof.
  induction t as [|c t IH]; intros a r H; cbn [take_digits] in H.
  - injection H as <- <-. split; [reflexivity|constructor].
  - destruct (is_digit c) eqn:E.
    + destruct (take_digits t) as [a' r'] eqn:F. injection H as <- <-.
      destruct (IH _ _ eq_refl) as [-> Ha]. split; [reflexivity|constructor; [apply is_digit_iff, E|exact Ha]].
    + injection H as <- <-. split; [reflexivity|constructor].
Qed.
Lemma number_acc : forall t k, fold_left (fun a c => (10 * a + (c - 48))%N) t k = 0%N -> Forall digit t ->
  k = 0%N /\ all_zero t.
Proof.
  induction t as [|c t IH]; intros k H D; cbn [fold_left] in H.
  - split; [exact H|constructor].
  - inversion D as [|? ? Dc Dt]; subst. destruct (IH _ H Dt) as [Hk Hz]. unfold digit in Dc.
    split; [lia|]. constructor; [lia|exact Hz].
Qed.
Lemma number_zero : forall t, all_zero t -> number t = 0%N.
Proof.
  unfold number. intros t; induction t as [|c t IH]; intro H; [reflexivity|].
  inversion H; subst. cbn [fold_left]. apply IH. assumption.
Qed.
Lemma parse_exponent_spec : forall t, parse_exponent t = true -> exponent t.
Proof.
  intros [|c t] H; cbn [parse_exponent] in H; [constructor|].
  apply Bool.andb_true_iff in H; destruct H as [He H].
  remember (match t with
            | s :: t'' => if ceqb s 43%N || ceqb s 45%N then t'' else t
            | [] => t
            end) as u eqn:Du in H.
  assert (Hu : exists s, (s = [] \/ s = lit "+" \/ s = lit "-") /\ t = s ++ u).
  { destruct t as [|s t']; [exists []; subst u; split; [auto|reflexivity]|]. subst u.
    destruct (ceqb s 43%N) eqn:E1; [apply N.eqb_eq in E1; subst s; exists (lit "+"); split; [auto|reflexivity]|].
    destruct (ceqb s 45%N) eqn:E2; [apply N.eqb_eq in E2; subst s; exists (lit "-"); split; [auto|reflexivity]|].
    exists []; split; [auto|reflexivity]. }
  destruct Hu as [s [Hs ->]].
  assert (Hc : [c] = lit "e" \/ [c] = lit "E").
  { apply Bool.orb_true_iff in He; destruct He as [He|He]; apply N.eqb_eq in He; subst c; [left|right]; reflexivity. }
  change (c :: s ++ u) with ([c] ++ s ++ u).
  apply an_exponent; auto.
  - destruct u; [discriminate|discriminate].
  - apply digits_iff. destruct u; [discriminate|exact H].
Qed.
Lemma some_nonzero_iff : forall t, some_nonzero t = false <-> all_zero t.
Proof.
  intro t; unfold some_nonzero, all_zero. split.
  - intro H. apply Forall_forall. intros c Hc.
    destruct (N.eq_dec 48 c) as [E|E]; [exact E|].
    assert (existsb (fun c => negb (ceqb c 48%N)) t = true); [|congruence].
    apply existsb_exists; exists c; split; [exact Hc|]. apply Bool.negb_true_iff. apply N.eqb_neq. congruence.
  - intro H. destruct (existsb _ t) eqn:E; [|reflexivity].
    apply existsb_exists in E; destruct E as [c [Hc E]]. rewrite Forall_forall in H. rewrite <- (H c Hc) in E. discriminate.
Qed.
(** The parts of a number that Rust reads. *)
Lemma parse_f64_parts : forall t b, parse_f64_nonzero t = Some b ->
  exists a m b' x, t = a ++ m ++ x /\ Forall digit a /\ (m = [] /\ b' = [] \/ m = lit "." ++ b') /\ Forall digit b' /\
    exponent x /\ a ++ b' <> [] /\ (b = false <-> all_zero (a ++ b')).
Proof.
  intros t b H. unfold parse_f64_nonzero in H.
  destruct (take_digits t) as [a r] eqn:Ea.
  destruct (take_digits_spec _ _ _ Ea) as [Et Da].
  assert (P : exists m b' x, r = m ++ x /\ (m = [] /\ b' = [] \/ m = lit "." ++ b') /\ Forall digit b' /\
     match r with c :: u => if ceqb c 46%N then take_digits u else ([], r) | [] => ([], []) end = (b', x)).
  { destruct r as [|c u]; [exists [], [], []; repeat split; auto|].
    destruct (ceqb c 46%N) eqn:Ec.
    - apply N.eqb_eq in Ec; subst c. destruct (take_digits u) as [b' r'] eqn:Eb.
      destruct (take_digits_spec _ _ _ Eb) as [Eu Db]. exists (lit "." ++ b'), b', r'.
      repeat split; auto. rewrite Eu. reflexivity.
    - exists [], [], (c :: u). repeat split; auto. }
  destruct P as (m & b' & x & Er & Hm & Db & E). rewrite E in H.
  destruct (a ++ b') as [|d ds] eqn:Eab; [discriminate|].
  destruct (parse_exponent x) eqn:Ee; [|discriminate]. injection H as <-.
  exists a, m, b', x. rewrite Eab. repeat split; auto.
  - congruence.
  - apply parse_exponent_spec, Ee.
  - discriminate.
  - exact (proj1 (some_nonzero_iff (d :: ds))).
  - exact (proj2 (some_nonzero_iff (d :: ds))).
Qed.
Lemma digit_not_point : forall c, digit c -> c <> 46%N.
Proof. unfold digit; intros c H; lia. Qed.
Lemma exponent_point : forall x u, exponent x -> x <> 46%N :: u.
Proof.
  intros x u H E. destruct H as [|e s ds He Hs Hn Hd]; [discriminate|].
  destruct He as [ -> | -> ]; discriminate.
Qed.
Lemma exponent_digit : forall x d u, exponent x -> digit d -> x <> d :: u.
Proof.
  intros x d u H Hd E. destruct H as [|e s ds He Hs Hn Hds]; [discriminate|].
  unfold digit in Hd. destruct He as [ -> | -> ]; cbn in E; injection E as E _; lia.
Qed.
Lemma starts_point : forall t, starts_with (lit ".") t = true -> exists u, t = lit "." ++ u.
Proof. intros t H. apply starts_with_iff, H. Qed.
Lemma number_literal : forall t b, numeral t -> number_constant t = ROk (Some b) ->
  exists ds, literal t ds /\ (b = false <-> all_zero ds).
Proof.
  intros t b Ht H. unfold number_constant in H.
  destruct (is_integer_lit t) eqn:Ei.
  - destruct (parse_i64 (removelast t)) as [n|] eqn:En; [|discriminate].
    assert (Hb : negb (n =? 0)%N = b) by congruence. clear H.
    assert (Et : t = removelast t ++ lit "L").
    { unfold is_integer_lit, last_char in Ei. destruct (rev t) as [|c r] eqn:Er; [discriminate|].
      cbn [nth_error] in Ei. apply N.eqb_eq in Ei; subst c.
      assert (t = rev r ++ [76%N]). { rewrite <- (rev_involutive t), Er. reflexivity. }
      rewrite H at 2. rewrite removelast_last. exact H. }
    unfold parse_i64 in En. destruct (removelast t) as [|c a] eqn:Ea; [discriminate|].
    destruct (forallb is_digit (c :: a) && _) eqn:Ed; [|discriminate].
    apply Bool.andb_true_iff in Ed; destruct Ed as [Ed _]. apply digits_iff in Ed.
    assert (number (c :: a) = n) by congruence. subst n.
    exists (c :: a). split.
    + rewrite Et. apply integer_literal; [discriminate|exact Ed].
    + rewrite <- Hb. rewrite Bool.negb_false_iff, N.eqb_eq. split.
      * intro Z. apply (number_acc (c :: a) 0%N Z Ed).
      * apply number_zero.
  - destruct (is_complex_lit t); [discriminate|].
    destruct (starts_with (lit ".") t) eqn:Es.
    + destruct (parse_f64_nonzero (lit "0" ++ t)) as [b'|] eqn:Ep; [|discriminate].
      assert (b' = b) by congruence. subst b'. clear H.
      destruct (starts_point _ Es) as [u ->].
      destruct Ht as (d & w & Dd & [E|E]); [injection E as <- _; apply digit_not_point in Dd; congruence|].
      apply app_inv_head in E; subst u.
      destruct (parse_f64_parts _ _ Ep) as (a & m & b' & x & Et & Da & Hm & Db & Hx & Hne & Hz).
      assert (a = lit "0").
      { destruct a as [|a0 [|a1 a2]].
        - exfalso. destruct Hm as [[-> ->]| ->]; [|discriminate]. apply Hne. reflexivity.
        - cbn in Et. injection Et as <- _. reflexivity.
        - exfalso. cbn in Et. injection Et as _ <- _.
          inversion Da as [|? ? _ D1]; subst. inversion D1 as [|? ? D2 _]; subst. apply digit_not_point in D2; congruence. }
      subst a. apply app_inv_head in Et.
      destruct Hm as [[-> ->]| ->].
      * exfalso. cbn [app] in Et. symmetry in Et. exact (exponent_point _ _ Hx Et).
      * rewrite <- app_assoc in Et. apply app_inv_head in Et.
        exists b'. split.
        -- rewrite Et. apply (decimal_literal [] b' x); auto. 
           destruct b' as [|? ?]; [|discriminate]. exfalso. cbn [app] in Et. symmetry in Et. exact (exponent_digit _ _ _ Hx Dd Et).
        -- rewrite Hz. split; intro Z; [inversion Z; auto|constructor; auto].
    + destruct (parse_f64_nonzero t) as [b'|] eqn:Ep; [|discriminate].
      assert (b' = b) by congruence. subst b'. clear H.
      destruct (parse_f64_parts _ _ Ep) as (a & m & b' & x & Et & Da & Hm & Db & Hx & Hne & Hz).
      exists (a ++ b'). split; [|exact Hz]. subst t.
      destruct Hm as [[-> ->]| ->].
      * rewrite !app_nil_r in *. apply whole_literal; auto.
      * rewrite <- app_assoc. apply decimal_literal; auto.
Qed.

(** ** Values *)
Section Never.
  Variable I : interp.
  Notation val := (value (num I) (other I)).
  (** A logical or numeric vector, none of whose elements is [b]. *)
  Definition never (b : bool) (v : val) : Prop :=
    match v with
    | VLgl l => Forall (fun x => x <> Some b) l
    | VNum l => Forall (fun x => obind x (num_lgl I) <> Some b) l
    | _ => False
    end.

  Lemma never_lgl : forall b v l, never b v -> to_lgl I v = Some l -> Forall (fun x => x <> Some b) l.
  Proof.
    intros b v l H E. destruct v; cbn [never to_lgl] in *; try contradiction.
    - injection E as <-. exact H.
    - injection E as <-. apply Forall_map. exact H.
  Qed.
  Lemma never_cond : forall b v, never b v -> cond I v <> Some b.
  Proof.
    intros b v H E. unfold cond in E. destruct (to_lgl I v) as [l|] eqn:F; [|discriminate].
    apply (never_lgl b v l H) in F. destruct l as [|[c|] [|? ?]]; try discriminate.
    inversion F; subst. congruence.
  Qed.
  Lemma never_single : forall b v x, never b v -> single I v = Some x -> x <> Some b.
  Proof.
    intros b v x H E. unfold single in E.
    assert (G : match to_lgl I v with Some [] => Some None | Some [b] => Some b | _ => None end = Some x).
    { destruct v; try discriminate; exact E. }
    destruct (to_lgl I v) as [l|] eqn:F; [|discriminate].
    apply (never_lgl b v l H) in F. destruct l as [|c [|? ?]]; try discriminate; injection G as <-.
    - discriminate.
    - inversion F; subst; assumption.
  Qed.

  Lemma nth_mod : forall {A} (l : list A) k d, l <> [] -> In (nth (k mod length l) l d) l.
  Proof.
    intros A l k d H. apply nth_In. apply Nat.mod_upper_bound. destruct l; [congruence|discriminate].
  Qed.
  Lemma recycle_all : forall {A B C} (f : option A -> option B -> C) (Q : C -> Prop) l r,
    (forall x y, In x l -> In y r -> Q (f x y)) -> Forall Q (recycle f l r).
  Proof.
    intros A B C f Q l r H. unfold recycle. destruct l as [|x l]; [constructor|]. destruct r as [|y r]; [constructor|].
    apply Forall_forall. intros c Hc. apply in_map_iff in Hc. destruct Hc as (k & <- & _).
    apply H; apply nth_mod; discriminate.
  Qed.

  Lemma logic3_stop_l : forall c x y, x <> Some c -> logic3 c x y <> Some c.
  Proof. intros [] [[]|] [[]|] H; cbn; congruence. Qed.
  Lemma logic3_stop_r : forall c x y, y <> Some c -> logic3 c x y <> Some c.
  Proof. intros [] [[]|] [[]|] H; cbn; congruence. Qed.
  Lemma logic3_both : forall c x y, x <> Some (negb c) -> y <> Some (negb c) -> logic3 c x y <> Some (negb c).
  Proof. intros [] [[]|] [[]|] H G; cbn in *; congruence. Qed.

  Hypothesis HI : plain_logic I.
  Lemma vlogic_lgl : forall c v w u, vlogic I c v w = Some u ->
    exists a b, to_lgl I v = Some a /\ to_lgl I w = Some b /\ u = VLgl (recycle (logic3 c) a b).
  Proof.
    intros c v w u H. unfold vlogic in H.
    destruct v; destruct w; try rewrite HI in H; try discriminate; cbn [to_lgl] in *;
      injection H as <-; do 2 eexists; repeat split.
  Qed.
  Lemma vlogic_stop : forall c v w u, vlogic I c v w = Some u -> never c v \/ never c w -> never c u.
  Proof.
    intros c v w u H K. destruct (vlogic_lgl _ _ _ _ H) as (a & b & Ha & Hb & ->).
    cbn [never]. apply recycle_all. intros x y Hx Hy. destruct K as [K|K].
    - apply logic3_stop_l. exact (proj1 (Forall_forall _ _) (never_lgl _ _ _ K Ha) x Hx).
    - apply logic3_stop_r. exact (proj1 (Forall_forall _ _) (never_lgl _ _ _ K Hb) y Hy).
  Qed.
  Lemma vlogic_both : forall c v w u, vlogic I c v w = Some u ->
    never (negb c) v -> never (negb c) w -> never (negb c) u.
  Proof.
    intros c v w u H K1 K2. destruct (vlogic_lgl _ _ _ _ H) as (a & b & Ha & Hb & ->).
    cbn [never]. apply recycle_all. intros x y Hx Hy. apply logic3_both.
    - exact (proj1 (Forall_forall _ _) (never_lgl _ _ _ K1 Ha) x Hx).
    - exact (proj1 (Forall_forall _ _) (never_lgl _ _ _ K2 Hb) y Hy).
  Qed.

  Lemma shortcut_never : forall c e f s v s', shortcut I c (eval I e) (eval I f) s = Some (v, s') ->
    (yields I e (never c) \/ yields I f (never c) -> never c v) /\
    (yields I e (never (negb c)) -> yields I f (never (negb c)) -> never (negb c) v).
  Proof.
    intros c e f s v s' H. unfold shortcut, cbind in H.
    destruct (eval I e s) as [[x s1]|] eqn:E1; [|discriminate].
    destruct (single I x) as [o|] eqn:S1; [|discriminate].
    destruct (match o with Some b => Bool.eqb b (negb c) | None => false end) eqn:B.
    - unfold cret in H. injection H as <- <-. destruct o as [b|]; [|discriminate]. apply Bool.eqb_prop in B; subst b.
      split.
      + intros _. constructor; [destruct c; discriminate|constructor].
      + intros K _. exfalso. exact (never_single _ _ _ (K _ _ _ E1) S1 eq_refl).
    - destruct (eval I f s1) as [[y s2]|] eqn:E2; [|discriminate].
      destruct (single I y) as [o'|] eqn:S2; [|discriminate].
      unfold cret in H. injection H as <- <-. split.
      + intros K. constructor; [|constructor]. destruct K as [K|K].
        * apply logic3_stop_l. exact (never_single _ _ _ (K _ _ _ E1) S1).
        * apply logic3_stop_r. exact (never_single _ _ _ (K _ _ _ E2) S2).
      + intros K1 K2. constructor; [|constructor]. apply logic3_both.
        * exact (never_single _ _ _ (K1 _ _ _ E1) S1).
        * exact (never_single _ _ _ (K2 _ _ _ E2) S2).
  Qed.
  Lemma strict2_inv : forall f (c d : comp I) s v s', strict2 I f c d s = Some (v, s') ->
    exists x s1 y, c s = Some (x, s1) /\ d s1 = Some (y, s') /\ f x y = Some v.
  Proof.
    intros f c d s v s' H. unfold strict2, cbind in H.
    destruct (c s) as [[x s1]|] eqn:E1; [|discriminate].
    destruct (d s1) as [[y s2]|] eqn:E2; [|discriminate].
    unfold clift in H. destruct (f x y) as [u|] eqn:E3; [|discriminate]. injection H as <- <-.
    exists x, s1, y. auto.
  Qed.
  Lemma strict1_inv : forall f (c : comp I) s v s', strict1 I f c s = Some (v, s') ->
    exists x, c s = Some (x, s') /\ f x = Some v.
  Proof.
    intros f c s v s' H. unfold strict1, cbind in H.
    destruct (c s) as [[x s1]|] eqn:E1; [|discriminate].
    unfold clift in H. destruct (f x) as [u|] eqn:E3; [|discriminate]. injection H as <- <-.
    exists x. auto.
  Qed.

  Lemma num_lgl_sign : forall (m : bool) x, num_lgl I ((if m then nneg I else fun x => x) x) = num_lgl I x.
  Proof.
    intros [] x; [|reflexivity]. unfold num_lgl. rewrite nneg_num. destruct (isnan I x); [reflexivity|].
    f_equal. pose proof (nneg_zero I x) as Z.
    destruct (ncmp I (nneg I x) (nnat I 0)), (ncmp I x (nnat I 0)); try reflexivity; exfalso; intuition discriminate.
  Qed.
  Lemma num_lgl_bool : forall b, num_lgl I (bnum I b) = Some b.
  Proof.
    intro b. unfold num_lgl, bnum. rewrite nnat_num, nnat_cmp. destruct b; reflexivity.
  Qed.
  Lemma vsign_never : forall m b v u, vsign I m v = Some u -> never b v -> never b u.
  Proof.
    intros m b v u H K. destruct v; cbn [vsign never] in *; try contradiction; injection H as <-; cbn [never].
    - apply Forall_map. eapply Forall_impl; [|exact K]. intros [x|] Hx; cbn [option_map obind]; [|discriminate].
      rewrite num_lgl_sign, num_lgl_bool. exact Hx.
    - apply Forall_map. eapply Forall_impl; [|exact K]. intros [x|] Hx; cbn [option_map obind] in *; [|discriminate].
      rewrite num_lgl_sign. exact Hx.
  Qed.
  Lemma vnot_never : forall b v u, vnot I v = Some u -> never b v -> never (negb b) u.
  Proof.
    intros b v u H K. destruct v; cbn [vnot never] in *; try contradiction; injection H as <-; cbn [never].
    - apply Forall_map. eapply Forall_impl; [|exact K]. intros [[]|] Hx; destruct b; cbn in *; congruence.
    - apply Forall_map. eapply Forall_impl; [|exact K]. intros x Hx. cbv beta in *.
      destruct (obind x (num_lgl I)) as [[]|]; destruct b; cbn in *; congruence.
  Qed.

  Lemma literal_never : forall t b, numeral t -> number_constant t = ROk (Some b) ->
    never (negb b) (VNum [Some (nlit I t)]).
  Proof.
    intros t b Ht H. destruct (number_literal t b Ht H) as (ds & Hl & Hz).
    constructor; [|constructor]. cbn [obind]. unfold num_lgl. rewrite nlit_num.
    pose proof (nlit_zero I t ds Hl) as Z.
    destruct (ncmp I (nlit I t) (nnat I 0)) eqn:E.
    - destruct b; [|discriminate]. exfalso.
      assert (true = false) by (apply Hz, Z; reflexivity). discriminate.
    - destruct b; [discriminate|]. exfalso. assert (Lt = Eq) by (apply Z, Hz; reflexivity). discriminate.
    - destruct b; [discriminate|]. exfalso. assert (Gt = Eq) by (apply Z, Hz; reflexivity). discriminate.
  Qed.

  Definition op_constant (c : bool) := if c then and_constant else or_constant.
  Lemma op_constant_cases : forall c a b k, op_constant c a b = Some k ->
    (k = negb c /\ (a = Some (negb c) \/ b = Some (negb c))) \/ (k = c /\ a = Some c /\ b = Some c).
  Proof.
    intros [] [[]|] [[]|] k H; cbn in *; try discriminate; injection H as <-; auto.
  Qed.

  Definition lawful (e : expr) : Prop :=
    forall b, numerals e -> evaluate_constant_condition e = ROk (Some b) -> yields I e (never (negb b)).
  Lemma rbind_ok : forall {A B} (x : res A) (f : A -> res B) b, rbind x f = ROk b -> exists a, x = ROk a /\ f a = ROk b.
  Proof. intros A B [a| |] f b H; cbn in H; try discriminate. exists a. auto. Qed.

  Lemma yields_op : forall c l r a b k, (forall s v s', eval I l s = Some (v, s') -> True) ->
    evaluate_constant_condition l = ROk a -> evaluate_constant_condition r = ROk b ->
    numerals l -> numerals r -> lawful l -> lawful r ->
    op_constant c a b = Some k ->
    (k = negb c /\ (yields I l (never c) \/ yields I r (never c))) \/
    (k = c /\ yields I l (never (negb c)) /\ yields I r (never (negb c))).
  Proof.
    intros c l r a b k _ Ea Eb Nl Nr Hl Hr H.
    destruct (op_constant_cases _ _ _ _ H) as [[-> [->| ->]]|(-> & -> & ->)].
    - left. split; [reflexivity|left]. rewrite <- (Bool.negb_involutive c). apply Hl; auto.
    - left. split; [reflexivity|right]. rewrite <- (Bool.negb_involutive c). apply Hr; auto.
    - right. split; [reflexivity|]. split; [apply Hl|apply Hr]; auto.
  Qed.

  Lemma constant_never : forall e, lawful e.
  Proof.
    induction e using expr_ind2; intros b N Hc; cbn [evaluate_constant_condition] in Hc; try discriminate.
    - destruct a; try discriminate.
      + intros s v s' E. cbn in E. unfold cret in E. injection E as <- <-. apply literal_never; auto.
        apply N. left. reflexivity.
      + injection Hc as <-. intros s v s' E. cbn in E. unfold cret in E. injection E as <- <-.
        constructor; [discriminate|constructor].
      + injection Hc as <-. intros s v s' E. cbn in E. unfold cret in E. injection E as <- <-.
        constructor; [discriminate|constructor].
      + destruct (teqb t (lit "Inf")) eqn:Et; [|discriminate]. injection Hc as <-.
        apply teqb_eq in Et; subst t. intros s v s' E. change (eval I (EAtom (AOther (lit "Inf"))) s) with
          (Some (@VNum (num I) (other I) [Some (ninf I)], s)) in E. injection E as <- <-.
        constructor; [|constructor]. cbn [obind]. unfold num_lgl. rewrite ninf_num.
        pose proof (ninf_not_zero I) as Z. destruct (ncmp I (ninf I) (nnat I 0)); [congruence|discriminate|discriminate].
    - apply IHe; auto. intros t Ht. apply N. cbn [toks]. right. apply in_or_app. left. exact Ht.
    - assert (Ne : numerals e).
      { intros t Ht. apply N. cbn [toks]. right. exact Ht. }
      destruct u; try discriminate.
      + apply rbind_ok in Hc. destruct Hc as (o & Ho & Hc).
        destruct o as [c|]; cbn [option_map] in Hc; [|discriminate].
        assert (Hb : b = negb c) by congruence. subst b.
        intros s v s' E. change (eval I (EUn UNot e) s) with (strict1 I (vnot I) (eval I e) s) in E.
        apply strict1_inv in E. destruct E as (x & E & F).
        apply (vnot_never (negb c) x v F). eapply IHe; eauto.
      + intros s v s' E. change (eval I (EUn UNeg e) s) with (strict1 I (vsign I true) (eval I e) s) in E.
        apply strict1_inv in E. destruct E as (x & E & F).
        apply (vsign_never true _ x v F). eapply IHe; eauto.
      + intros s v s' E. change (eval I (EUn UPos e) s) with (strict1 I (vsign I false) (eval I e) s) in E.
        apply strict1_inv in E. destruct E as (x & E & F).
        apply (vsign_never false _ x v F). eapply IHe; eauto.
    - assert (N1 : numerals e1).
      { intros t Ht. apply N. cbn [toks]. apply in_or_app. left. exact Ht. }
      assert (N2 : numerals e2).
      { intros t Ht. apply N. cbn [toks]. rewrite !in_app_iff. cbn. rewrite ?in_app_iff. tauto. }
      assert (P : forall c, rbind (evaluate_constant_condition e1) (fun a =>
                    rbind (evaluate_constant_condition e2) (fun b => ROk (op_constant c a b))) = ROk (Some b) ->
         (b = negb c /\ (yields I e1 (never c) \/ yields I e2 (never c))) \/
         (b = c /\ yields I e1 (never (negb c)) /\ yields I e2 (never (negb c)))).
      { intros c G. apply rbind_ok in G. destruct G as (a & Ea & G). apply rbind_ok in G. destruct G as (b' & Eb & G).
        eapply yields_op; eauto. congruence. }
      destruct o; try discriminate.
      + specialize (P false Hc). intros s v s' E.
        change (eval I (EBin BOr nl e1 e2) s) with (strict2 I (vlogic I false) (eval I e1) (eval I e2) s) in E.
        apply strict2_inv in E. destruct E as (x & s1 & y & E1 & E2 & F).
        destruct P as [(-> & [P|P])|(-> & P1 & P2)]; cbn [negb].
        * eapply vlogic_stop; eauto.
        * eapply vlogic_stop; eauto.
        * eapply (vlogic_both false); eauto.
      + specialize (P false Hc). intros s v s' E.
        change (eval I (EBin BOr2 nl e1 e2) s) with (shortcut I false (eval I e1) (eval I e2) s) in E.
        apply shortcut_never in E. destruct E as [F1 F2].
        destruct P as [(-> & P)|(-> & P1 & P2)]; [exact (F1 P)|exact (F2 P1 P2)].
      + specialize (P true Hc). intros s v s' E.
        change (eval I (EBin BAnd nl e1 e2) s) with (strict2 I (vlogic I true) (eval I e1) (eval I e2) s) in E.
        apply strict2_inv in E. destruct E as (x & s1 & y & E1 & E2 & F).
        destruct P as [(-> & [P|P])|(-> & P1 & P2)]; cbn [negb].
        * eapply vlogic_stop; eauto.
        * eapply vlogic_stop; eauto.
        * eapply (vlogic_both true); eauto.
      + specialize (P true Hc). intros s v s' E.
        change (eval I (EBin BAnd2 nl e1 e2) s) with (shortcut I true (eval I e1) (eval I e2) s) in E.
        apply shortcut_never in E. destruct E as [F1 F2].
        destruct P as [(-> & P)|(-> & P1 & P2)]; [exact (F1 P)|exact (F2 P1 P2)].
  Qed.
End Never.

Lemma if_always_true_never_false : forall I fs c t r,
  plain_logic I -> numerals c -> if_always_true fs (EIf c t None) = ROk (Some r) ->
  yields I c (fun v => cond I v <> Some false).
Proof.
  intros I fs c t r HI N H. cbn [if_always_true] in H. apply rbind_ok in H. destruct H as (o & Ho & H).
  destruct o as [[]|]; try discriminate. intros s v s' E.
  apply never_cond. exact (constant_never I HI c true N Ho s v s' E).
Qed.
