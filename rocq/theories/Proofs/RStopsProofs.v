(** When a rule fails, exactly. *)
From Verif Require Import Spec.RStops Proofs.TextProofs Proofs.RulesProofs Proofs.RContext Proofs.RSearchProofs Proofs.LintConstant.

(** ** Names and arguments *)
Lemma function_name_iff : forall f n, n <> [] -> (get_function_name f = n <-> function_name f n).
Proof.
  intros f n Hn. split.
  - intro H. destruct f as [a| | | | | |x op b| | | | | | ]; cbn [get_function_name] in H; try (destruct Hn; symmetry; exact H).
    + destruct a; cbn [get_function_name] in H; try (destruct Hn; symmetry; exact H); try (subst n; constructor).
      destruct (teqb t (lit "return")) eqn:E; [|destruct Hn; symmetry; exact H].
      apply teqb_eq in E. subst. constructor.
    + destruct x as [a| | | | | | | | | | | | ]; try (destruct Hn; symmetry; exact H).
      destruct a; try (destruct Hn; symmetry; exact H). subst n. constructor.
  - intro H. destruct H; reflexivity.
Qed.
Lemma named_is : forall f n, n <> [] -> teqb (get_function_name f) n = true <-> function_name f n.
Proof. intros f n Hn. rewrite teqb_eq. apply function_name_iff, Hn. Qed.
Lemma named_in : forall f l, ~ In [] l ->
  (mem (get_function_name f) l = true <-> exists n, In n l /\ function_name f n).
Proof.
  intros f l Hl. rewrite mem_iff. split.
  - intro H. exists (get_function_name f). split; [exact H|]. apply function_name_iff; [|reflexivity].
    intro E. rewrite E in H. auto.
  - intros (n & Hn & Hf). apply function_name_iff in Hf; [subst n; exact Hn|]. intros ->. auto.
Qed.
Lemma has_name_iff : forall n a, has_name n a = true <-> fst a = Some n.
Proof.
  intros n [[m|] v]; cbn; [rewrite teqb_eq|]; split; intro H; try discriminate; congruence.
Qed.
Lemma not_named_iff : forall n args, not_named n args <-> find (has_name n) args = None.
Proof.
  intros n args. induction args as [|a args IH]; cbn [find].
  - split; [reflexivity|intros _ v []].
  - destruct (has_name n a) eqn:E.
    + apply has_name_iff in E. split; [|discriminate]. intro H. exfalso.
      destruct a as [m v]. cbn in E. subst m. apply (H v). left. reflexivity.
    + rewrite <- IH. unfold not_named. split.
      * intros H v Hin. apply (H v). right. exact Hin.
      * intros H v [Hin|Hin]; [subst a|exact (H v Hin)].
        assert (has_name n (Some n, v) = true) by (apply has_name_iff; reflexivity). congruence.
Qed.
Lemma find_first : forall {A} (k : A -> bool) l a, find k l = Some a <->
  exists pre post, l = pre ++ a :: post /\ k a = true /\ find k pre = None.
Proof.
  intros A k l a. induction l as [|x l IH]; cbn [find].
  - split; [discriminate|]. intros (pre & post & H & _). destruct pre; discriminate H.
  - destruct (k x) eqn:E.
    + split.
      * intro H. injection H as <-. exists [], l. auto.
      * intros (pre & post & H & Hk & Hp). destruct pre as [|y pre].
        -- injection H as -> ->. reflexivity.
        -- injection H as -> ->. cbn in Hp. rewrite E in Hp. discriminate.
    + rewrite IH. split.
      * intros (pre & post & -> & Hk & Hp). exists (x :: pre), post. cbn. rewrite E. auto.
      * intros (pre & post & H & Hk & Hp). destruct pre as [|y pre].
        -- injection H as -> ->. congruence.
        -- injection H as -> ->. cbn in Hp. rewrite E in Hp. eauto.
Qed.
Lemma chosen_iff : forall args n k a, get_arg_by_name_then_position args n k = Some a <-> chosen args n k a.
Proof.
  intros args n k a. unfold get_arg_by_name_then_position, get_arg_by_name.
  destruct (find (has_name n) args) as [b|] eqn:E.
  - assert (E' := E). apply find_first in E'. destruct E' as (pre & post & -> & Hb & Hp).
    apply has_name_iff in Hb. destruct b as [m v]. cbn in Hb. subst m. split.
    + intro H. injection H as <-. apply by_name with pre post; [reflexivity|]. apply not_named_iff, Hp.
    + intro H. destruct H as [pre' v' post' H Hn|a Hn _].
      * f_equal. assert (F : find (has_name n) (pre' ++ (Some n, v') :: post') = Some (Some n, v')).
        { apply find_first. exists pre', post'. split; [reflexivity|]. split; [apply has_name_iff; reflexivity|].
          apply not_named_iff, Hn. }
        rewrite <- H in F. congruence.
      * exfalso. apply not_named_iff in Hn. congruence.
  - split.
    + intro H. apply by_position; [apply not_named_iff, E|exact H].
    + intro H. destruct H as [pre v post -> Hn|a Hn H]; [|exact H]. exfalso.
      apply (proj2 (not_named_iff n _)) in E. apply (E v). apply in_or_app. right. left. reflexivity.
Qed.
Lemma not_chosen : forall args n k, get_arg_by_name_then_position args n k = None <-> forall a, ~ chosen args n k a.
Proof.
  intros args n k. split.
  - intros H a Ha. apply chosen_iff in Ha. congruence.
  - intro H. destruct (get_arg_by_name_then_position args n k) as [a|] eqn:E; [|reflexivity].
    apply chosen_iff in E. destruct (H a E).
Qed.
Lemma one_token : forall g t, toks g = [TAtom t] -> g = EAtom t.
Proof.
  intros g t H.
  destruct g as [a|x|u x|o nl l r|f args|d x args|x o n|c b el|ps b|v q b|c b|b|es]; cbn [toks] in H; try discriminate H.
  - congruence.
  - destruct u; discriminate H.
  - destruct (toks l) as [|x [|y l']]; destruct nl; discriminate H.
  - destruct (toks f) as [|x [|y l']]; discriminate H.
  - destruct (toks x) as [|x' [|y l']]; discriminate H.
  - destruct (toks x) as [|x' [|y l']]; discriminate H.
Qed.

(** ** Numbers *)
Lemma number_snoc : forall a c, number (a ++ [c]) = (10 * number a + (c - 48))%N.
Proof. intros a c. unfold number. now rewrite fold_left_app. Qed.
Lemma stands_for_iff : forall a v, stands_for a v <-> Forall digit a /\ number a = v.
Proof.
  intros a v. split.
  - intro H. induction H as [|a v c d H [D N] Hd ->]; [split; [constructor|reflexivity]|]. split.
    + apply Forall_app. split; [exact D|]. constructor; [unfold digit; lia|constructor].
    + rewrite number_snoc, N. lia.
  - intros [D <-]. induction a as [|c a IH] using rev_ind; [constructor|].
    apply Forall_app in D. destruct D as [D Dc]. inversion Dc as [|? ? Hc _]; subst. unfold digit in Hc.
    rewrite number_snoc. apply one_more_digit; [apply IH, D|lia|lia].
Qed.
Lemma last_is : forall t c, (exists a, t = a ++ [c]) <-> last_char t = Some c.
Proof.
  intros t c. unfold last_char. split.
  - intros [a ->]. rewrite rev_app_distr. reflexivity.
  - intro H. destruct (rev t) as [|d r] eqn:E; [discriminate|]. cbn in H. injection H as ->.
    exists (rev r). rewrite <- (rev_involutive t), E. reflexivity.
Qed.
Lemma integer_iff : forall t, is_integer_lit t = true <-> exists a, t = a ++ lit "L".
Proof.
  intro t. rewrite (last_is t 76%N). unfold is_integer_lit. destruct (last_char t) as [c|].
  - unfold ceqb. rewrite N.eqb_eq. split; [intros ->; reflexivity|intro H; injection H as ->; reflexivity].
  - split; discriminate.
Qed.
Lemma complex_iff : forall t, is_complex_lit t = true <-> exists a, t = a ++ lit "i".
Proof.
  intro t. rewrite (last_is t 105%N). unfold is_complex_lit. destruct (last_char t) as [c|].
  - unfold ceqb. rewrite N.eqb_eq. split; [intros ->; reflexivity|intro H; injection H as ->; reflexivity].
  - split; discriminate.
Qed.
Lemma take_digits_app : forall a r, Forall digit a -> (forall d u, digit d -> r <> d :: u) -> take_digits (a ++ r) = (a, r).
Proof.
  induction a as [|c a IH]; intros r H Hr.
  - destruct r as [|c r]; [reflexivity|]. cbn. destruct (is_digit c) eqn:E; [|reflexivity].
    apply is_digit_iff in E. destruct (Hr c r E eq_refl).
  - inversion H as [|? ? Hc Ha]; subst. cbn. rewrite (proj2 (is_digit_iff c) Hc). rewrite (IH r Ha Hr). reflexivity.
Qed.
Lemma parse_exponent_iff : forall x, exponent x -> parse_exponent x = true.
Proof.
  intros x H. destruct H as [|e s ds He Hs Hn Hd]; [reflexivity|].
  assert (D : forallb is_digit ds = true) by (apply digits_iff, Hd).
  destruct ds as [|d ds]; [congruence|].
  assert (Dd : digit d) by (inversion Hd; auto). unfold digit in Dd.
  assert (E1 : ceqb d 43%N = false) by (apply N.eqb_neq; lia).
  assert (E2 : ceqb d 45%N = false) by (apply N.eqb_neq; lia).
  destruct He as [ -> | -> ]; destruct Hs as [ -> | [ -> | -> ] ]; cbn -[forallb ceqb];
    rewrite ?E1, ?E2; exact D.
Qed.
Lemma parse_decimal : forall a m b x, Forall digit a -> (m = [] /\ b = [] \/ m = lit "." ++ b) -> Forall digit b ->
  a ++ b <> [] -> exponent x -> exists k, parse_f64_nonzero (a ++ m ++ x) = Some k.
Proof.
  intros a m b x Ha Hm Hb Hne Hx. unfold parse_f64_nonzero.
  rewrite take_digits_app; [|exact Ha|].
  2:{ intros d u Hd E. destruct Hm as [[-> ->]| ->]; [exact (exponent_digit _ _ _ Hx Hd E)|].
      cbn in E. injection E as <- _. apply digit_not_point in Hd. congruence. }
  assert (P : match m ++ x with c :: u => if ceqb c 46%N then take_digits u else ([], m ++ x) | [] => ([], []) end = (b, x)).
  { destruct Hm as [[-> ->]| ->].
    - destruct x as [|c u]; [reflexivity|]. cbn [app]. destruct (ceqb c 46%N) eqn:E; [|reflexivity].
      apply N.eqb_eq in E. subst c. destruct (exponent_point _ u Hx eq_refl).
    - change ((if ceqb 46%N 46%N then take_digits (b ++ x) else ([], (lit "." ++ b) ++ x)) = (b, x)).
      unfold ceqb; rewrite N.eqb_refl. apply take_digits_app; [exact Hb|]. intros d u Hd E. exact (exponent_digit _ _ _ Hx Hd E). }
  match goal with |- context [let (_, _) := ?M in _] => replace M with (b, x) by (symmetry; exact P) end.
  destruct (a ++ b) as [|d ds]; [congruence|].
  rewrite (parse_exponent_iff x Hx). eauto.
Qed.
Lemma number_constant_fails : forall t, numeral t ->
  ((exists o, number_constant t = ROk o) <-> understood t).
Proof.
  intros t Ht. split.
  - intros [o H]. destruct o as [b|].
    + destruct (is_integer_lit t) eqn:Ei.
      * unfold number_constant in H. rewrite Ei in H.
        apply integer_iff in Ei. destruct Ei as [a ->].
        match type of H with context [removelast ?x] =>
          replace (removelast x) with a in H by (symmetry; exact (removelast_last a 76%N)) end.
        unfold parse_i64 in H.
        destruct a as [|c a]; [discriminate|].
        destruct (forallb is_digit (c :: a) && (number (c :: a) <? 9223372036854775808)%N) eqn:E; [|discriminate].
        apply Bool.andb_true_iff in E. destruct E as [E1 E2]. apply N.ltb_lt in E2.
        apply an_integer with (number (c :: a)); [discriminate|apply stands_for_iff; split; [apply digits_iff, E1|reflexivity]|].
        exact E2.
      * destruct (number_literal t b Ht H) as (ds & Hd & _). apply a_decimal with ds; [exact Hd|].
        intros a E. assert (is_integer_lit t = true) by (apply integer_iff; eauto). congruence.
    + unfold number_constant in H.
      destruct (is_integer_lit t); [destruct (parse_i64 (removelast t)); discriminate|].
      destruct (is_complex_lit t) eqn:E.
      * apply complex_iff in E. destruct E as [a ->]. constructor.
      * match type of H with match ?m with _ => _ end = _ => destruct m; discriminate end.
  - intro H. unfold number_constant. destruct H as [a v Hn Hs Hv|a|t ds Hl Hi].
    + assert (E : is_integer_lit (a ++ lit "L") = true) by (apply integer_iff; eauto). rewrite E.
      match goal with |- context [removelast ?x] =>
        replace (removelast x) with a by (symmetry; exact (removelast_last a 76%N)) end.
      apply stands_for_iff in Hs. destruct Hs as [D <-].
      unfold parse_i64. destruct a as [|c a]; [congruence|].
      rewrite (proj2 (digits_iff _) D). change (2 ^ 63)%N with 9223372036854775808%N in Hv. rewrite (proj2 (N.ltb_lt _ _) Hv). eexists. reflexivity.
    + destruct (is_integer_lit (a ++ lit "i")) eqn:E.
      * apply integer_iff in E. destruct E as [b E]. apply app_inj_tail in E. destruct E as [_ E]. discriminate E.
      * assert (E2 : is_complex_lit (a ++ lit "i") = true) by (apply complex_iff; eauto). rewrite E2. eauto.
    + destruct (is_integer_lit t) eqn:E.
      * apply integer_iff in E. destruct E as [b E]. destruct (Hi b E).
      * destruct (is_complex_lit t); [eauto|]. destruct Hl as [a Ha Da|a x Ha Da Hx|a b x Hne Da Db Hx].
        -- destruct (Hi a eq_refl).
        -- assert (S : starts_with (lit ".") (a ++ x) = false).
           { destruct (starts_with (lit ".") (a ++ x)) eqn:S; [|reflexivity]. apply starts_with_iff in S.
             destruct S as [r S]. destruct a as [|c a]; [congruence|]. cbn in S. injection S as -> _.
             inversion Da as [|? ? Hc _]; subst. apply digit_not_point in Hc. congruence. }
           rewrite S. destruct (parse_decimal a [] [] x Da (or_introl (conj eq_refl eq_refl)) (Forall_nil _)) as [k Hk];
             [rewrite app_nil_r; exact Ha|exact Hx|]. cbn [app] in Hk. rewrite Hk. eauto.
        -- destruct (starts_with (lit ".") (a ++ lit "." ++ b ++ x)) eqn:S.
           ++ destruct a as [|c a].
              ** destruct (parse_decimal (lit "0") (lit "." ++ b) b x) as [k Hk]; auto.
                 { constructor; [split; vm_compute; discriminate|constructor]. } { discriminate. }
                 cbn [app]. rewrite <- app_assoc in Hk. rewrite Hk. eauto.
              ** exfalso. apply starts_with_iff in S. destruct S as [r S]. cbn in S. injection S as -> _.
                 inversion Da as [|? ? Hc _]; subst. apply digit_not_point in Hc. congruence.
           ++ destruct (parse_decimal a (lit "." ++ b) b x) as [k Hk]; auto.
              rewrite <- app_assoc in Hk. rewrite Hk. eauto.
Qed.

(** ** The rules that can fail *)
Lemma deciding_token : forall c u, deciding c u -> In (TAtom (ANum u)) (toks c).
Proof.
  intros c u H. induction H; cbn [toks]; try (left; reflexivity).
  - right. apply in_or_app. left. exact IHdeciding.
  - right. exact IHdeciding.
  - apply in_or_app. left. exact IHdeciding.
  - apply in_or_app. right. apply in_or_app. right. right. exact IHdeciding.
Qed.
Lemma rbind_fine : forall {A B} (a : res A) (k : A -> B),
  fine (rbind a (fun x => ROk (k x))) <-> fine a.
Proof.
  intros A B [x| |] k; cbn; unfold fine; split; intros [l H]; try discriminate H; eauto.
Qed.
Lemma rbind2_fine : forall {A B} (a b : res A) (k : A -> A -> B),
  fine (rbind a (fun x => rbind b (fun y => ROk (k x y)))) <-> fine a /\ fine b.
Proof.
  intros A B [x| |] [y| |] k; cbn; unfold fine; split; intros H; try (destruct H as [l H]; discriminate H);
    try (destruct H as [[l H] [m H']]; discriminate); eauto.
Qed.
Lemma evaluate_fine : forall c,
  fine (evaluate_constant_condition c) <-> forall u, deciding c u -> fine (number_constant u).
Proof.
  assert (T : forall {A} (x : A), fine (ROk x)) by (intros; eexists; reflexivity).
  assert (N : forall e, (forall u, ~ deciding e u) -> (fine (@ROk (option bool) None) <-> forall u, deciding e u -> fine (number_constant u))).
  { intros e H. split; [intros _ u Hu; destruct (H u Hu)|intros _; apply T]. }
  induction c as [a|x IHx|u x IHx|o nl l IHl r IHr|f IHf args|d x IHx args|x IHx o n|c IHc t IHt el|ps b IHb|v q IHq b IHb|c IHc b IHb|b IHb|es];
    cbn [evaluate_constant_condition]; try (apply N; intros w H; inversion H; fail).
  - destruct a; try (split; [intros _ u Hu; inversion Hu|intros _; apply T]; fail).
    + split.
      * intros H u Hu. inversion Hu; subst. exact H.
      * intro H. apply H. constructor.
    + split; [intros _ u Hu; inversion Hu|intros _]. destruct (teqb t (lit "Inf")); apply T.
  - rewrite IHx. split; intros H u Hu; [inversion Hu; subst; auto|apply H; constructor; exact Hu].
  - assert (E : forall v, In v [UNot; UNeg; UPos] ->
      (fine (evaluate_constant_condition x) <-> forall w, deciding (EUn v x) w -> fine (number_constant w))).
    { intros v Hv. rewrite IHx. split; intros H w Hw; [inversion Hw; subst; auto|apply H; constructor; auto]. }
    destruct u; try (rewrite rbind_fine); try (apply E; cbn; auto; fail).
    apply N. intros w H. inversion H as [| |? ? ? Hin| |]; subst. cbn in Hin. intuition discriminate.
  - assert (E : forall v, In v [BOr; BOr2; BAnd; BAnd2] ->
      (fine (evaluate_constant_condition l) /\ fine (evaluate_constant_condition r) <->
       forall w, deciding (EBin v nl l r) w -> fine (number_constant w))).
    { intros v Hv. rewrite IHl, IHr. split.
      - intros [H1 H2] w Hw. inversion Hw; subst; auto.
      - intros H. split; intros w Hw; apply H; [apply deciding_left|apply deciding_right]; auto. }
    destruct o; try (rewrite rbind2_fine; apply E; cbn; auto 6; fail);
      apply N; intros w H; inversion H as [| | |? ? ? ? ? Hin|? ? ? ? ? Hin]; subst; cbn in Hin; intuition discriminate.
Qed.

Lemma not_fine : forall {A} (a : res A), ~ fine a <-> forall l, a <> ROk l.
Proof. intros A a. unfold fine. split; [intros H l E; apply H; eauto|intros H [l E]; exact (H l E)]. Qed.
Lemma failing_fine : forall f fs e, fine (failing f fs e) <-> fine (f fs e).
Proof. intros f fs e. unfold failing. apply rbind_fine. Qed.
Ltac nn := intro; discriminate.

Lemma length_test_stops : forall fs e, ~ fine (length_test fs e) <-> stops (lit "length_test") e.
Proof.
  intros fs e. split.
  - intro H. destruct e as [ | | | |f args| | | | | | | | ]; try (destruct H; eexists; reflexivity).
    cbn [length_test] in H. destruct (teqb (get_function_name f) (lit "length")) eqn:E; cbn [negb] in H; [|destruct H; eexists; reflexivity].
    apply (named_is f (lit "length")) in E; [|nn].
    destruct args as [|[n [v|]] args]; try (destruct H; eexists; reflexivity).
    + destruct v; try (destruct H; eexists; reflexivity). destruct o; destruct H; eexists; reflexivity.
    + apply empty_length, E.
  - intro H. inversion H as [f n args Hf| | | | |]; subst. cbn [length_test].
    apply (named_is f (lit "length")) in Hf; [|nn]. rewrite Hf.
    intros [l Hl]. discriminate Hl.
Qed.
Lemma lengths_stops : forall fs e, ~ fine (lengths_rule fs e) <-> stops (lit "lengths") e.
Proof.
  intros fs e.
  assert (L : ~ In (@nil char) lengths_names) by (cbn; intuition discriminate).
  split.
  - intro H. destruct e as [ | | | |f args| | | | | | | | ]; try (destruct H; eexists; reflexivity).
    cbn [lengths_rule] in H. destruct (existsb (teqb (get_function_name f)) lengths_names) eqn:E; cbn [negb] in H;
      [|destruct H; eexists; reflexivity].
    apply (named_in f lengths_names L) in E. destruct E as (n & Hn & Hf).
    destruct (get_arg_by_name_then_position args (lit "FUN") 2) as [[m [g|]]|] eqn:G.
    + apply chosen_iff in G. unfold same_text in H. destruct (list_eq_dec tok_eq_dec (toks g) [id_tok (lit "length")]) as [S|S].
      * destruct (get_arg_by_name_then_position args (lit "x") 1) as [a|] eqn:X; [destruct H; eexists; reflexivity|].
        apply one_token in S. subst g. apply no_x with n m; auto. apply not_chosen, X.
      * destruct H; eexists; reflexivity.
    + apply chosen_iff in G. apply empty_fun with n m; auto.
    + destruct H; eexists; reflexivity.
  - intro H. inversion H as [|f n args m Hn Hf Hc|f n args m Hn Hf Hc Hx| | |]; subst; cbn [lengths_rule];
      replace (existsb (teqb (get_function_name f)) lengths_names) with true
        by (symmetry; apply (named_in f lengths_names L); eauto);
      apply chosen_iff in Hc; rewrite Hc; cbn [negb].
    + intros [l Hl]. discriminate Hl.
    + cbn [toks]. change (same_text [id_tok (lit "length")] [id_tok (lit "length")]) with true.
      apply not_chosen in Hx. rewrite Hx. intros [l Hl]. discriminate Hl.
Qed.
Lemma sample_int_stops : forall fs e, ~ fine (sample_int fs e) <-> stops (lit "sample_int") e.
Proof.
  intros fs e. split.
  - intro H. destruct e as [ | | | |f args| | | | | | | | ]; try (destruct H; eexists; reflexivity).
    cbn [sample_int] in H. destruct (teqb (get_function_name f) (lit "sample")) eqn:E; cbn [negb] in H;
      [|destruct H; eexists; reflexivity].
    apply (named_is f (lit "sample")) in E; [|nn].
    destruct (get_arg_by_name_then_position args (lit "n") 1) as [[m [g|]]|] eqn:G; try (destruct H; eexists; reflexivity).
    + destruct g; try (destruct H; eexists; reflexivity).
      destruct (negb (is_one g1)); [destruct H; eexists; reflexivity|]. destruct o; destruct H; eexists; reflexivity.
    + apply chosen_iff in G. apply empty_sample with m; auto.
  - intro H. inversion H as [| | |f args m Hf Hc| |]; subst. cbn [sample_int].
    apply (named_is f (lit "sample")) in Hf; [|nn]. rewrite Hf. cbn [negb].
    apply chosen_iff in Hc. rewrite Hc. intros [l Hl]. discriminate Hl.
Qed.
Lemma duplicated_arguments_stops : forall ok fs e,
  ~ fine (duplicated_arguments ok fs e) <-> stops (lit "duplicated_arguments") e.
Proof.
  assert (K : forall ok fs e (f : expr) args, e = ECall f args -> (fine (duplicated_arguments ok fs e) <-> fine (callee_text f))).
  { intros ok fs e f args ->. cbn [duplicated_arguments]. destruct (callee_text f) as [n| |]; cbn [rbind].
    - split; intros _; [eexists; reflexivity|]. destruct (_ || _); eexists; reflexivity.
    - split; intros [l Hl]; discriminate Hl.
    - split; intros [l Hl]; discriminate Hl. }
  intros ok fs e. split.
  - intro H. destruct e as [ | | | |f args| | | | | | | | ]; try (destruct H; eexists; reflexivity).
    rewrite (K ok fs _ f args eq_refl) in H. constructor.
    destruct f; try exact Logic.I; try (apply H; eexists; reflexivity).
    destruct a; try exact Logic.I; try (apply H; eexists; reflexivity).
    cbn [callee_text] in H. intros ->. apply H. eexists. reflexivity.
  - intro H. inversion H as [| | | |f args Hf|]; subst. rewrite (K ok fs _ f args eq_refl).
    intros [l Hl]. destruct f; try discriminate Hl; try (destruct Hf; fail).
    destruct a; try discriminate Hl; try (destruct Hf; fail). cbn [callee_text] in Hl.
    rewrite (proj2 (teqb_neq _ _) Hf) in Hl. discriminate Hl.
Qed.
Fixpoint deciders (c : expr) : list text :=
  match c with
  | EAtom (ANum t) => [t]
  | EParen e => deciders e
  | EUn (UNot | UNeg | UPos) e => deciders e
  | EBin (BOr | BOr2 | BAnd | BAnd2) _ l r => deciders l ++ deciders r
  | _ => []
  end.
Lemma deciders_in : forall c u, In u (deciders c) -> deciding c u.
Proof.
  induction c as [a|x IHx|u x IHx|o nl l IHl r IHr|f IHf args|d x IHx args|x IHx o n|c IHc t IHt el|ps b IHb|v q IHq b IHb|c IHc b IHb|b IHb|es];
    intros w H; cbn [deciders] in H; try (destruct H; fail).
  - destruct a; try (destruct H; fail). destruct H as [<-|[]]. constructor.
  - constructor. auto.
  - destruct u; try (destruct H; fail); apply deciding_unary; cbn; auto.
  - destruct o; try (destruct H; fail); apply in_app_or in H; destruct H as [H|H];
      [apply deciding_left|apply deciding_right|apply deciding_left|apply deciding_right
      |apply deciding_left|apply deciding_right|apply deciding_left|apply deciding_right]; cbn; auto 6.
Qed.
Lemma deciding_in : forall c u, deciding c u -> In u (deciders c).
Proof.
  intros c u H. induction H as [t|e t H IH|v e t Hv H IH|o nl l r t Ho H IH|o nl l r t Ho H IH]; cbn [deciders].
  - left. reflexivity.
  - exact IH.
  - cbn in Hv. destruct Hv as [<-|[<-|[<-|[]]]]; exact IH.
  - cbn in Ho. destruct Ho as [<-|[<-|[<-|[<-|[]]]]]; apply in_or_app; left; exact IH.
  - cbn in Ho. destruct Ho as [<-|[<-|[<-|[<-|[]]]]]; apply in_or_app; right; exact IH.
Qed.
Lemma fine_or : forall l, (forall u, In u l -> fine (number_constant u)) \/ exists u, In u l /\ ~ fine (number_constant u).
Proof.
  induction l as [|t l [IH|(u & Hu & IH)]].
  - left. intros u [].
  - destruct (number_constant t) as [o| |] eqn:E.
    + left. intros u [<-|Hu]; [exists o; exact E|auto].
    + right. exists t. split; [left; reflexivity|]. intros [o Ho]. congruence.
    + right. exists t. split; [left; reflexivity|]. intros [o Ho]. congruence.
  - right. exists u. split; [right; exact Hu|exact IH].
Qed.
Lemma if_always_true_stops : forall fs e, numerals e ->
  (~ fine (if_always_true fs e) <-> stops (lit "if_always_true") e).
Proof.
  intros fs e Hn. split.
  - intro H. destruct e as [ | | | | | | |c t el| | | | | ]; try (destruct H; eexists; reflexivity).
    destruct el as [el|]; [destruct H; eexists; reflexivity|].
    cbn [if_always_true] in H. rewrite rbind_fine, evaluate_fine in H.
    destruct (fine_or (deciders c)) as [F|(u & Hu & F)].
    + destruct H. intros u Hu. apply F, deciding_in, Hu.
    + apply odd_number with u; [apply deciders_in, Hu|]. intro U. apply F.
      apply number_constant_fails; [|exact U]. apply Hn. cbn [toks]. right. right. apply in_or_app. left.
      apply deciding_token, deciders_in, Hu.
  - intro H. inversion H as [| | | | |c t u Hu U]; subst. cbn [if_always_true]. rewrite rbind_fine, evaluate_fine.
    intro F. apply U. apply number_constant_fails; [|exact (F u Hu)].
    apply Hn. cbn [toks]. right. right. apply in_or_app. left. apply deciding_token, Hu.
Qed.

(** ** The whole file *)
Lemma total_fine : forall f fs e, fine (total f fs e).
Proof. intros. eexists. reflexivity. Qed.
Theorem fails_iff : forall s n fs e, never_fails (unreachable s) -> numerals e ->
  (fails s n fs e <-> on s n = true /\ stops n e).
Proof.
  intros s n fs e Hu Hn. unfold fails. split.
  - intros (Hon & rule & Hin & Hf). split; [exact Hon|]. apply not_fine in Hf.
    unfold all_rules in Hin.
    repeat (destruct Hin as [Hin|Hin]; [first
      [ apply (f_equal snd) in Hin; cbn [snd] in Hin; subst rule; destruct Hf; apply total_fine
      | apply (f_equal snd) in Hin; cbn [snd] in Hin; subst rule; destruct Hf; exact (Hu fs e)
      | assert (E1 := f_equal fst Hin); assert (E2 := f_equal snd Hin); cbn [fst snd] in E1, E2; clear Hin; subst rule;
        rewrite failing_fine in Hf; subst n;
        first [ apply length_test_stops in Hf; exact Hf | apply lengths_stops in Hf; exact Hf
              | apply sample_int_stops in Hf; exact Hf | apply duplicated_arguments_stops in Hf; exact Hf
              | apply if_always_true_stops in Hf; [exact Hf|exact Hn] ] ]|]).
    destruct Hin.
  - intros [Hon H]. split; [exact Hon|].
    assert (K : exists f, In (n, failing f) (all_rules s) /\ ~ fine (f fs e)).
    { assert (Z : stops n e) by exact H. destruct H.
      - exists length_test. split; [unfold all_rules; tail_in|]. apply (proj2 (length_test_stops fs _)). exact Z.
      - exists lengths_rule. split; [unfold all_rules; tail_in|]. apply (proj2 (lengths_stops fs _)). exact Z.
      - exists lengths_rule. split; [unfold all_rules; tail_in|]. apply (proj2 (lengths_stops fs _)). exact Z.
      - exists sample_int. split; [unfold all_rules; tail_in|]. apply (proj2 (sample_int_stops fs _)). exact Z.
      - exists (duplicated_arguments (repeated_ok s)). split; [unfold all_rules; tail_in|].
        apply (proj2 (duplicated_arguments_stops _ fs _)). exact Z.
      - exists if_always_true. split; [unfold all_rules; tail_in|]. apply (proj2 (if_always_true_stops fs _ Hn)). exact Z. }
    destruct K as (f & Hin & Hf). exists (failing f). split; [exact Hin|]. apply not_fine. rewrite failing_fine. exact Hf.
Qed.
Lemma plug_numerals : forall fs x, numerals (plug fs x) -> numerals x.
Proof.
  induction fs as [|f fs IH]; intros x H; [exact H|]. cbn [plug] in H. apply IH in H.
  intros t Ht. apply H. rewrite fill_toks. apply in_or_app. right. apply in_or_app. left. exact Ht.
Qed.
Theorem refused_iff : forall s p, only_functions (unreachable s) -> never_fails (unreachable s) ->
  (forall e, In e p -> numerals e) ->
  ((exists ds, check_file s p = ROk ds) <->
   forall e fs x n, In e p -> plug fs x = e -> reached fs x -> on s n = true -> ~ stops n x).
Proof.
  intros s p Ho Hu Hn. rewrite (check_file_fine s p Ho). split.
  - intros H e fs x n Hin Hp Hr Hon Hs. apply (H e fs x n Hin Hp Hr). apply fails_iff; auto.
    apply (plug_numerals fs). rewrite Hp. auto.
  - intros H e fs x n Hin Hp Hr Hf. apply fails_iff in Hf; [|exact Hu|apply (plug_numerals fs); rewrite Hp; auto].
    destruct Hf as [Hon Hs]. exact (H e fs x n Hin Hp Hr Hon Hs).
Qed.
