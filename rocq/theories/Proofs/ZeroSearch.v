(** The findings of numeric_leading_zero, in the order of the file, and how many there are. *)
From Verif Require Import Spec.RSearch Spec.RWellFormed Proofs.TextProofs Proofs.RParse Proofs.RParseSound Proofs.RContext Proofs.RSearchProofs.

Definition nlz : text := lit "numeric_leading_zero".
Definition dotted (w : text) : bool := negb (is_integer_lit w) && starts_with (lit ".") w.
Definition zero_report (fs : list frame) (w : text) : report :=
  mk_report fs (EAtom (ANum w)) (Some [TAtom (ANum (lit "0" ++ w))]).
(** What is found at one node. *)
Definition own (fs : list frame) (e : expr) : list found :=
  match e with EAtom (ANum w) => if dotted w then [(nlz, zero_report fs w)] else [] | _ => [] end.

Section Zero.
  Variable s : settings.
  Hypothesis On : forall n, on s n = teqb n nlz.

  Lemma skip_rule : forall n f l fs e, teqb n nlz = false -> run_rules s ((n, f) :: l) fs e = run_rules s l fs e.
  Proof. intros n f l fs e H. cbn [run_rules]. rewrite On, H. reflexivity. Qed.
  Ltac skips := repeat (rewrite skip_rule by (vm_compute; reflexivity)); reflexivity.
  Lemma run_own : forall fs e, run_rules s (rules_at s e) fs e = ROk (own fs e).
  Proof.
    intros fs e. destruct e as [a|x|u x|o nl l r|f args|d x args|x o n|c t el|ps b|v q b|c b|b|es]; [destruct a| | | | |destruct d| | | | | | | ]; cbn [rules_at own];
      unfold on_value, on_identifier, on_namespace, on_binary, on_call, on_for, on_function, on_if, on_subset, on_unary, on_while; try (skips; fail).
    - cbn [run_rules]. rewrite On. change (teqb (lit "numeric_leading_zero") nlz) with true. cbv iota. unfold total, numeric_leading_zero. fold (dotted t).
      destruct (dotted t); reflexivity.
    - cbn [run_rules]. rewrite On. change (teqb (lit "numeric_leading_zero") nlz) with true. cbv iota. reflexivity.
  Qed.

  (** ** How many *)
  Definition reports (fs : list frame) (e : expr) : list found :=
    match check_expression s fs e with ROk l => l | _ => [] end.
  Lemma in_turn_ok : forall (A : Type) (g : A -> res (list found)) (h : A -> list found) l, (forall x, In x l -> g x = ROk (h x)) ->
    in_turn (map g l) = ROk (flat_map h l).
  Proof.
    induction l as [|x l IH]; intros H; [reflexivity|]. cbn [map flat_map]. change (in_turn (g x :: map g l)) with (rseq (g x) (in_turn (map g l))).
    rewrite (H x (or_introl eq_refl)), IH by (intros y Hy; apply H; right; exact Hy). reflexivity.
  Qed.
  Lemma kids_smaller : forall e f x, In (f, x) (kids e) -> length (toks x) < length (toks e).
  Proof. intros e f x H. apply kids_in in H. destruct H as [<- _]. apply fill_bigger. Qed.
  Lemma check_reports : forall e fs, check_expression s fs e = ROk (reports fs e) /\
    reports fs e = own fs e ++ flat_map (fun k => reports (fst k :: fs) (snd k)) (kids e).
  Proof.
    intros e. remember (length (toks e)) as k eqn:Hk. revert e Hk. induction k as [k IH] using lt_wf_ind. intros e -> fs.
    assert (E : check_expression s fs e = ROk (own fs e ++ flat_map (fun k => reports (fst k :: fs) (snd k)) (kids e))).
    { rewrite check_here, run_own, (in_turn_ok _ (step s fs) (fun k => reports (fst k :: fs) (snd k))); [reflexivity|].
      intros [f x] H. exact (proj1 (IH _ (kids_smaller _ _ _ H) x eq_refl (f :: fs))). }
    unfold reports at 1 2. rewrite E. auto.
  Qed.
  Definition many (fs : list frame) (e : expr) : nat := length (reports fs e).
  Fixpoint total_of (l : list nat) : nat := match l with [] => 0 | n :: r => n + total_of r end.
  Lemma flat_map_len : forall (A B : Type) (h : A -> list B) l, length (flat_map h l) = total_of (map (fun x => length (h x)) l).
  Proof. induction l as [|x l IH]; [reflexivity|]. cbn [flat_map map total_of]. rewrite app_length, IH. reflexivity. Qed.
  Lemma own_len : forall fs gs e, length (own fs e) = length (own gs e).
  Proof. intros fs gs e. destruct e as [[]| | | | | | | | | | | | ]; try reflexivity. cbn [own]. destruct (dotted t); reflexivity. Qed.
  Lemma many_anywhere : forall e fs gs, many fs e = many gs e.
  Proof.
    intros e. remember (length (toks e)) as k eqn:Hk. revert e Hk. induction k as [k IH] using lt_wf_ind. intros e -> fs gs. unfold many.
    rewrite (proj2 (check_reports e fs)), (proj2 (check_reports e gs)), !app_length, !flat_map_len, (own_len fs gs). f_equal. f_equal.
    apply map_ext_in. intros [f x] H. exact (IH _ (kids_smaller _ _ _ H) x eq_refl (f :: fs) (f :: gs)).
  Qed.
  Lemma many_kids : forall e, many [] e = length (own [] e) + total_of (map (many []) (map snd (kids e))).
  Proof.
    intros e. unfold many at 1. rewrite (proj2 (check_reports e [])), app_length, flat_map_len, map_map. f_equal. f_equal. apply map_ext. intros [f x]. apply many_anywhere.
  Qed.
  Definition values (args : list arg) : list expr := flat_map (fun a : arg => match snd a with Some x => [x] | None => [] end) args.
  Lemma arg_kids_values : forall k args pre, map snd (arg_kids k pre args) = values args.
  Proof. induction args as [|[n [x|]] args IH]; intros pre; [reflexivity| |]; cbn [arg_kids map app values flat_map snd]; rewrite IH; reflexivity. Qed.
  Definition defaults (args : list param) : list expr := flat_map (fun a : param => match snd a with Some x => [x] | None => [] end) args.
  Lemma param_kids_values : forall k args pre, map snd (param_kids k pre args) = defaults args.
  Proof. induction args as [|[n [x|]] args IH]; intros pre; [reflexivity| |]; cbn [param_kids map app defaults flat_map snd]; rewrite IH; reflexivity. Qed.
  Lemma block_kids_values : forall es pre, map snd (block_kids pre es) = es.
  Proof. induction es as [|e es IH]; intros pre; [reflexivity|]. cbn [block_kids map snd]. rewrite IH. reflexivity. Qed.
  Lemma total_app : forall a b, total_of (a ++ b) = total_of a + total_of b.
  Proof. induction a as [|x a IH]; intros b; [reflexivity|]. cbn [app total_of]. rewrite IH. lia. Qed.
  Lemma kids_fill : forall f, looked_into f -> exists P Q, forall x, map snd (kids (fill f x)) = P ++ x :: Q.
  Proof.
    intros f H. destruct f; cbn [looked_into] in H; try contradiction; cbn [fill kids].
    - exists [], []. reflexivity.
    - exists [], []. reflexivity.
    - exists [], [r]. reflexivity.
    - exists [l], []. reflexivity.
    - eexists (map snd (match f with EAtom (ANs _ _ _) => [(FCallF [], f)] | _ => [] end) ++ values pre), (values post). intros x.
      rewrite map_app, arg_kids_values. unfold values. rewrite flat_map_app. cbn [flat_map snd app]. rewrite <- app_assoc. f_equal.
      destruct f as [[]| | | | | | | | | | | | ]; reflexivity.
    - exists (values pre), (values post). intros y. rewrite arg_kids_values. unfold values. rewrite flat_map_app. reflexivity.
    - exists [], (t :: match el with Some y => [y] | None => [] end). intros x. destruct el; reflexivity.
    - exists [c], (match el with Some y => [y] | None => [] end). intros x. destruct el; reflexivity.
    - exists [c; t], []. reflexivity.
    - exists (defaults pre), (defaults post ++ [b]). intros x. rewrite map_app, param_kids_values. unfold defaults. rewrite flat_map_app. cbn [flat_map snd app map]. rewrite <- app_assoc. reflexivity.
    - exists (defaults ps), []. intros x. rewrite map_app, param_kids_values. reflexivity.
    - exists [], [b]. reflexivity.
    - exists [s0], []. reflexivity.
    - exists [], [b]. reflexivity.
    - exists [c], []. reflexivity.
    - exists [], []. reflexivity.
    - exists pre, post. intros x. apply block_kids_values.
  Qed.
  Lemma own_fill : forall f x, own [] (fill f x) = [].
  Proof. destruct f; reflexivity. Qed.
  Lemma many_fill : forall f, looked_into f -> exists K, forall x, many [] (fill f x) = K + many [] x.
  Proof.
    intros f H. destruct (kids_fill f H) as (P & Q & E). exists (total_of (map (many []) P) + total_of (map (many []) Q)). intros x.
    rewrite many_kids, own_fill, E, map_app, total_app. cbn [map total_of length]. lia.
  Qed.
  Lemma many_plug : forall fs, Forall looked_into fs -> exists K, forall x, many [] (plug fs x) = K + many [] x.
  Proof.
    induction 1 as [|f fs H _ (K & E)]; [exists 0; reflexivity|]. destruct (many_fill f H) as (K' & E'). exists (K + K'). intros x. cbn [plug]. rewrite E, E'. lia.
  Qed.
  Lemma many_atom : forall a, many [] (EAtom a) = length (own [] (EAtom a)).
  Proof. intros a. rewrite many_kids. cbn [kids map total_of]. lia. Qed.
  Lemma zeroed : forall w, dotted w = true -> dotted (lit "0" ++ w) = false.
  Proof. intros w _. unfold dotted. change (starts_with (lit ".") (lit "0" ++ w)) with false. apply Bool.andb_false_r. Qed.
  Lemma many_zeroed : forall fs w, Forall looked_into fs -> dotted w = true ->
    many [] (plug fs (EAtom (ANum w))) = S (many [] (plug fs (EAtom (ANum (lit "0" ++ w))))).
  Proof.
    intros fs w F D. destruct (many_plug fs F) as (K & E). rewrite !E, !many_atom. cbn [own]. rewrite (zeroed _ D), D. cbn [length]. lia.
  Qed.
  (** Of a program. *)
  Definition in_program (p : prog) : nat := total_of (map (many []) p).
  Lemma in_program_zeroed : forall pl w, Forall looked_into (frames pl) -> dotted w = true ->
    in_program (file_with pl (EAtom (ANum w))) = S (in_program (file_with pl (EAtom (ANum (lit "0" ++ w))))).
  Proof.
    intros pl w F D. unfold in_program, file_with. rewrite !map_app, !total_app. cbn [map total_of]. rewrite (many_zeroed _ _ F D). lia.
  Qed.

  (** ** In what order *)
  Definition pos (r : found) : nat := length (pre_toks (at_frames (snd r))).
  Lemma pre_toks_app : forall a b, pre_toks (a ++ b) = pre_toks b ++ pre_toks a.
  Proof. induction a as [|f a IH]; intros b; [cbn; rewrite app_nil_r; reflexivity|]. cbn [app pre_toks]. rewrite IH, app_assoc. reflexivity. Qed.
  Definition kid_before (a b : frame * expr) : Prop := length (frame_pre (fst a)) + length (toks (snd a)) <= length (frame_pre (fst b)).
  Lemma arg_kids_ordered : forall (k : list arg -> option text -> list arg -> frame) base args pre,
    (forall a n b, length (frame_pre (k a n b)) = base + length (sep_before [TComma] (map arg_toks a) ++ name_toks n)) ->
    ForallOrdPairs kid_before (arg_kids k pre args) /\ Forall (fun x => base + length (sep_before [TComma] (map arg_toks pre)) <= length (frame_pre (fst x))) (arg_kids k pre args).
  Proof.
    intros k base args. induction args as [|[n v] args IH]; intros pre H; cbn [arg_kids]; [split; constructor|].
    destruct (IH (pre ++ [(n, v)]) H) as [I1 I2].
    assert (L : length (sep_before [TComma] (map arg_toks (pre ++ [(n, v)]))) = length (sep_before [TComma] (map arg_toks pre)) + length (name_toks n) + length (opt_toks v) + 1).
    { unfold sep_before. rewrite !map_app, concat_app, app_length. cbn [map concat]. rewrite app_nil_r, app_length. unfold arg_toks. rewrite app_length. cbn [fst snd length]. lia. }
    destruct v as [x|]; cbn [app].
    - split; [constructor; [|exact I1]|constructor].
      + eapply Forall_impl; [|exact I2]. intros [g y] G. unfold kid_before. cbn [fst snd] in *. rewrite H, app_length. rewrite L in G. cbn [opt_toks] in G. lia.
      + cbn [fst]. rewrite H, app_length. lia.
      + eapply Forall_impl; [|exact I2]. intros [g y] G. cbn [fst] in *. lia.
    - split; [exact I1|]. eapply Forall_impl; [|exact I2]. intros [g y] G. cbn [fst] in *. lia.
  Qed.
  Lemma param_kids_ordered : forall (k : list param -> text -> list param -> frame) base args pre,
    (forall a n b, length (frame_pre (k a n b)) = base + length (sep_before [TComma] (map param_toks a) ++ [TAtom (AId n); TEq])) ->
    ForallOrdPairs kid_before (param_kids k pre args) /\ Forall (fun x => base + length (sep_before [TComma] (map param_toks pre)) <= length (frame_pre (fst x))) (param_kids k pre args) /\
    Forall (fun x => length (frame_pre (fst x)) + length (toks (snd x)) <= base + length (params_toks (pre ++ args))) (param_kids k pre args).
  Proof.
    intros k base args. induction args as [|[n v] args IH]; intros pre H; cbn [param_kids]; [repeat split; constructor|].
    destruct (IH (pre ++ [(n, v)]) H) as (I1 & I2 & I3). rewrite <- app_assoc in I3. cbn [app] in I3.
    assert (L : length (sep_before [TComma] (map param_toks (pre ++ [(n, v)]))) = length (sep_before [TComma] (map param_toks pre)) + length (param_toks (n, v)) + 1).
    { unfold sep_before. rewrite !map_app, concat_app, app_length. cbn [map concat]. rewrite app_nil_r, app_length. cbn [length]. lia. }
    destruct v as [x|]; cbn [app].
    - split; [constructor; [|exact I1]|split; constructor].
      + eapply Forall_impl; [|exact I2]. intros [g y] G. unfold kid_before. cbn [fst snd] in *. rewrite H, app_length. rewrite L in G. cbn [param_toks fst snd length] in *. lia.
      + cbn [fst]. rewrite H, app_length. lia.
      + eapply Forall_impl; [|exact I2]. intros [g y] G. cbn [fst] in *. lia.
      + cbn [fst snd]. rewrite H. unfold params_toks. rewrite map_app. cbn [map]. rewrite sep_app, !app_length. cbn [param_toks fst snd length]. lia.
      + exact I3.
    - split; [exact I1|]. split; [|exact I3]. eapply Forall_impl; [|exact I2]. intros [g y] G. cbn [fst] in *. lia.
  Qed.
  Lemma block_kids_ordered : forall es pre,
    ForallOrdPairs kid_before (block_kids pre es) /\ Forall (fun x => 1 + length (sep_before [TNl] (map toks pre)) <= length (frame_pre (fst x))) (block_kids pre es).
  Proof.
    induction es as [|e es IH]; intros pre; cbn [block_kids]; [split; constructor|]. destruct (IH (pre ++ [e])) as [I1 I2].
    assert (L : length (sep_before [TNl] (map toks (pre ++ [e]))) = length (sep_before [TNl] (map toks pre)) + length (toks e) + 1).
    { unfold sep_before. rewrite !map_app, concat_app, app_length. cbn [map concat]. rewrite app_nil_r, app_length. cbn [length]. lia. }
    split; [constructor; [|exact I1]|constructor].
    - eapply Forall_impl; [|exact I2]. intros [g y] G. unfold kid_before. cbn [fst snd frame_pre length] in *. lia.
    - cbn [fst frame_pre length]. lia.
    - eapply Forall_impl; [|exact I2]. intros [g y] G. cbn [fst] in *. lia.
  Qed.
  Lemma pairs_app : forall (A : Type) (R : A -> A -> Prop) a b, ForallOrdPairs R a -> ForallOrdPairs R b -> (forall x y, In x a -> In y b -> R x y) -> ForallOrdPairs R (a ++ b).
  Proof.
    intros A R a b Ha Hb. induction Ha as [|x a F Ha IH]; intros H; [exact Hb|]. cbn [app]. constructor.
    - rewrite Forall_app. split; [exact F|]. apply Forall_forall. intros y Hy. apply H; [left; reflexivity|exact Hy].
    - apply IH. intros y z Hy Hz. apply H; [right; exact Hy|exact Hz].
  Qed.
  Ltac in_order := repeat (constructor; [repeat (constructor; [unfold kid_before; cbn [fst snd frame_pre length]; repeat (rewrite app_length; cbn [length]); lia|]); constructor|]); constructor.
  Lemma kids_ordered : forall e, ForallOrdPairs kid_before (kids e).
  Proof.
    destruct e as [a|x|u x|o nl l r|f args|d x args|x o n|c t el|ps b|v q b|c b|b|es]; cbn [kids]; try (in_order; fail).
    - apply pairs_app.
      + destruct f as [[]| | | | | | | | | | | | ]; in_order.
      + apply (arg_kids_ordered (FCallA f) (length (toks f) + 1) args []). intros a n b. cbn [frame_pre]. rewrite app_length. cbn [length]. lia.
      + intros [g y] [h z] H1 H2. destruct (arg_kids_ordered (FCallA f) (length (toks f) + 1) args []) as [_ F].
        { intros a n b. cbn [frame_pre]. rewrite app_length. cbn [length]. lia. }
        rewrite Forall_forall in F. specialize (F _ H2). cbn [fst sep_before map concat length] in F.
        destruct f as [[]| | | | | | | | | | | | ]; try contradiction. destruct H1 as [H1|[]]. injection H1 as <- <-. unfold kid_before. cbn [fst snd frame_pre length]. lia.
    - apply (arg_kids_ordered (FSubA d x) (length (toks x) + 1) args []). intros a n b. cbn [frame_pre]. rewrite app_length. cbn [length]. lia.
    - destruct el; in_order.
    - destruct (param_kids_ordered (fun pre n post => FFunP pre n post b) 2 ps []) as (P1 & _ & P3).
      { intros a n b'. cbn [frame_pre]. cbn [length]. lia. }
      apply pairs_app; [exact P1|in_order|]. intros [g y] [h z] H1 [H2|[]]. injection H2 as <- <-. rewrite Forall_forall in P3. specialize (P3 _ H1). unfold kid_before.
      cbn [fst snd frame_pre length app] in *. rewrite app_length. cbn [length]. lia.
    - apply block_kids_ordered.
  Qed.
  Lemma kids_looked : forall e f x, In (f, x) (kids e) -> looked_into f \/ exists p i n, x = EAtom (ANs p i n).
  Proof. intros e f x H. apply kids_in in H. destruct H as [_ [H|(a & p & i & n & _ & ->)]]; eauto. Qed.
  Lemma reports_ordered : forall e fs, ForallOrdPairs (fun a b => pos a < pos b) (reports fs e) /\
    Forall (fun a => length (pre_toks fs) <= pos a < length (pre_toks fs) + length (toks e)) (reports fs e) /\
    Forall (fun a => exists gs w, a = (nlz, zero_report (gs ++ fs) w) /\ Forall looked_into gs /\ dotted w = true /\ plug gs (EAtom (ANum w)) = e) (reports fs e).
  Proof.
    intros e. remember (length (toks e)) as k eqn:Hk. revert e Hk. induction k as [k IH] using lt_wf_ind. intros e -> fs.
    rewrite (proj2 (check_reports e fs)).
    assert (Cases : (exists w, e = EAtom (ANum w) /\ dotted w = true) \/ own fs e = []).
    { destruct e as [[]| | | | | | | | | | | | ]; auto. cbn [own]. destruct (dotted t) eqn:D; eauto. }
    destruct Cases as [(w & -> & D)|Eo].
    - cbn [own kids flat_map app toks]. rewrite D. split; [|split]; (constructor; [|constructor]).
      + constructor.
      + unfold pos. cbn [snd zero_report at_frames length]. lia.
      + exists [], w. repeat split; auto.
    - rewrite Eo. cbn [app].
      assert (Sub : forall f x, In (f, x) (kids e) -> length (frame_pre f) + length (toks x) <= length (toks e)).
      { intros f x H. apply kids_in in H. destruct H as [<- _]. rewrite fill_toks, !app_length. lia. }
      split; [|split].
      + pose proof (kids_ordered e) as K. revert K. assert (Inc : forall q, In q (kids e) -> In q (kids e)) by auto. revert Inc.
        generalize (kids e) at 1 3 4 as l. induction l as [|[f x] l IHl]; intros Inc K; [constructor|]. inversion K; subst. cbn [flat_map fst snd].
        assert (I0 : In (f, x) (kids e)) by (apply Inc; left; reflexivity).
        destruct (IH _ (kids_smaller _ _ _ I0) x eq_refl (f :: fs)) as (A1 & A2 & _).
        apply pairs_app; [exact A1|apply IHl; [intros q Hq; apply Inc; right; exact Hq|assumption]|].
        intros a b Ha Hb. apply in_flat_map in Hb. destruct Hb as ([g y] & Iy & Hb). cbn [fst snd] in Hb.
        assert (I1 : In (g, y) (kids e)) by (apply Inc; right; exact Iy).
        destruct (IH _ (kids_smaller _ _ _ I1) y eq_refl (g :: fs)) as (_ & B2 & _).
        rewrite Forall_forall in A2, B2. specialize (A2 _ Ha). specialize (B2 _ Hb). rewrite Forall_forall in H1. specialize (H1 _ Iy). unfold kid_before in H1.
        cbn [fst snd pre_toks] in *. rewrite app_length in *. lia.
      + apply Forall_forall. intros a Ha. apply in_flat_map in Ha. destruct Ha as ([f x] & I0 & Ha). cbn [fst snd] in Ha.
        destruct (IH _ (kids_smaller _ _ _ I0) x eq_refl (f :: fs)) as (_ & A2 & _). rewrite Forall_forall in A2. specialize (A2 _ Ha). specialize (Sub _ _ I0).
        cbn [pre_toks] in A2. rewrite app_length in A2. lia.
      + apply Forall_forall. intros a Ha. apply in_flat_map in Ha. destruct Ha as ([f x] & I0 & Ha). cbn [fst snd] in Ha.
        destruct (IH _ (kids_smaller _ _ _ I0) x eq_refl (f :: fs)) as (_ & _ & A3). rewrite Forall_forall in A3. destruct (A3 _ Ha) as (gs & w & -> & F & D & Ep).
        exists (gs ++ [f]), w. rewrite <- app_assoc. split; [reflexivity|]. split; [|split; [exact D|rewrite plug_snoc, Ep; apply kids_in in I0; apply I0]].
        rewrite Forall_app. split; [exact F|]. constructor; [|constructor]. destruct (kids_looked _ _ _ I0) as [L|(p & i & n & ->)]; [exact L|].
        exfalso. rewrite (proj2 (check_reports _ _)) in Ha. contradiction.
  Qed.

  (** ** Statements *)
  Fixpoint prog_reports (i : nat) (p : prog) : list (nat * found) :=
    match p with [] => [] | e :: r => map (pair i) (reports [] e) ++ prog_reports (S i) r end.
  Lemma check_file_reports : forall p i, check_statements s i p = ROk (prog_reports i p).
  Proof.
    induction p as [|e p IH]; intros i; [reflexivity|]. cbn [check_statements prog_reports]. rewrite (proj1 (check_reports e [])). cbn [rbind]. rewrite IH. reflexivity.
  Qed.
  Lemma prog_reports_many : forall p i, length (prog_reports i p) = in_program p.
  Proof.
    induction p as [|e p IH]; intros i; [reflexivity|]. cbn [prog_reports]. rewrite app_length, map_length, IH. reflexivity.
  Qed.
  Definition first_of (p : prog) (x : nat * found) : nat :=
    length (sep_before [TNl] (map toks (firstn (fst x) p))) + pos (snd x).
  Lemma prog_reports_shape : forall p i, Forall (fun x => exists gs w, exists e, x = (fst x, (nlz, zero_report gs w)) /\ i <= fst x /\ Forall looked_into gs /\ dotted w = true /\
    nth_error p (fst x - i) = Some e /\ plug gs (EAtom (ANum w)) = e) (prog_reports i p).
  Proof.
    induction p as [|e p IH]; intros i; [constructor|]. cbn [prog_reports]. rewrite Forall_app. split.
    - apply Forall_map. destruct (reports_ordered e []) as (_ & _ & F). eapply Forall_impl; [|exact F]. intros a (gs & w & -> & L & D & P). rewrite app_nil_r.
      exists gs, w, e. cbn [fst]. rewrite Nat.sub_diag. repeat split; auto.
    - eapply Forall_impl; [|exact (IH (S i))]. intros x (gs & w & e0 & Ex & Le & L & D & N & P). exists gs, w, e0. split; [exact Ex|]. split; [lia|]. split; [exact L|]. split; [exact D|].
      split; [|exact P]. replace (fst x - i) with (S (fst x - S i)) by lia. exact N.
  Qed.
  Lemma prog_reports_ordered : forall p pre, ForallOrdPairs (fun a b => first_of (pre ++ p) a < first_of (pre ++ p) b) (prog_reports (length pre) p) /\
    Forall (fun a => length (sep_before [TNl] (map toks pre)) <= first_of (pre ++ p) a) (prog_reports (length pre) p).
  Proof.
    induction p as [|e p IH]; intros pre; [split; constructor|]. cbn [prog_reports].
    destruct (IH (pre ++ [e])) as [I1 I2]. rewrite app_length in I1, I2. cbn [length] in I1, I2. rewrite Nat.add_1_r in I1, I2.
    rewrite <- app_assoc in I1, I2. cbn [app] in I1, I2. destruct (reports_ordered e []) as (O1 & O2 & _).
    assert (Fi : forall f, first_of (pre ++ e :: p) (length pre, f) = length (sep_before [TNl] (map toks pre)) + pos f).
    { intros f. unfold first_of. cbn [fst snd]. rewrite firstn_app, Nat.sub_diag, firstn_all. cbn [firstn]. rewrite app_nil_r. reflexivity. }
    assert (L : length (sep_before [TNl] (map toks (pre ++ [e]))) = length (sep_before [TNl] (map toks pre)) + length (toks e) + 1).
    { unfold sep_before. rewrite !map_app, concat_app, app_length. cbn [map concat]. rewrite app_nil_r, app_length. cbn [length]. lia. }
    split.
    - apply pairs_app; [|exact I1|].
      + clear - O1 Fi. induction O1 as [|a l F O IHl]; [constructor|]. cbn [map]. constructor; [|exact IHl]. apply Forall_map. eapply Forall_impl; [|exact F].
        intros b Hb. cbn beta in Hb. rewrite !Fi. lia.
      + intros x y Hx Hy. apply in_map_iff in Hx. destruct Hx as (a & <- & Ha). rewrite Fi. rewrite Forall_forall in I2, O2. specialize (I2 _ Hy). specialize (O2 _ Ha).
        cbn [pre_toks length] in O2. rewrite L in I2. lia.
    - rewrite Forall_app. split; [|eapply Forall_impl; [|exact I2]; intros a Ha; cbn beta in Ha; lia].
      apply Forall_map. apply Forall_forall. intros a _. rewrite Fi. lia.
  Qed.
End Zero.
