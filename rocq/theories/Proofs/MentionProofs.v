(** Counting tokens. *)
From Verif Require Import Spec.RMention Proofs.TextProofs Proofs.RContext.

Lemma mentions_app : forall t a b, mentions t (a ++ b) = mentions t a + mentions t b.
Proof. intros t a b. induction a as [|x a IH]; cbn [app mentions]; [reflexivity|]. lia. Qed.
Lemma mentions_cons : forall t x l, mentions t (x :: l) = mentions t [x] + mentions t l.
Proof. intros. cbn [mentions]. lia. Qed.
Lemma mentions_other : forall t x, x <> t -> mentions t [x] = 0.
Proof. intros t x H. cbn [mentions]. destruct (tok_eq_dec x t); [contradiction|reflexivity]. Qed.

Definition total_of (t : tok) (args : list arg) : nat := list_sum (map (fun a => mentions t (arg_toks a)) args).
Lemma total_app : forall t a b, total_of t (a ++ b) = total_of t a + total_of t b.
Proof. intros. unfold total_of. rewrite map_app, list_sum_app. reflexivity. Qed.
Lemma total_cons : forall t a l, total_of t (a :: l) = mentions t (arg_toks a) + total_of t l.
Proof. reflexivity. Qed.
Lemma total_nil : forall t, total_of t [] = 0.
Proof. reflexivity. Qed.

Lemma mentions_sep : forall t s l, mentions t [s] = 0 -> mentions t (sep [s] l) = list_sum (map (mentions t) l).
Proof.
  intros t s l H. induction l as [|x l IH]; [reflexivity|].
  destruct l as [|y l]; [cbn [sep map list_sum fold_right]; lia|].
  change (sep [s] (x :: y :: l)) with (x ++ [s] ++ sep [s] (y :: l)).
  change (list_sum (map (mentions t) (x :: y :: l))) with (mentions t x + list_sum (map (mentions t) (y :: l))).
  rewrite !mentions_app, IH. lia.
Qed.
Lemma mentions_args : forall t args, mentions t [TComma] = 0 -> mentions t (args_toks args) = total_of t args.
Proof. intros t args H. unfold args_toks. rewrite mentions_sep by exact H. rewrite map_map. reflexivity. Qed.

Section Count.
Variable t : tok.
Hypothesis Ht : punctuation t = false.
Notation cnt := (mentions t).

Lemma punct0 : forall u, punctuation u = true -> cnt [u] = 0.
Proof. intros u H. apply mentions_other. intros ->. rewrite H in Ht. discriminate. Qed.
Lemma comma0 : cnt [TComma] = 0. Proof. apply punct0; reflexivity. Qed.
Lemma bang0 : cnt [TBang] = 0. Proof. apply punct0; reflexivity. Qed.
Lemma lp0 : cnt [TLp] = 0. Proof. apply punct0; reflexivity. Qed.
Lemma rp0 : cnt [TRp] = 0. Proof. apply punct0; reflexivity. Qed.
Lemma lc0 : cnt [TLc] = 0. Proof. apply punct0; reflexivity. Qed.
Lemma rc0 : cnt [TRc] = 0. Proof. apply punct0; reflexivity. Qed.
Lemma nl0 : cnt [TNl] = 0. Proof. apply punct0; reflexivity. Qed.

Lemma cnt_args : forall args, cnt (args_toks args) = total_of t args.
Proof. intros. apply mentions_args, comma0. Qed.
Lemma cnt_join : forall args, cnt (sep [TComma] (map arg_toks args)) = total_of t args.
Proof. exact cnt_args. Qed.
Lemma cnt_call : forall n c, cnt (call_text n c) = cnt [id_tok n] + cnt c.
Proof. intros. unfold call_text. rewrite (mentions_cons t (id_tok n)), (mentions_cons t TLp), mentions_app, lp0, rp0. lia. Qed.
Lemma cnt_expect : forall f n c, cnt (expect_text f n c) = cnt [same_package f n] + cnt c.
Proof. intros. unfold expect_text. rewrite (mentions_cons t (same_package f n)), (mentions_cons t TLp), mentions_app, lp0, rp0. lia. Qed.
Lemma cnt_not : forall b c, cnt (maybe_not b c) = cnt c.
Proof. intros [] c; cbn [maybe_not]; [reflexivity|]. rewrite mentions_cons, bang0. reflexivity. Qed.
Lemma cnt_bang : forall c, cnt (TBang :: c) = cnt c.
Proof. intros. rewrite mentions_cons, bang0. reflexivity. Qed.
Lemma cnt_ECall : forall f args, cnt (toks (ECall f args)) = cnt (toks f) + total_of t args.
Proof.
  intros. change (toks (ECall f args)) with (toks f ++ TLp :: args_toks args ++ [TRp]).
  rewrite mentions_app, (mentions_cons t TLp), mentions_app, lp0, rp0, cnt_args. lia.
Qed.
Lemma cnt_ESub : forall d x args, cnt (toks (ESub d x args)) = cnt (toks x) + cnt [TLb d] + cnt [TRb d] + total_of t args.
Proof.
  intros. change (toks (ESub d x args)) with (toks x ++ TLb d :: args_toks args ++ [TRb d]).
  rewrite mentions_app, (mentions_cons t (TLb d)), mentions_app, cnt_args. lia.
Qed.
Lemma cnt_EBin : forall o nl l r, cnt (toks (EBin o nl l r)) = cnt (toks l) + cnt [TOp o] + cnt (toks r).
Proof.
  intros. change (toks (EBin o nl l r)) with (toks l ++ (if nl then [TNl] else []) ++ TOp o :: toks r).
  rewrite !mentions_app, (mentions_cons t (TOp o)). destruct nl; [rewrite nl0|cbn [mentions]]; lia.
Qed.
Lemma cnt_EUn : forall u x, cnt (toks (EUn u x)) = cnt [utok u] + cnt (toks x).
Proof. intros. change (toks (EUn u x)) with (utok u :: toks x). apply mentions_cons. Qed.
Lemma cnt_EParen : forall x, cnt (toks (EParen x)) = cnt (toks x).
Proof. intros. change (toks (EParen x)) with (TLp :: toks x ++ [TRp]). rewrite mentions_cons, mentions_app, lp0, rp0. lia. Qed.
Lemma cnt_EIf : forall c a el, cnt (toks (EIf c a el)) = cnt [TIf] + cnt (toks c) + cnt (toks a) +
  match el with Some e => cnt [TElse] + cnt (toks e) | None => 0 end.
Proof.
  intros. change (toks (EIf c a el)) with (TIf :: TLp :: toks c ++ TRp :: toks a ++ match el with Some e => TElse :: toks e | None => [] end).
  rewrite (mentions_cons t TIf), (mentions_cons t TLp), mentions_app, (mentions_cons t TRp), mentions_app, lp0, rp0.
  destruct el; [rewrite (mentions_cons t TElse)|cbn [mentions]]; lia.
Qed.
Lemma cnt_EWhile : forall c b, cnt (toks (EWhile c b)) = cnt [TWhile] + cnt (toks c) + cnt (toks b).
Proof.
  intros. change (toks (EWhile c b)) with (TWhile :: TLp :: toks c ++ TRp :: toks b).
  rewrite (mentions_cons t TWhile), (mentions_cons t TLp), mentions_app, (mentions_cons t TRp), lp0, rp0. lia.
Qed.
Lemma cnt_EFor : forall v s b, cnt (toks (EFor v s b)) = cnt [TFor] + cnt [TAtom (AId v)] + cnt [TIn] + cnt (toks s) + cnt (toks b).
Proof.
  intros. change (toks (EFor v s b)) with (TFor :: TLp :: TAtom (AId v) :: TIn :: toks s ++ TRp :: toks b).
  rewrite (mentions_cons t TFor), (mentions_cons t TLp), (mentions_cons t (TAtom _)), (mentions_cons t TIn), mentions_app, (mentions_cons t TRp), lp0, rp0. lia.
Qed.
Lemma cnt_EBraces : forall es, cnt (toks (EBraces es)) = list_sum (map (fun e => cnt (toks e)) es).
Proof.
  intros. change (toks (EBraces es)) with (TLc :: sep [TNl] (map toks es) ++ [TRc]).
  rewrite mentions_cons, mentions_app, mentions_sep by apply nl0. rewrite lc0, rc0, map_map. lia.
Qed.
Lemma cnt_arg : forall n v, cnt (arg_toks (n, v)) = cnt (name_toks n) + cnt (opt_toks v).
Proof. intros. unfold arg_toks. apply mentions_app. Qed.
Lemma cnt_value : forall n v, cnt (opt_toks v) <= cnt (arg_toks (n, v)).
Proof. intros. rewrite cnt_arg. lia. Qed.

(** *** Arguments *)
Lemma total_in : forall args a, In a args -> cnt (arg_toks a) <= total_of t args.
Proof.
  intros args a H. apply in_split in H as (l1 & l2 & ->). rewrite total_app, total_cons. lia.
Qed.
Lemma total_filter : forall k args, total_of t (filter k args) <= total_of t args.
Proof. intros k args. induction args as [|a l IH]; cbn [filter]; [lia|]. rewrite total_cons. destruct (k a); [rewrite total_cons|]; lia. Qed.
Lemma total_parts : forall k args, total_of t (filter k args) + total_of t (filter (fun a => negb (k a)) args) = total_of t args.
Proof. intros k args. induction args as [|a l IH]; cbn [filter]; [reflexivity|]. rewrite total_cons. destruct (k a); cbn [negb]; rewrite total_cons; lia. Qed.
Lemma total_apart : forall k k' args, (forall a, k a = true -> k' a = true -> False) ->
  total_of t (filter k args) + total_of t (filter k' args) <= total_of t args.
Proof.
  intros k k' args H. induction args as [|a l IH]; cbn [filter]; [reflexivity|]. rewrite total_cons.
  specialize (H a). destruct (k a), (k' a); try (exfalso; auto; fail); rewrite ?total_cons; lia.
Qed.
Lemma total_skip : forall args i j, i <= j -> total_of t (firstn i args) + total_of t (skipn j args) <= total_of t args.
Proof.
  intros args. induction args as [|a l IH]; intros [|i] [|j] H; cbn [firstn skipn]; rewrite ?total_nil, ?total_cons; try lia.
  - specialize (IH 0 j). cbn [firstn] in IH. rewrite total_nil in IH. lia.
  - specialize (IH i j). lia.
Qed.
Lemma total_drop : forall args n k l, drop_arg_by_name_or_position args n k = Some l -> total_of t l <= total_of t args.
Proof.
  intros args n k l H. unfold drop_arg_by_name_or_position in H. destruct (existsb _ _).
  - injection H as <-. apply total_filter.
  - destruct (_ =? _); [discriminate|]. injection H as <-. rewrite total_app. apply total_skip. lia.
Qed.
Lemma total_given : forall args, list_sum (map (fun v => cnt (toks v)) (given_values args)) <= total_of t args.
Proof.
  intros args. induction args as [|[n v] l IH]; [apply Nat.le_refl|]. rewrite total_cons.
  change (given_values ((n, v) :: l)) with (match v with Some v => [v] | None => [] end ++ given_values l).
  pose proof (cnt_value n v) as H. destruct v as [v|]; cbn [app opt_toks] in *; [|lia].
  change (list_sum (map (fun v => cnt (toks v)) (v :: given_values l))) with (cnt (toks v) + list_sum (map (fun v => cnt (toks v)) (given_values l))). lia.
Qed.
Lemma find_in : forall {A} (k : A -> bool) l a, find k l = Some a -> exists l1 l2, l = l1 ++ a :: l2 /\ k a = true.
Proof.
  intros A k l a H. pose proof (find_some _ _ H) as [H1 H2]. apply in_split in H1 as (l1 & l2 & ->). eauto.
Qed.
Lemma chosen_in : forall args n k a, get_arg_by_name_then_position args n k = Some a -> In a args.
Proof.
  intros args n k a H. unfold get_arg_by_name_then_position, get_arg_by_name, get_unnamed_arg_by_position, get_unnamed_args in H.
  destruct (find _ _) eqn:E; [injection H as ->; apply find_some in E as []; assumption|].
  apply nth_error_In in H. apply filter_In in H as []; assumption.
Qed.
Lemma chosen_total : forall args n k nm v, get_arg_by_name_then_position args n k = Some (nm, v) -> cnt (opt_toks v) <= total_of t args.
Proof. intros args n k nm v H. apply chosen_in, total_in in H. pose proof (cnt_value nm v). lia. Qed.
Lemma value_total : forall args n k v, arg_value (get_arg_by_name_then_position args n k) = Some v -> cnt (toks v) <= total_of t args.
Proof.
  intros args n k v H. destruct (get_arg_by_name_then_position args n k) as [[nm w]|] eqn:E; cbn in H; [|discriminate]. subst w.
  apply chosen_total in E. exact E.
Qed.

(** Two arguments looked for by other names and at other places are not the same one. *)
Lemma nth_apart : forall (args : list arg) i j a b, nth_error args i = Some a -> nth_error args j = Some b -> i <> j ->
  cnt (arg_toks a) + cnt (arg_toks b) <= total_of t args.
Proof.
  intros args. induction args as [|x l IH]; intros [|i] [|j] a b; cbn [nth_error]; try discriminate; intros A B N; rewrite total_cons.
  - lia.
  - injection A as ->. apply nth_error_In, total_in in B. lia.
  - injection B as ->. apply nth_error_In, total_in in A. lia.
  - specialize (IH i j a b A B). lia.
Qed.
Lemma in_apart : forall args a b, In a args -> In b args -> a <> b -> cnt (arg_toks a) + cnt (arg_toks b) <= total_of t args.
Proof.
  intros args a b A B N. apply In_nth_error in A as [i A]. apply In_nth_error in B as [j B].
  apply (nth_apart args i j); auto. congruence.
Qed.
Lemma by_name : forall args n a, get_arg_by_name args n = Some a -> In a args /\ fst a = Some n.
Proof.
  intros args n a H. apply find_some in H as [H1 H2]. split; [exact H1|]. unfold has_name in H2.
  destruct (fst a); [|discriminate]. rewrite (proj1 (teqb_eq _ _) H2). reflexivity.
Qed.
Lemma by_place : forall args k a, get_unnamed_arg_by_position args k = Some a -> In a args /\ fst a = None.
Proof.
  intros args k a H. apply nth_error_In in H. apply filter_In in H as [H1 H2]. split; [exact H1|]. destruct (fst a); [discriminate|reflexivity].
Qed.
Lemma chosen_apart : forall args n m i j a b,
  get_arg_by_name_then_position args n i = Some a -> get_arg_by_name_then_position args m j = Some b ->
  n <> m -> i - 1 <> j - 1 -> cnt (arg_toks a) + cnt (arg_toks b) <= total_of t args.
Proof.
  intros args n m i j a b A B N P. unfold get_arg_by_name_then_position in *.
  destruct (get_arg_by_name args n) as [a'|] eqn:E1, (get_arg_by_name args m) as [b'|] eqn:E2.
  - injection A as ->. injection B as ->. apply by_name in E1 as [], E2 as []. apply in_apart; auto. congruence.
  - injection A as ->. apply by_name in E1 as []. apply by_place in B as []. apply in_apart; auto. congruence.
  - injection B as ->. apply by_name in E2 as []. apply by_place in A as []. apply in_apart; auto. congruence.
  - unfold get_unnamed_arg_by_position in *. pose proof (nth_apart _ _ _ _ _ A B P).
    assert (total_of t (get_unnamed_args args) <= total_of t args) by apply total_filter. lia.
Qed.
Lemma name_apart : forall args n m i a b,
  get_arg_by_name_then_position args n i = Some a -> get_arg_by_name args m = Some b -> n <> m ->
  cnt (arg_toks a) + cnt (arg_toks b) <= total_of t args.
Proof.
  intros args n m i a b A B N. unfold get_arg_by_name_then_position in *.
  apply by_name in B as []. destruct (get_arg_by_name args n) as [a'|] eqn:E1.
  - injection A as ->. apply by_name in E1 as []. apply in_apart; auto. congruence.
  - apply by_place in A as []. apply in_apart; auto. congruence.
Qed.
End Count.
