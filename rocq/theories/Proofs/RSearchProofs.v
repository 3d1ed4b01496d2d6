(** The rules are applied at every node reached, and only there. *)
From Verif Require Import Spec.RSearch Proofs.TextProofs Proofs.RContext.

(** ** Sequencing *)
Definition fine {A} (a : res A) : Prop := exists l, a = ROk l.
Definition has {A} (a : res (list A)) (x : A) : Prop := exists l, a = ROk l /\ In x l.

Lemma rseq_fine : forall a b, fine (rseq a b) <-> fine a /\ fine b.
Proof.
  intros [a| |] [b| |]; unfold rseq, fine; cbn; split; intros H; try (destruct H as [l H]; discriminate H);
    try (destruct H as [[l1 H1] [l2 H2]]; discriminate); eauto.
Qed.
Lemma rseq_has : forall a b x, fine a -> fine b -> (has (rseq a b) x <-> has a x \/ has b x).
Proof.
  intros a b x [la ->] [lb ->]. unfold rseq, has. cbn. split.
  - intros [l [H Hin]]. injection H as <-. apply in_app_or in Hin. destruct Hin; eauto.
  - intros [[l [H Hin]]|[l [H Hin]]]; injection H as <-; eexists; split; [reflexivity|apply in_or_app; auto| |apply in_or_app]; auto.
Qed.
Lemma rseq_nil_l : forall a, rseq (ROk []) a = a.
Proof. intros [a| |]; reflexivity. Qed.
Lemma rseq_nil_r : forall a, rseq a (ROk []) = a.
Proof. intros [a| |]; unfold rseq; cbn; rewrite ?app_nil_r; reflexivity. Qed.
Lemma rseq_assoc : forall a b c, rseq (rseq a b) c = rseq a (rseq b c).
Proof. intros [a| |] [b| |] [c| |]; unfold rseq; cbn; rewrite ?app_assoc; reflexivity. Qed.

Arguments rseq : simpl never.
Definition in_turn (l : list (res (list found))) : res (list found) := fold_right rseq (ROk []) l.
Lemma in_turn_app : forall a b, in_turn (a ++ b) = rseq (in_turn a) (in_turn b).
Proof.
  induction a as [|x a IH]; intro b; [symmetry; apply rseq_nil_l|].
  change (rseq x (in_turn (a ++ b)) = rseq (rseq x (in_turn a)) (in_turn b)). now rewrite IH, rseq_assoc.
Qed.
Lemma in_turn_fine : forall l, fine (in_turn l) <-> forall a, In a l -> fine a.
Proof.
  induction l as [|x l IH]; cbn [in_turn fold_right].
  - split; [intros _ a []|intros _; eexists; reflexivity].
  - rewrite rseq_fine. unfold in_turn in IH. rewrite IH. split.
    + intros [Hx Hl] a [<-|Ha]; auto.
    + intros H. split; [apply H; left; reflexivity|intros a Ha; apply H; right; exact Ha].
Qed.
Lemma in_turn_has : forall l x, (forall a, In a l -> fine a) ->
  (has (in_turn l) x <-> exists a, In a l /\ has a x).
Proof.
  induction l as [|b l IH]; intros x Hf; cbn [in_turn fold_right].
  - split; [intros [l [H Hin]]; injection H as <-; destruct Hin|intros [a [[] _]]].
  - rewrite rseq_has; [|apply Hf; left; reflexivity|apply (proj2 (in_turn_fine l)); intros a Ha; apply Hf; right; exact Ha].
    change (fold_right rseq (ROk []) l) with (in_turn l).
    rewrite IH by (intros a Ha; apply Hf; right; exact Ha). split.
    + intros [H|[a [Ha H]]]; [exists b|exists a]; split; auto; [left; reflexivity|right; exact Ha].
    + intros [a [[<-|Ha] H]]; [left; exact H|right; eauto].
Qed.

(** ** The children of a node that are looked at *)
Fixpoint arg_kids (k : list arg -> option text -> list arg -> frame) (pre args : list arg) : list (frame * expr) :=
  match args with
  | [] => []
  | (n, v) :: post =>
      match v with Some x => [(k pre n post, x)] | None => [] end ++ arg_kids k (pre ++ [(n, v)]) post
  end.
Fixpoint param_kids (k : list param -> text -> list param -> frame) (pre ps : list param) : list (frame * expr) :=
  match ps with
  | [] => []
  | (n, v) :: post =>
      match v with Some x => [(k pre n post, x)] | None => [] end ++ param_kids k (pre ++ [(n, v)]) post
  end.
Fixpoint block_kids (pre es : list expr) : list (frame * expr) :=
  match es with
  | [] => []
  | x :: post => (FBraces pre post, x) :: block_kids (pre ++ [x]) post
  end.
Definition kids (e : expr) : list (frame * expr) :=
  match e with
  | EAtom _ | EExtract _ _ _ => []
  | EBin o nl l r => [(FBinL o nl r, l); (FBinR o nl l, r)]
  | EBraces es => block_kids [] es
  | ECall f args =>
      match f with EAtom (ANs _ _ _) => [(FCallF args, f)] | _ => [] end ++
      arg_kids (FCallA f) [] args
  | EFor v q b => [(FForS v b, q); (FForB v q, b)]
  | EFun ps b => param_kids (fun pre n post => FFunP pre n post b) [] ps ++ [(FFunB ps, b)]
  | EIf c t el => [(FIfC t el, c); (FIfT c el, t)] ++ match el with Some x => [(FIfE c t, x)] | None => [] end
  | EParen x => [(FParen, x)]
  | ERepeat b => [(FRepeat, b)]
  | ESub d x args => arg_kids (FSubA d x) [] args
  | EUn u x => [(FUn u, x)]
  | EWhile c b => [(FWhileC b, c); (FWhileB c, b)]
  end.
Definition rules_at (s : settings) (e : expr) : list (text * rule_fn) :=
  match e with
  | EAtom (ANum _ | AStr _) => on_value
  | EAtom (AId _) => on_identifier
  | EAtom (ANs _ _ _) => on_namespace
  | EAtom _ | EBraces _ | EParen _ | ERepeat _ | EExtract _ _ _ | ESub true _ _ => []
  | EBin _ _ _ _ => on_binary s
  | ECall _ _ => on_call s
  | EFor _ _ _ => on_for
  | EFun _ _ => on_function s
  | EIf _ _ _ => on_if
  | ESub false _ _ => on_subset
  | EUn _ _ => on_unary
  | EWhile _ _ => on_while
  end.

Definition step (s : settings) (fs : list frame) (p : frame * expr) : res (list found) :=
  check_expression s (fst p :: fs) (snd p).
Lemma check_here : forall s fs e,
  check_expression s fs e = rseq (run_rules s (rules_at s e) fs e) (in_turn (map (step s fs) (kids e))).
Proof.
  intros s fs e. destruct e as [a|x|u x|o nl l r|f args|d x args|x o n|c t el|ps b|v q b|c b|b|es].
  - destruct a; cbn [check_expression rules_at kids map in_turn fold_right]; rewrite ?rseq_nil_r; reflexivity.
  - cbn. rewrite rseq_nil_l, rseq_nil_r. reflexivity.
  - cbn. rewrite rseq_nil_r. reflexivity.
  - cbn [check_expression rules_at kids map in_turn fold_right step fst snd]. rewrite rseq_nil_r. reflexivity.
  - cbn [check_expression rules_at kids]. f_equal. rewrite map_app, in_turn_app. f_equal.
    + destruct f as [a| | | | | | | | | | | | ]; try reflexivity. destruct a; try reflexivity.
      cbn. rewrite rseq_nil_r. reflexivity.
    + generalize (@nil arg) as pre. induction args as [|[n [x|]] args IH]; intro pre; [reflexivity| |].
      * cbn. f_equal. apply IH.
      * cbn. rewrite rseq_nil_l. apply IH.
  - cbn [check_expression rules_at kids]. f_equal; [destruct d; reflexivity|].
    generalize (@nil arg) as pre. induction args as [|[n [y|]] args IH]; intro pre; [reflexivity| |].
    + cbn. f_equal. apply IH.
    + cbn. rewrite rseq_nil_l. apply IH.
  - reflexivity.
  - cbn [check_expression rules_at kids]. f_equal. destruct el; cbn; rewrite ?rseq_nil_r; reflexivity.
  - cbn [check_expression rules_at kids]. f_equal. rewrite map_app, in_turn_app. f_equal.
    + generalize (@nil param) as pre. induction ps as [|[n [x|]] ps IH]; intro pre; [reflexivity| |].
      * cbn. f_equal. apply IH.
      * cbn. rewrite rseq_nil_l. apply IH.
    + cbn. rewrite rseq_nil_r. reflexivity.
  - cbn [check_expression rules_at kids map in_turn fold_right step fst snd]. rewrite rseq_nil_r. reflexivity.
  - cbn [check_expression rules_at kids map in_turn fold_right step fst snd]. rewrite rseq_nil_r. reflexivity.
  - cbn. rewrite rseq_nil_l, rseq_nil_r. reflexivity.
  - cbn [check_expression rules_at kids run_rules]. rewrite rseq_nil_l.
    generalize (@nil expr) at 2 3 as pre. induction es as [|x es IH]; intro pre; [reflexivity|].
    cbn. f_equal. apply IH.
Qed.

(** The children looked at, as a relation. *)
Definition entered (f : frame) (x : expr) : Prop :=
  looked_into f \/ exists args p i n, f = FCallF args /\ x = EAtom (ANs p i n).
Lemma arg_kids_in : forall k args pre f x, In (f, x) (arg_kids k pre args) <->
  exists a n b, args = a ++ (n, Some x) :: b /\ f = k (pre ++ a) n b.
Proof.
  intros k. induction args as [|[n v] args IH]; intros pre f x.
  - cbn. split; [intros []|intros (a & n & b & H & _); destruct a; discriminate H].
  - cbn [arg_kids]. rewrite in_app_iff, IH. split.
    + intros [H|(a & m & b & -> & ->)].
      * destruct v as [y|]; [|destruct H]. destruct H as [H|[]]. injection H as <- <-.
        exists [], n, args. rewrite app_nil_r. auto.
      * exists ((n, v) :: a), m, b. rewrite <- app_assoc. auto.
    + intros (a & m & b & H & ->). destruct a as [|a0 a]; cbn in H; inversion H; subst.
      * left. rewrite app_nil_r. left. reflexivity.
      * right. exists a, m, b. rewrite <- app_assoc. auto.
Qed.
Lemma param_kids_in : forall k ps pre f x, In (f, x) (param_kids k pre ps) <->
  exists a n b, ps = a ++ (n, Some x) :: b /\ f = k (pre ++ a) n b.
Proof.
  intros k. induction ps as [|[n v] ps IH]; intros pre f x.
  - cbn. split; [intros []|intros (a & n & b & H & _); destruct a; discriminate H].
  - cbn [param_kids]. rewrite in_app_iff, IH. split.
    + intros [H|(a & m & b & -> & ->)].
      * destruct v as [y|]; [|destruct H]. destruct H as [H|[]]. injection H as <- <-.
        exists [], n, ps. rewrite app_nil_r. auto.
      * exists ((n, v) :: a), m, b. rewrite <- app_assoc. auto.
    + intros (a & m & b & H & ->). destruct a as [|a0 a]; cbn in H; inversion H; subst.
      * left. rewrite app_nil_r. left. reflexivity.
      * right. exists a, m, b. rewrite <- app_assoc. auto.
Qed.
Lemma block_kids_in : forall es pre f x, In (f, x) (block_kids pre es) <->
  exists a b, es = a ++ x :: b /\ f = FBraces (pre ++ a) b.
Proof.
  induction es as [|y es IH]; intros pre f x.
  - cbn. split; [intros []|intros (a & b & H & _); destruct a; discriminate H].
  - cbn [block_kids]. cbn [In]. rewrite IH. split.
    + intros [H|(a & b & -> & ->)].
      * injection H as <- <-. exists [], es. rewrite app_nil_r. auto.
      * exists (y :: a), b. rewrite <- app_assoc. auto.
    + intros (a & b & H & ->). destruct a as [|a0 a]; cbn in H; injection H as H1 H2.
      * left. subst. rewrite app_nil_r. reflexivity.
      * subst a0. right. exists a, b. rewrite <- app_assoc. auto.
Qed.
Lemma kids_in : forall e f x, In (f, x) (kids e) <-> fill f x = e /\ entered f x.
Proof.
  intros e f x. unfold entered. split.
  - intro H.
    destruct e as [a|y|u y|o nl l r|g args|d y args|y o n|c t el|ps b|v q b|c b|b|es]; cbn [kids] in H;
      try (repeat (destruct H as [H|H]; [injection H as <- <-; split; [reflexivity|left; exact Logic.I]|]); destruct H; fail).
    + apply in_app_or in H. destruct H as [H|H].
      * destruct g as [a| | | | | | | | | | | | ]; try (destruct H; fail).
        destruct a as [| | | | | | |p i n|]; try (destruct H; fail).
        destruct H as [H|[]]. injection H as <- <-. split; [reflexivity|]. right. eauto 6.
      * apply arg_kids_in in H. destruct H as (a & n & b & -> & ->). split; [reflexivity|left; exact Logic.I].
    + apply arg_kids_in in H. destruct H as (a & n & b & -> & ->). split; [reflexivity|left; exact Logic.I].
    + apply in_app_or in H. destruct H as [H|H].
      * repeat (destruct H as [H|H]; [injection H as <- <-; split; [reflexivity|left; exact Logic.I]|]); destruct H.
      * destruct el; [|destruct H]. destruct H as [H|[]]. injection H as <- <-. split; [reflexivity|left; exact Logic.I].
    + apply in_app_or in H. destruct H as [H|H].
      * apply param_kids_in in H. destruct H as (a & n & b' & -> & ->). split; [reflexivity|left; exact Logic.I].
      * destruct H as [H|[]]. injection H as <- <-. split; [reflexivity|left; exact Logic.I].
    + apply block_kids_in in H. destruct H as (a & b & -> & ->). split; [reflexivity|left; exact Logic.I].
  - intros [<- H]. destruct f; cbn [fill kids];
      try (destruct H as [[]|(args' & p & i & n' & H & _)]; discriminate H);
      try (left; reflexivity); try (right; left; reflexivity).
    + destruct H as [[]|(args' & p & i & n & _ & ->)]. left. reflexivity.
    + apply in_or_app. right. apply arg_kids_in. exists pre, n, post. auto.
    + apply arg_kids_in. exists pre, n, post. auto.
    + right; right; left; reflexivity.
    + apply in_or_app. left. apply param_kids_in. exists pre, n, post. auto.
    + apply in_or_app. right. left. reflexivity.
    + apply block_kids_in. exists pre, post. auto.
Qed.

Lemma fill_bigger : forall f x, length (toks x) < length (toks (fill f x)).
Proof.
  intros f x. rewrite fill_toks. rewrite !app_length.
  enough (0 < length (frame_pre f) + length (frame_post f)) by lia.
  destruct f; cbn [frame_pre frame_post]; rewrite ?app_length; cbn [length]; rewrite ?app_length; cbn [length]; lia.
Qed.
Lemma plug_snoc : forall gs f x, plug (gs ++ [f]) x = fill f (plug gs x).
Proof. induction gs as [|g gs IH]; intros f x; [reflexivity|]. cbn [app plug]. apply IH. Qed.

(** Nodes inside [e] that are looked at. *)
Definition inside (e : expr) (gs : list frame) (x : expr) : Prop := plug gs x = e /\ reached gs x.
Lemma plug_atom : forall gs x a, plug gs x = EAtom a -> gs = [] /\ x = EAtom a.
Proof.
  induction gs as [|g gs IH]; intros x a H; [auto|]. cbn in H. apply IH in H. destruct H as [_ H]. destruct g; discriminate H.
Qed.
Lemma inside_cases : forall e gs x, inside e gs x <->
  gs = [] /\ x = e \/
  exists f y hs, gs = hs ++ [f] /\ In (f, y) (kids e) /\ inside y hs x.
Proof.
  intros e gs x. split.
  - intros [Hp Hr]. destruct gs as [|g0 gs0] using rev_ind; [left; auto|]. clear IHgs0. right.
    rewrite plug_snoc in Hp. exists g0, (plug gs0 x), gs0. split; [reflexivity|].
    rewrite kids_in. unfold inside, reached, entered.
    destruct Hr as [Hr|(args & fs' & p & i & n & Hg & -> & Hr)].
    + apply Forall_app in Hr. destruct Hr as [H1 H2]. inversion H2. auto.
    + destruct gs0 as [|h gs0].
      * cbn in Hg. injection Hg as -> <-. cbn. split; [split; [exact Hp|right; eauto 6]|].
        split; [reflexivity|left; constructor].
      * cbn in Hg. injection Hg as -> <-. apply Forall_app in Hr. destruct Hr as [H1 H2]. inversion H2.
        split; [auto|]. split; [reflexivity|]. right. exists args, gs0, p, i, n. auto.
  - intros [[-> ->]|(f & y & hs & -> & Hk & Hp & Hr)].
    + split; [reflexivity|left; constructor].
    + apply kids_in in Hk. destruct Hk as [He Hf]. split.
      * rewrite plug_snoc, Hp. exact He.
      * destruct Hf as [Hf|(args & p & i & n & -> & ->)].
        -- destruct Hr as [Hr|(args & fs' & p & i & n & -> & -> & Hr)].
           ++ left. apply Forall_app. split; [exact Hr|constructor; [exact Hf|constructor]].
           ++ right. exists args, (fs' ++ [f]), p, i, n. split; [reflexivity|]. split; [reflexivity|].
              apply Forall_app. split; [exact Hr|constructor; [exact Hf|constructor]].
        -- apply plug_atom in Hp. destruct Hp as [-> ->]. right. exists args, [], p, i, n.
           split; [reflexivity|]. split; [reflexivity|constructor].
Qed.

(** ** What is run at one node *)
Lemma run_rules_fine : forall s rules fs e,
  fine (run_rules s rules fs e) <-> forall n f, In (n, f) rules -> on s n = true -> fine (f fs e).
Proof.
  intros s rules fs e. induction rules as [|[n f] rules IH]; cbn [run_rules].
  - split; [intros _ n f []|intros _; eexists; reflexivity].
  - destruct (on s n) eqn:Hn.
    + destruct (f fs e) as [rs| |] eqn:Hf; cbn [rbind].
      * destruct (run_rules s rules fs e) as [l| |] eqn:Hr; cbn [rbind].
        -- split; [|intros _; eexists; reflexivity]. intros _ m g [H|H] Hm.
           ++ injection H as <- <-. exists rs. exact Hf.
           ++ apply (proj1 IH) with m; auto. exists l. reflexivity.
        -- split; [intros [l H]; discriminate H|]. intro H.
           destruct (proj2 IH) as [l Hl]; [|discriminate Hl]. intros m g Hin. apply H. right. exact Hin.
        -- split; [intros [l H]; discriminate H|]. intro H.
           destruct (proj2 IH) as [l Hl]; [|discriminate Hl]. intros m g Hin. apply H. right. exact Hin.
      * split; [intros [l H]; discriminate H|]. intro H.
        destruct (H n f (or_introl eq_refl) Hn) as [l Hl]. rewrite Hf in Hl. discriminate Hl.
      * split; [intros [l H]; discriminate H|]. intro H.
        destruct (H n f (or_introl eq_refl) Hn) as [l Hl]. rewrite Hf in Hl. discriminate Hl.
    + rewrite IH. split.
      * intros H m g [Hin|Hin] Hm; [injection Hin as <- <-; congruence|eauto].
      * intros H m g Hin. apply H. right. exact Hin.
Qed.
Lemma run_rules_has : forall s rules fs e, fine (run_rules s rules fs e) -> forall n r,
  has (run_rules s rules fs e) (n, r) <->
  on s n = true /\ exists f rs, In (n, f) rules /\ f fs e = ROk rs /\ In r rs.
Proof.
  intros s rules fs e. induction rules as [|[m f] rules IH]; cbn [run_rules]; intros Hf n r.
  - split; [intros [l [H Hin]]; injection H as <-; destruct Hin|intros [_ (f & rs & [] & _)]].
  - destruct (on s m) eqn:Hm.
    + destruct (f fs e) as [rs| |] eqn:Ef; cbn [rbind] in *; try (destruct Hf as [l H]; discriminate H).
      destruct (run_rules s rules fs e) as [l| |] eqn:Hr; cbn [rbind] in *; try (destruct Hf as [l' H]; discriminate H).
      assert (IH' := IH (ex_intro _ l eq_refl) n r). split.
      * intros [l' [H Hin]]. injection H as <-. apply in_app_or in Hin. destruct Hin as [Hin|Hin].
        -- apply in_map_iff in Hin. destruct Hin as (r' & H & Hin). injection H as <- <-.
           split; [exact Hm|]. exists f, rs. split; [left; reflexivity|]. auto.
        -- destruct (proj1 IH') as (Hn & g & gs & Hg & H); [exists l; auto|].
           split; [exact Hn|]. exists g, gs. split; [right; exact Hg|exact H].
      * intros (Hn & g & gs & [Hg|Hg] & Hgs & Hin).
        -- injection Hg as -> ->. rewrite Ef in Hgs. injection Hgs as <-.
           eexists. split; [reflexivity|]. apply in_or_app. left. apply in_map. exact Hin.
        -- destruct (proj2 IH') as (l' & H & Hin'); [split; eauto|]. injection H as <-.
           eexists. split; [reflexivity|]. apply in_or_app. right. exact Hin'.
    + rewrite (IH Hf n r). split.
      * intros (Hn & g & gs & Hg & H). split; [exact Hn|]. exists g, gs. split; [right; exact Hg|exact H].
      * intros (Hn & g & gs & [Hg|Hg] & H); [injection Hg as -> ->; congruence|]. split; [exact Hn|]. eauto.
Qed.

Ltac index_in x l :=
  lazymatch l with
  | x :: _ => constr:(0)
  | _ :: ?l' => let k := index_in x l' in constr:(S k)
  end.
Ltac tail_in := match goal with |- In ?x ?l => let k := index_in x l in exact (nth_error_In l k eq_refl) end.
(** A rule does nothing on the nodes it is not run on. *)
Lemma rules_at_all : forall s e n f, In (n, f) (rules_at s e) -> In (n, f) (all_rules s).
Proof.
  intros s e n f H.
  assert (Hall : forall l, In (n, f) l -> incl l (all_rules s) -> In (n, f) (all_rules s)) by (intros l Hl Hi; exact (Hi _ Hl)).
  destruct e as [a|x|u x|o nl l r|g args|d x args|x o m|c t el|ps b|v q b|c b|b|es];
    [destruct a| | | | |destruct d| | | | | | | ]; cbn [rules_at] in H; try (destruct H; fail);
    apply (Hall _ H); unfold on_value, on_identifier, on_namespace, on_binary, on_call, on_for, on_function,
      on_if, on_subset, on_unary, on_while, all_rules; clear;
    repeat (apply incl_cons; [tail_in|]); apply incl_nil_l.
Qed.
Lemma rules_elsewhere_all : forall s, only_functions (unreachable s) ->
  Forall (fun p => forall e fs, In p (rules_at s e) \/ snd p fs e = ROk []) (all_rules s).
Proof.
  intros s Hu. unfold all_rules.
  repeat (apply Forall_cons; [
    intros e fs; cbn [snd];
    (destruct e as [a|x|u x|o nl l r|g args|d x args|x o m|c t el|ps b|v q b|c b|b|es];
      [destruct a| | | | |destruct d| | | | | | | ]); cbn [rules_at];
    first [ right; reflexivity
          | left; unfold on_value, on_identifier, on_namespace, on_binary, on_call, on_for, on_function,
              on_if, on_subset, on_unary, on_while; tail_in
          | right; match goal with |- unreachable s fs ?e = _ => exact (Hu fs e) end
          | right; unfold total, outer_negation; destruct (parent_is_bang_unary fs); reflexivity ] |]).
  apply Forall_nil.
Qed.
Lemma rules_elsewhere : forall s e fs n f, only_functions (unreachable s) ->
  In (n, f) (all_rules s) -> In (n, f) (rules_at s e) \/ f fs e = ROk [].
Proof.
  intros s e fs n f Hu H.
  exact (proj1 (Forall_forall _ _) (rules_elsewhere_all s Hu) (n, f) H e fs).
Qed.

Lemma run_here : forall s fs e, only_functions (unreachable s) ->
  (fine (run_rules s (rules_at s e) fs e) <-> forall n, ~ fails s n fs e) /\
  (fine (run_rules s (rules_at s e) fs e) -> forall n r,
     has (run_rules s (rules_at s e) fs e) (n, r) <-> fires s n fs e r).
Proof.
  intros s fs e Hu. split.
  - rewrite run_rules_fine. split.
    + intros H n (Hn & f & Hin & Hf).
      destruct (rules_elsewhere s e fs n f Hu Hin) as [H1|H1]; [|exact (Hf _ H1)].
      destruct (H n f H1 Hn) as [l Hl]. exact (Hf _ Hl).
    + intros H n f Hin Hn. destruct (f fs e) as [rs| |] eqn:Ef; [eexists; reflexivity| |];
        exfalso; apply (H n); split; auto; exists f; (split; [exact (rules_at_all s e n f Hin)|]);
        intros rs Hrs; congruence.
  - intros Hf n r. rewrite (run_rules_has s (rules_at s e) fs e Hf). unfold fires. split.
    + intros (Hn & f & rs & Hin & H1). split; [exact Hn|]. exists f, rs. split; [exact (rules_at_all s e n f Hin)|exact H1].
    + intros (Hn & f & rs & Hin & Hrs & Hr). split; [exact Hn|]. exists f, rs.
      destruct (rules_elsewhere s e fs n f Hu Hin) as [H1|H1]; [auto|].
      rewrite H1 in Hrs. injection Hrs as <-. destruct Hr.
Qed.

(** ** The whole search *)
Lemma check_expression_exact : forall s, only_functions (unreachable s) -> forall e fs,
  (fine (check_expression s fs e) <-> forall gs x n, inside e gs x -> ~ fails s n (gs ++ fs) x) /\
  (fine (check_expression s fs e) -> forall n r,
     has (check_expression s fs e) (n, r) <-> exists gs x, inside e gs x /\ fires s n (gs ++ fs) x r).
Proof.
  intros s Hu e. remember (length (toks e)) as k eqn:Hk. revert e Hk.
  induction k as [k IH] using lt_wf_ind. intros e Hk fs.
  destruct (run_here s fs e Hu) as [R1 R2].
  assert (IH' : forall f y, In (f, y) (kids e) ->
    (fine (check_expression s (f :: fs) y) <-> forall gs x n, inside y gs x -> ~ fails s n (gs ++ f :: fs) x) /\
    (fine (check_expression s (f :: fs) y) -> forall n r,
       has (check_expression s (f :: fs) y) (n, r) <-> exists gs x, inside y gs x /\ fires s n (gs ++ f :: fs) x r)).
  { intros f y Hy. apply (IH (length (toks y))); [|reflexivity].
    apply kids_in in Hy. destruct Hy as [<- _]. subst k. apply fill_bigger. }
  assert (F : fine (check_expression s fs e) <->
    fine (run_rules s (rules_at s e) fs e) /\ forall f y, In (f, y) (kids e) -> fine (check_expression s (f :: fs) y)).
  { rewrite check_here, rseq_fine, in_turn_fine. split; intros [H1 H2]; (split; [exact H1|]).
    - intros f y Hy. apply H2. apply in_map_iff. exists (f, y). auto.
    - intros a Ha. apply in_map_iff in Ha. destruct Ha as [[f y] [<- Hy]]. exact (H2 f y Hy). }
  split.
  - rewrite F, R1. split.
    + intros [H1 H2] gs x n Hi. apply inside_cases in Hi.
      destruct Hi as [[-> ->]|(f & y & hs & -> & Hy & Hi)]; [apply H1|].
      rewrite <- app_assoc. cbn [app]. apply (proj1 (proj1 (IH' f y Hy)) (H2 f y Hy)). exact Hi.
    + intro H. split.
      * intro n. apply (H [] e n). apply inside_cases. left. auto.
      * intros f y Hy. apply (proj1 (IH' f y Hy)). intros gs x n Hi.
        specialize (H (gs ++ [f]) x n). rewrite <- app_assoc in H. apply H. apply inside_cases. right. eauto 7.
  - intros Hf n r. apply F in Hf. destruct Hf as [H1 H2]. rewrite check_here.
    assert (Ht : forall a, In a (map (step s fs) (kids e)) -> fine a).
    { intros a Ha. apply in_map_iff in Ha. destruct Ha as [[f y] [<- Hy]]. exact (H2 f y Hy). }
    rewrite rseq_has; [|exact H1|apply in_turn_fine; exact Ht].
    rewrite (R2 H1), (in_turn_has _ _ Ht). split.
    + intros [H|(a & Ha & H)].
      * exists [], e. split; [apply inside_cases; left; auto|exact H].
      * apply in_map_iff in Ha. destruct Ha as [[f y] [<- Hy]].
        apply (proj2 (IH' f y Hy) (H2 f y Hy)) in H. destruct H as (gs & x & Hi & H).
        exists (gs ++ [f]), x. split; [apply inside_cases; right; eauto 7|rewrite <- app_assoc; exact H].
    + intros (gs & x & Hi & H). apply inside_cases in Hi.
      destruct Hi as [[-> ->]|(f & y & hs & -> & Hy & Hi)]; [left; exact H|]. right.
      exists (check_expression s (f :: fs) y). split; [apply in_map_iff; exists (f, y); auto|].
      apply (proj2 (IH' f y Hy) (H2 f y Hy)). exists hs, x. split; [exact Hi|]. rewrite <- app_assoc in H. exact H.
Qed.

Lemma check_statements_exact : forall s, only_functions (unreachable s) -> forall p k,
  (fine (check_statements s k p) <->
     forall i e fs x n, nth_error p i = Some e -> inside e fs x -> ~ fails s n fs x) /\
  (fine (check_statements s k p) -> forall j n r,
     has (check_statements s k p) (j, (n, r)) <->
     exists i e fs x, j = k + i /\ nth_error p i = Some e /\ inside e fs x /\ fires s n fs x r).
Proof.
  intros s Hu. induction p as [|e p IH]; intro k; cbn [check_statements].
  - split.
    + split; [intros _ i e fs x n H; destruct i; discriminate H|intros _; eexists; reflexivity].
    + intros _ j n r. split; [intros [l [H Hin]]; injection H as <-; destruct Hin|].
      intros (i & e & fs & x & _ & H & _). destruct i; discriminate H.
  - destruct (check_expression_exact s Hu e []) as [E1 E2]. destruct (IH (S k)) as [I1 I2].
    assert (N : forall gs : list frame, gs ++ [] = gs) by apply app_nil_r.
    split.
    + split.
      * intros [l Hl].
        destruct (check_expression s [] e) as [a| |] eqn:Ea; try discriminate Hl. cbn [rbind] in Hl.
        destruct (check_statements s (S k) p) as [b| |] eqn:Eb; try discriminate Hl.
        intros i e' fs x n Hi Hx Hfail. destruct i as [|i].
        -- injection Hi as <-. refine (proj1 E1 _ fs x n Hx _); [eexists; reflexivity|rewrite N; exact Hfail].
        -- cbn in Hi. refine (proj1 I1 _ i e' fs x n Hi Hx Hfail). eexists; reflexivity.
      * intro H. destruct (proj2 E1) as [a Ha].
        { intros gs x n Hx. rewrite N. exact (H 0 e gs x n eq_refl Hx). }
        destruct (proj2 I1) as [b Hb]; [intros i e' fs x n Hi; exact (H (S i) e' fs x n Hi)|].
        rewrite Ha. cbn [rbind]. rewrite Hb. eexists. reflexivity.
    + intros [l Hl] j n r.
      destruct (check_expression s [] e) as [a| |] eqn:Ea; try discriminate Hl. cbn [rbind] in *.
      destruct (check_statements s (S k) p) as [b| |] eqn:Eb; try discriminate Hl. cbn [rbind] in *.
      assert (E2' := E2 (ex_intro _ a eq_refl) n r). assert (I2' := I2 (ex_intro _ b eq_refl) j n r).
      split.
      * intros [l' [H Hin]]. injection H as <-. apply in_app_or in Hin. destruct Hin as [Hin|Hin].
        -- apply in_map_iff in Hin. destruct Hin as ([n' r'] & H & Hin). injection H as <- <- <-.
           destruct (proj1 E2') as (gs & x & Hi & Hfire); [exists a; auto|]. rewrite N in Hfire.
           exists 0, e, gs, x. split; [lia|]. auto.
        -- destruct (proj1 I2') as (i & e' & fs & x & Hj & Hn & H); [exists b; auto|].
           exists (S i), e', fs, x. split; [lia|]. auto.
      * intros (i & e' & fs & x & Hj & Hn & Hi & Hfire). eexists. split; [reflexivity|]. apply in_or_app.
        destruct i as [|i].
        -- left. injection Hn as <-. rewrite Nat.add_0_r in Hj. subst j. apply in_map.
           destruct (proj2 E2') as (l' & H & Hin); [exists fs, x; rewrite N; auto|]. injection H as <-. exact Hin.
        -- right. destruct (proj2 I2') as (l' & H & Hin).
           { exists i, e', fs, x. split; [lia|]. auto. }
           injection H as <-. exact Hin.
Qed.

(** The statement used by the property file. *)
Theorem check_file_exact : forall s p ds, only_functions (unreachable s) -> check_file s p = ROk ds ->
  forall i n r, In (i, (n, r)) ds <->
    exists e fs x, nth_error p i = Some e /\ plug fs x = e /\ reached fs x /\ fires s n fs x r.
Proof.
  intros s p ds Hu Hd i n r. destruct (check_statements_exact s Hu p 0) as [_ H].
  specialize (H (ex_intro _ ds Hd) i n r). unfold has in H. fold (check_file s p) in H. rewrite Hd in H. split.
  - intro Hin. destruct (proj1 H) as (j & e & fs & x & -> & Hj & [Hp Hr] & Hf); [eauto|].
    exists e, fs, x. auto.
  - intros (e & fs & x & Hi & Hp & Hr & Hf). destruct (proj2 H) as (l & Hl & Hin).
    { exists i, e, fs, x. split; [reflexivity|]. split; [exact Hi|]. split; [split; auto|exact Hf]. }
    injection Hl as <-. exact Hin.
Qed.
Theorem check_file_fine : forall s p, only_functions (unreachable s) ->
  ((exists ds, check_file s p = ROk ds) <->
   forall e fs x n, In e p -> plug fs x = e -> reached fs x -> ~ fails s n fs x).
Proof.
  intros s p Hu. destruct (check_statements_exact s Hu p 0) as [H _]. fold (check_file s p) in H.
  unfold fine in H. rewrite H. split.
  - intros Hall e fs x n Hin Hp Hr. apply In_nth_error in Hin. destruct Hin as [i Hi].
    apply (Hall i e fs x n Hi). split; auto.
  - intros Hall i e fs x n Hi [Hp Hr]. apply nth_error_In in Hi. exact (Hall e fs x n Hi Hp Hr).
Qed.
