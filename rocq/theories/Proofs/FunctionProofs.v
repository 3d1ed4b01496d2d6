(** C97: what the fixes of sort, which_grepl, length_levels, seq, seq2, class_equals and lengths compute. *)
From Verif Require Import Spec.RGrammar Spec.RWellFormed Spec.RPosition Spec.RSemantics Spec.RFix Spec.RFunctions.
From Verif Require Import Proofs.TextProofs Proofs.RParse Proofs.RParseSound Proofs.RContext Proofs.RCongruence Proofs.RAlike Proofs.LintSyntax Proofs.LintFixes Proofs.LintUnits.
From Verif Require Import Proofs.LintNested.

(** *** Sorting *)
Lemma put_map : forall {A B} (f : A -> B) le le' x l, (forall y, le' (f x) (f y) = le x y) ->
  map f (put le x l) = put le' (f x) (map f l).
Proof.
  intros A B f le le' x l H. induction l as [|y l IH]; [reflexivity|]. cbn [put map].
  rewrite H. destruct (le x y); [reflexivity|]. cbn [map]. rewrite IH. reflexivity.
Qed.
Lemma sorted_map : forall {A B} (f : A -> B) le le' l, (forall x y, le' (f x) (f y) = le x y) ->
  map f (sorted le l) = sorted le' (map f l).
Proof.
  intros A B f le le' l H. unfold sorted. induction l as [|x l IH]; [reflexivity|].
  cbn [fold_right map]. rewrite (put_map f le le') by auto. rewrite IH. reflexivity.
Qed.
Lemma put_in : forall {A} (le : A -> A -> bool) x l y, In y (put le x l) <-> y = x \/ In y l.
Proof.
  intros A le x l y. induction l as [|z l IH]; cbn [put].
  - cbn. intuition congruence.
  - destruct (le x z); cbn [In]; [intuition congruence|]. rewrite IH. intuition congruence.
Qed.
Lemma sorted_in : forall {A} (le : A -> A -> bool) l y, In y (sorted le l) <-> In y l.
Proof.
  intros A le l y. unfold sorted. induction l as [|x l IH]; [reflexivity|].
  cbn [fold_right In]. rewrite put_in, IH. intuition congruence.
Qed.

Section Order.
Context {A B : Type} (key : B -> option A) (le : A -> A -> bool).
Lemma present_keys : forall l k, map fst (present key k l) =
  flat_map (fun x => match key x with Some a => [a] | None => [] end) l.
Proof.
  induction l as [|x l IH]; intro k; [reflexivity|]. cbn [present flat_map].
  destruct (key x) as [a|]; cbn [map app fst]; rewrite IH; reflexivity.
Qed.
Lemma present_spec : forall l k a i, In (a, i) (present key k l) ->
  exists j x, i = k + j /\ nth_error l j = Some x /\ key x = Some a.
Proof.
  induction l as [|x l IH]; intros k a i H; [destruct H|]. cbn [present] in H.
  assert (T : In (a, i) (present key (S k) l) -> exists j x0, i = k + j /\ nth_error (x :: l) j = Some x0 /\ key x0 = Some a).
  { intro G. destruct (IH _ _ _ G) as (j & y & -> & E1 & E2). exists (S j), y. repeat split; auto. lia. }
  destruct (key x) as [b|] eqn:E; [|auto]. destruct H as [H|H]; [|auto].
  injection H as -> ->. exists 0, x. repeat split; auto.
Qed.
Lemma absent_none : forall l k, (forall x, In x l -> key x <> None) -> absent key k l = [].
Proof.
  induction l as [|x l IH]; intros k H; [reflexivity|]. cbn [absent].
  destruct (key x) eqn:E; [apply IH; intros; apply H; right; auto|].
  exfalso. apply (H x); [left; reflexivity|exact E].
Qed.
Lemma order_bound : forall l, (forall x, In x l -> key x <> None) ->
  forallb (fun k => k <? length l) (order_of key le l) = true.
Proof.
  intros l H. apply forallb_forall. intros k Hk. unfold order_of in Hk. rewrite absent_none, app_nil_r in Hk by exact H.
  apply in_map_iff in Hk. destruct Hk as ((a & i) & <- & Hi). apply (proj1 (sorted_in _ _ _)) in Hi.
  destruct (present_spec _ _ _ _ Hi) as (j & x & -> & E & _). apply Nat.ltb_lt.
  assert (j < length l) by (apply nth_error_Some; congruence). cbn. lia.
Qed.
(** Elements at the positions of order(), when no element is missing and an element is its key. *)
Lemma order_sort : forall (inj : A -> B) d l, (forall x a, key x = Some a -> x = inj a) ->
  (forall x, In x l -> key x <> None) ->
  map (fun k => nth k l d) (order_of key le l) = map inj (sort_of key le l).
Proof.
  intros inj d l Hinj H. unfold order_of, sort_of. rewrite absent_none, app_nil_r by exact H.
  rewrite <- (present_keys l 0).
  rewrite <- (sorted_map fst (fun a b => le (fst a) (fst b)) le) by reflexivity.
  rewrite !map_map. apply map_ext_in. intros (a & i) Hi. apply (proj1 (sorted_in _ _ _)) in Hi.
  destruct (present_spec _ _ _ _ Hi) as (j & x & -> & E1 & E2). cbn [fst snd].
  cbn [Nat.add]. rewrite (nth_error_nth _ _ d E1). apply Hinj. exact E2.
Qed.
End Order.

Section Values.
Variable I : interp.
Notation val := (value (num I) (other I)).

Lemma complete_sort : forall v, complete I v -> exists ks w, vorder I v = Some (places I ks) /\
  elements_at I v ks = Some w /\ vsort I v = Some w.
Proof.
  intros v [(l & -> & H)|[(l & ->)|(l & ->)]]; cbn [vorder vsort elements_at].
  - rewrite Forall_forall in H.
    exists (order_of (num_key I) (not_after (ncmp I)) l), (VNum (map Some (sort_of (num_key I) (not_after (ncmp I)) l))).
    split; [reflexivity|]. split; [|reflexivity]. rewrite order_bound by exact H. do 2 f_equal.
    apply order_sort; [|exact H]. intros [x|] a E; [|discriminate]. cbn in E. destruct (isnan I x); congruence.
  - assert (H : forall x, In x (map (@Some text) l) -> (fun x : option text => x) x <> None).
    { intros x Hx. apply in_map_iff in Hx. destruct Hx as (y & <- & _). discriminate. }
    eexists _, _. split; [reflexivity|]. split; [|reflexivity]. rewrite order_bound by exact H. do 2 f_equal.
    apply order_sort; [|exact H]. intros x a E. exact E.
  - assert (H : forall x, In x (map (@Some bool) l) -> (fun x : option bool => x) x <> None).
    { intros x Hx. apply in_map_iff in Hx. destruct Hx as (y & <- & _). discriminate. }
    eexists _, _. split; [reflexivity|]. split; [|reflexivity]. rewrite order_bound by exact H. do 2 f_equal.
    apply order_sort; [|exact H]. intros x a E. exact E.
Qed.

Lemma count_up : forall n, 0 < n -> count 1 n = seq 1 n.
Proof. intros n H. unfold count. replace (1 <=? n) with true by (symmetry; apply Nat.leb_le; lia). f_equal. lia. Qed.

Lemma which_lgls : forall l, vwhich I (lgls I l) = Some (places I (hits 0 l)).
Proof.
  intro l. cbn [vwhich lgls]. do 3 f_equal. rewrite map_map. rewrite <- (map_id l) at 2. apply map_ext. intros []; reflexivity.
Qed.
End Values.

(** *** Calls of functions without a fixed meaning *)
Definition open_name (n : text) : Prop := forall I, builtin1 I n = None /\ forall args, builtin3 I n args = None.
Ltac is_open := intro; split; [reflexivity|intro; reflexivity].
Lemma eval_open : forall I n f args, open_name n -> fname f = Some n ->
  eval I (ECall f args) = i_call I (eval I f)
    (map (fun a : arg => (fst a, match snd a with Some v => Some (eval I v) | None => None end)) args).
Proof.
  intros I n f args O Hf. destruct (O I) as [O1 O2]. cbn [eval]. rewrite Hf. unfold apply. rewrite O1, O2. reflexivity.
Qed.
Lemma call_means1 : forall I n g f x s, open_name n -> fname f = Some n -> means1 I n g ->
  match eval I x s with
  | None => eval I (ECall f [(None, Some x)]) s = None
  | Some (v, s1) => forall w, g v = Some w -> eval I (ECall f [(None, Some x)]) s = Some (w, s1)
  end.
Proof. intros I n g f x s O Hf H. rewrite (eval_open I n f _ O Hf). apply (H f (eval I x) s Hf). Qed.
Lemma call_means2 : forall I n g f x y s, open_name n -> fname f = Some n -> means2 I n g ->
  match eval I x s with
  | None => eval I (ECall f [(None, Some x); (None, Some y)]) s = None
  | Some (v, s1) =>
      match eval I y s1 with
      | None => eval I (ECall f [(None, Some x); (None, Some y)]) s = None
      | Some (w, s2) => forall z, g v w = Some z -> eval I (ECall f [(None, Some x); (None, Some y)]) s = Some (z, s2)
      end
  end.
Proof. intros I n g f x y s O Hf H. rewrite (eval_open I n f _ O Hf). apply (H f (eval I x) (eval I y) s Hf). Qed.
Lemma call_number : forall I n g f x s, open_name n -> fname f = Some n -> on_number I n g ->
  match eval I x s with
  | None => eval I (ECall f [(None, Some x)]) s = None
  | Some (v, s1) => forall k, v = number I k -> eval I (ECall f [(None, Some x)]) s = Some (numbers_of I (g k), s1)
  end.
Proof. intros I n g f x s O Hf H. rewrite (eval_open I n f _ O Hf). apply (H f (eval I x) s Hf). Qed.

(** The fix at the node itself, when neither is assigned to or is piped into. *)
Lemma call_harmless : forall (P : interp -> Prop) p e e' r, node_of_file p e ->
  r = mk_report (frames p) e (Some (toks e')) ->
  fits (frames p) e' -> fname e = None -> fname e' = None ->
  assigned (frames p) = false -> pipe_target (frames p) = false ->
  (forall I, P I -> ceq (eval I e) (eval I e')) -> fix_harmless P p e r.
Proof.
  intros P p e e' r H -> F N N' HA HP C. apply both_harmless.
  eapply harmless_at with (e0 := e) (e' := e'); try rewrite fix_place_here; auto.
  intros I HI. cbn [at_frames]. split; [apply C; exact HI|]. split; [congruence|]. split; [congruence|congruence].
Qed.
Lemma some_eq : forall {A} (x y : A), Some x = Some y -> y = x.
Proof. congruence. Qed.

(** *** sort *)
Lemma sort_harmless : forall p e r f x,
  node_of_file p e -> sort_rule (frames p) e = Some r ->
  e = ESub false x [(None, Some (ECall f [(None, Some x)]))] -> fname f = Some (lit "order") ->
  assigned (frames p) = false -> pipe_target (frames p) = false ->
  fix_harmless (fun I => knows_sort I /\ pure I x /\ yields I x (complete I)) p e r.
Proof.
  intros p e r f x H Hr He Hf HA HP. pose proof (node_wf _ _ H) as W. rewrite He in W, Hr.
  unfold sort_rule in Hr. rewrite (fname_name _ _ Hf) in Hr.
  change (teqb (lit "order") (lit "order")) with true in Hr. cbv iota in Hr.
  change (get_unnamed_args [(None, Some x)]) with [(@None text, Some x)] in Hr. cbv iota in Hr.
  destruct (same_text _ _); [|discriminate]. apply some_eq in Hr.
  apply call_harmless with (e' := ECall (EAtom (AId (lit "sort"))) [(None, Some x)]); auto.
  - subst e. exact Hr.
  - cbn [wf] in W. destruct W as (W1 & P1 & _). apply fits_primary; [reflexivity|].
    apply call_wf; [discriminate|]. apply call1_args with (i := true); [eapply wf_weaken; eauto|apply primary_level; exact P1].
  - subst e. reflexivity.
  - intros I ((K1 & K2 & K3) & HX & HC) s. subst e.
    assert (O1 : open_name (lit "order")) by is_open. assert (O2 : open_name (lit "sort")) by is_open.
    pose proof (call_means1 I _ _ f x s O1 Hf K1) as Q1.
    pose proof (call_means1 I _ _ (EAtom (AId (lit "sort"))) x s O2 eq_refl K2) as Q2.
    pose proof (K3 (eval I x) (eval I (ECall f [(None, Some x)])) s) as Q3.
    change (eval I (ESub false x [(None, Some (ECall f [(None, Some x)]))]) s)
      with (i_sub I false (eval I x) [(None, Some (eval I (ECall f [(None, Some x)])))] s).
    destruct (eval I x s) as [[v s1]|] eqn:E; [|exact (eq_trans Q3 (eq_sym Q2))].
    pose proof (HX _ _ _ E). subst s1. destruct (complete_sort I v (HC _ _ _ E)) as (ks & w & V1 & V2 & V3).
    rewrite (Q1 _ V1) in Q3. exact (eq_trans (Q3 ks w eq_refl V2) (eq_sym (Q2 _ V3))).
Qed.

(** *** which(grepl(p, x)) *)
Lemma which_grepl_harmless : forall p e r f g a b,
  node_of_file p e -> which_grepl (frames p) e = Some r ->
  e = ECall f [(None, Some (ECall g [(None, Some a); (None, Some b)]))] ->
  fname f = Some (lit "which") -> fname g = Some (lit "grepl") ->
  assigned (frames p) = false -> pipe_target (frames p) = false ->
  fix_harmless (fun I => knows_grep I /\ yields I a (one_string I) /\ yields I b (strings I)) p e r.
Proof.
  intros p e r f g a b H Hr He Hf Hg HA HP. pose proof (node_wf _ _ H) as W. rewrite He in W, Hr.
  unfold which_grepl, get_nested_functions_content in Hr. rewrite (fname_name _ _ Hf) in Hr.
  change (teqb (lit "which") (lit "which")) with true in Hr. cbv iota delta [negb] in Hr.
  unfold nested_content in Hr. cbn [find is_unnamed fst] in Hr. rewrite (fname_name _ _ Hg) in Hr.
  change (teqb (lit "grepl") (lit "grepl")) with true in Hr. cbv iota in Hr. apply some_eq in Hr.
  apply call_harmless with (e' := ECall (EAtom (AId (lit "grep"))) [(None, Some a); (None, Some b)]); auto.
  - subst e. exact Hr.
  - cbn [wf fold_right snd] in W. destruct W as (_ & _ & _ & (W4 & _) & _).
    destruct (call_args true g [(None, Some a); (None, Some b)] W4) as [A1 A2].
    apply fits_primary; [reflexivity|]. apply call_wf; auto.
  - subst e. reflexivity.
  - intros I ((m & K1 & K2 & K3) & HA' & HB) s. subst e.
    assert (O1 : open_name (lit "which")) by is_open. assert (O2 : open_name (lit "grepl")) by is_open.
    assert (O3 : open_name (lit "grep")) by is_open.
    pose proof (call_means1 I _ _ f (ECall g [(None, Some a); (None, Some b)]) s O1 Hf K3) as Q1.
    pose proof (call_means2 I _ _ g a b s O2 Hg K1) as Q2.
    pose proof (call_means2 I _ _ (EAtom (AId (lit "grep"))) a b s O3 eq_refl K2) as Q3.
    destruct (eval I a s) as [[v s1]|] eqn:E; [|rewrite Q2 in Q1; exact (eq_trans Q1 (eq_sym Q3))].
    destruct (eval I b s1) as [[w s2]|] eqn:E2; [|rewrite Q2 in Q1; exact (eq_trans Q1 (eq_sym Q3))].
    destruct (HA' _ _ _ E) as [t ->]. destruct (HB _ _ _ E2) as [l ->].
    cbn [matches option_map] in Q2, Q3.
    rewrite (Q2 _ eq_refl) in Q1. exact (eq_trans (Q1 _ (which_lgls I _)) (eq_sym (Q3 _ eq_refl))).
Qed.

(** *** length(levels(x)) *)
Lemma nested_open_eval : forall I outer inner fs e fs' e' x, open_name outer -> open_name inner ->
  nested_form outer inner fs e fs' e' x ->
  exists f g, fname f = Some outer /\ fname g = Some inner /\
    eval I e' = eval I (ECall f [(None, Some (ECall g [(None, Some x)]))]).
Proof.
  intros I outer inner fs e fs' e' x Of Og H. destruct (Of I) as [B1 B2]. destruct (Og I) as [C1 C2].
  destruct H as [? f g ? Hf Hg|? ? f g ? Hf Hg|? ? ? f g ? Hf Hg]; exists f, g; split; auto; split; auto;
    cbn [eval piped map fst snd]; rewrite Hf, Hg; unfold apply; rewrite B1, B2, C1, C2; reflexivity.
Qed.
Lemma length_levels_harmless : forall p e r x fs' e',
  node_of_file p e -> length_levels (frames p) e = Some r ->
  nested_form (lit "length") (lit "levels") (frames p) e fs' e' x ->
  assigned fs' = false -> pipe_target fs' = false ->
  fix_harmless knows_levels p e r.
Proof.
  intros p e r x fs' e' H Hr HF HA HP. apply both_harmless.
  unfold length_levels in Hr. rewrite (nested_form_content _ _ _ _ _ _ _ HF) in Hr. apply some_eq in Hr. subst r.
  destruct (nested_form_text _ _ _ _ _ _ _ HF H) as [E N].
  destruct (nested_form_wf _ _ _ _ _ _ _ _ HF (node_wf _ _ N)) as [Wx Lx].
  eapply harmless_at with (e' := ECall (EAtom (AId (lit "nlevels"))) [(None, Some x)]); eauto.
  - apply fits_primary; [reflexivity|]. apply call1_wf; auto.
  - intros I (lev & len & K1 & K2 & K3). cbn [at_frames].
    assert (O1 : open_name (lit "length")) by is_open. assert (O2 : open_name (lit "levels")) by is_open.
    assert (O3 : open_name (lit "nlevels")) by is_open.
    split; [|split; [congruence|split; [|congruence]]].
    + intro s. destruct (nested_open_eval I _ _ _ _ _ _ _ O1 O2 HF) as (f & g & Hf & Hg & ->).
      pose proof (call_means1 I _ _ f (ECall g [(None, Some x)]) s O1 Hf K2) as Q1.
      pose proof (call_means1 I _ _ g x s O2 Hg K1) as Q2.
      pose proof (call_means1 I _ _ (EAtom (AId (lit "nlevels"))) x s O3 eq_refl K3) as Q3.
      destruct (eval I x s) as [[v s1]|] eqn:Ex.
      * rewrite (Q2 _ eq_refl) in Q1. exact (eq_trans (Q1 _ eq_refl) (eq_sym (Q3 _ eq_refl))).
      * rewrite Q2 in Q1. exact (eq_trans Q1 (eq_sym Q3)).
    + intros Hc. inversion HF; subst; try reflexivity; rewrite (not_callee _ _ N eq_refl) in Hc; discriminate.
Qed.

(** *** 1:length(x), seq(length(x)) *)
Lemma sizes_open : forall n, In n sizes -> open_name n.
Proof. intros n H. repeat (destruct H as [<-|H]; [is_open|]). destruct H. Qed.
Definition seq_fix (n : text) (x : expr) : expr :=
  if teqb n (lit "length") then ECall (EAtom (AId (lit "seq_along"))) [(None, Some x)]
  else ECall (EAtom (AId (lit "seq_len"))) [(None, Some (ECall (EAtom (AId n)) [(None, Some x)]))].
Lemma seq_fix_eval : forall I size n x s, knows_seq I size -> In n sizes ->
  eval I (seq_fix n x) s =
  match eval I x s with None => None | Some (v, s1) => Some (numbers_of I (seq 1 (size n v)), s1) end.
Proof.
  intros I size n x s (_ & _ & K3 & K4 & K5 & _) Hn. unfold seq_fix.
  destruct (teqb n (lit "length")) eqn:E.
  - apply teqb_eq in E. subst n. assert (O : open_name (lit "seq_along")) by is_open.
    pose proof (call_means1 I _ _ (EAtom (AId (lit "seq_along"))) x s O eq_refl K4) as Q.
    destruct (eval I x s) as [[v s1]|]; [exact (Q _ eq_refl)|exact Q].
  - assert (O : open_name (lit "seq_len")) by is_open.
    pose proof (call_number I _ _ (EAtom (AId (lit "seq_len"))) (ECall (EAtom (AId n)) [(None, Some x)]) s O eq_refl K5) as Q.
    pose proof (call_means1 I _ _ (EAtom (AId n)) x s (sizes_open n Hn) eq_refl (K3 n Hn)) as Q1.
    destruct (eval I x s) as [[v s1]|].
    + rewrite (Q1 _ eq_refl) in Q. exact (Q _ eq_refl).
    + rewrite Q1 in Q. exact Q.
Qed.
Lemma size_eval : forall I size n f x s, knows_seq I size -> In n sizes -> fname f = Some n ->
  eval I (ECall f [(None, Some x)]) s =
  match eval I x s with None => None | Some (v, s1) => Some (number I (size n v), s1) end.
Proof.
  intros I size n f x s (_ & _ & K3 & _) Hn Hf.
  pose proof (call_means1 I _ _ f x s (sizes_open n Hn) Hf (K3 n Hn)) as Q.
  destruct (eval I x s) as [[v s1]|]; [exact (Q _ eq_refl)|exact Q].
Qed.
Lemma seq_text_fix : forall n x, In n sizes -> seq_text n (args_toks [(None, Some x)]) = toks (seq_fix n x).
Proof. intros n x H. repeat (destruct H as [<-|H]; [reflexivity|]). destruct H. Qed.
Lemma seq_fix_fits : forall fs f n x i, wf i (ECall f [(None, Some x)]) -> fits fs (seq_fix n x).
Proof.
  intros fs f n x i W. destruct (call_args _ _ _ W) as [A1 A2]. unfold seq_fix. destruct (teqb _ _).
  - apply fits_primary; [reflexivity|]. apply call_wf; auto.
  - apply fits_primary; [reflexivity|]. apply call_wf; [discriminate|].
    apply call1_args with (i := true); [apply call_wf; auto|apply primary_level; reflexivity].
Qed.
Lemma seq_fix_name : forall n x, fname (seq_fix n x) = None.
Proof. intros. unfold seq_fix. destruct (teqb _ _); reflexivity. Qed.

Lemma seq_harmless : forall p e r nl l f n x,
  node_of_file p e -> seq_rule (frames p) e = Some r ->
  e = EBin BColon nl l (ECall f [(None, Some x)]) -> fname f = Some n ->
  assigned (frames p) = false -> pipe_target (frames p) = false ->
  fix_harmless (fun I => exists size, knows_seq I size /\ yields I x (fun v => 0 < size n v)) p e r.
Proof.
  intros p e r nl l f n x H Hr He Hf HA HP. pose proof (node_wf _ _ H) as W. rewrite He in W, Hr.
  unfold seq_rule in Hr. rewrite (fname_name _ _ Hf) in Hr.
  destruct (is_one l && existsb (teqb n) size_names) eqn:B; [|discriminate]. apply some_eq in Hr.
  apply andb_prop in B. destruct B as [B1 B2].
  assert (Hn : In n sizes).
  { apply existsb_exists in B2. destruct B2 as (m & Hm & E). apply teqb_eq in E. subst m. exact Hm. }
  rewrite (seq_text_fix n x Hn) in Hr.
  apply call_harmless with (e' := seq_fix n x); auto.
  - subst e. exact Hr.
  - cbn [wf] in W. destruct W as (_ & W2 & _). eapply seq_fix_fits; eauto.
  - subst e. reflexivity.
  - apply seq_fix_name.
  - intros I (size & K & HY) s. subst e. rewrite (seq_fix_eval I size n x s K Hn).
    destruct K as (K1 & K2 & K3). pose proof (size_eval I size n f x) as Z.
    pose proof (K1 (eval I l) (eval I (ECall f [(None, Some x)])) s) as Q.
    assert (L : eval I l s = Some (number I 1, s)).
    { destruct l as [[]| | | | | | | | | | | |]; try discriminate. cbn [is_one] in B1. apply Bool.orb_prop in B1.
      destruct B1 as [B1|B1]; apply teqb_eq in B1; subst; cbn [eval atom_sem]; unfold cret, number;
        [rewrite nlit_1|rewrite K2]; reflexivity. }
    rewrite L in Q. rewrite Z in Q by (repeat split; auto; apply K3).
    change (eval I (EBin BColon nl l (ECall f [(None, Some x)])) s)
      with (i_bin I BColon (eval I l) (eval I (ECall f [(None, Some x)])) s).
    destruct (eval I x s) as [[v s1]|] eqn:E; [|exact Q].
    rewrite <- count_up by (eapply HY; eauto). exact (Q _ _ eq_refl eq_refl).
Qed.

Lemma seq2_harmless : forall p e r f g n x,
  node_of_file p e -> seq2_rule (frames p) e = Some r ->
  e = ECall f [(None, Some (ECall g [(None, Some x)]))] -> fname f = Some (lit "seq") -> fname g = Some n ->
  assigned (frames p) = false -> pipe_target (frames p) = false ->
  fix_harmless (fun I => exists size, knows_seq I size /\ yields I x (fun v => 0 < size n v)) p e r.
Proof.
  intros p e r f g n x H Hr He Hf Hg HA HP. pose proof (node_wf _ _ H) as W. rewrite He in W, Hr.
  unfold seq2_rule in Hr. rewrite (fname_name _ _ Hf), (fname_name _ _ Hg) in Hr.
  change (teqb (lit "seq") (lit "seq")) with true in Hr. cbn [andb] in Hr.
  destruct (existsb (teqb n) size_names) eqn:B2; [|discriminate]. apply some_eq in Hr.
  assert (Hn : In n sizes).
  { apply existsb_exists in B2. destruct B2 as (m & Hm & E). apply teqb_eq in E. subst m. exact Hm. }
  rewrite (seq_text_fix n x Hn) in Hr.
  apply call_harmless with (e' := seq_fix n x); auto.
  - subst e. exact Hr.
  - cbn [wf fold_right snd] in W. destruct W as (_ & _ & _ & (W4 & _) & _).
    exact (seq_fix_fits (frames p) g n x true W4).
  - subst e. reflexivity.
  - apply seq_fix_name.
  - intros I (size & K & HY) s. subst e. rewrite (seq_fix_eval I size n x s K Hn).
    pose proof (size_eval I size n g x s K Hn Hg) as Z. destruct K as (_ & _ & _ & _ & _ & K6).
    assert (O : open_name (lit "seq")) by is_open.
    pose proof (call_number I _ _ f (ECall g [(None, Some x)]) s O Hf K6) as Q.
    rewrite Z in Q. destruct (eval I x s) as [[v s1]|] eqn:E; [|exact Q].
    rewrite <- count_up by (eapply HY; eauto). exact (Q _ eq_refl).
Qed.

(** *** class(x) == "..." *)
Definition inherits_fix (b : bool) (x : expr) (t : text) : expr :=
  let c := ECall (EAtom (AId (lit "inherits"))) [(None, Some x); (None, Some (EAtom (AStr t)))] in
  if b then c else EUn UNot c.
Lemma inherits_eval : forall I cls x t s, knows_class I cls ->
  eval I (inherits_fix true x t) s =
  match eval I x s with None => None | Some (v, s1) => Some (lgls I [existsb (teqb (slit I t)) (cls v)], s1) end.
Proof.
  intros I cls x t s (_ & _ & K).
  assert (O : open_name (lit "inherits")) by is_open.
  pose proof (call_means2 I _ _ (EAtom (AId (lit "inherits"))) x (EAtom (AStr t)) s O eq_refl K) as Q.
  destruct (eval I x s) as [[v s1]|]; [|exact Q]. exact (Q _ eq_refl).
Qed.
Lemma class_eval : forall I cls f x s, knows_class I cls -> fname f = Some (lit "class") ->
  eval I (ECall f [(None, Some x)]) s =
  match eval I x s with None => None | Some (v, s1) => Some (VStr (map Some (cls v)), s1) end.
Proof.
  intros I cls f x s (_ & K & _) Hf. assert (O : open_name (lit "class")) by is_open.
  pose proof (call_means1 I _ _ f x s O Hf K) as Q.
  destruct (eval I x s) as [[v s1]|]; [exact (Q _ eq_refl)|exact Q].
Qed.
Lemma class_compare : forall I cls (b : bool) v t, knows_class I cls -> length (cls v) = 1 ->
  compare I (if b then CEq else CNe) (VStr (map Some (cls v))) (VStr [Some (slit I t)]) =
    Some (lgls I [Bool.eqb b (existsb (teqb (slit I t)) (cls v))]) /\
  compare I (if b then CEq else CNe) (VStr [Some (slit I t)]) (VStr (map Some (cls v))) =
    Some (lgls I [Bool.eqb b (existsb (teqb (slit I t)) (cls v))]).
Proof.
  intros I cls b v t (K & _) L. destruct (cls v) as [|c [|? ?]]; try discriminate.
  cbn [map compare to_str existsb]. unfold recycle. cbn [length seq Nat.max map].
  change (0 mod 1) with 0. cbn [nth scompare].
  assert (E : forall u w, test (if b then CEq else CNe) (scmp I u w) = Bool.eqb b (teqb u w)).
  { intros u w. destruct (teqb u w) eqn:T.
    - apply teqb_eq in T. subst w. rewrite (proj2 (K u u) eq_refl). destruct b; reflexivity.
    - destruct (scmp I u w) eqn:C; [apply K in C; subst w; rewrite teqb_refl in T; discriminate| |]; destruct b; reflexivity. }
  rewrite !E. unfold lgls. cbn [map]. rewrite Bool.orb_false_r.
  replace (teqb c (slit I t)) with (teqb (slit I t) c); [split; reflexivity|].
  destruct (teqb (slit I t) c) eqn:T.
  - apply teqb_eq in T. subst c. symmetry. apply teqb_refl.
  - destruct (teqb c (slit I t)) eqn:T2; [|reflexivity]. apply teqb_eq in T2. rewrite <- T2, teqb_refl in T. discriminate.
Qed.
Lemma class_in : forall I (cls : value (num I) (other I) -> list text) v t,
  vin I (VStr [Some (slit I t)]) (VStr (map Some (cls v))) = Some (lgls I [existsb (teqb (slit I t)) (cls v)]).
Proof.
  intros I cls v t. cbn [vin to_str map]. do 4 f_equal. induction (cls v) as [|c l IH]; [reflexivity|].
  cbn [map existsb oeqb]. rewrite IH. reflexivity.
Qed.

Lemma class_fits : forall p o nl l r b f x t, node_of_file p (EBin o nl l r) -> equality o = Some b ->
  class_and_string l r f x t -> fits (frames p) (inherits_fix b x t).
Proof.
  intros p o nl l r b f x t H E C. pose proof (node_wf _ _ H) as W. cbn [wf] in W. destruct W as (W1 & W2 & _).
  assert (A : Forall (fun a : arg => owf (snd a)) [(None, Some x); (None, Some (EAtom (AStr t)))]).
  { assert (X : Forall (fun a : arg => owf (snd a)) [(None, Some x)]).
    { destruct C as [[ -> _ ]|[ _ -> ]]; eapply call_args; eauto. }
    inversion X; subst. constructor; [assumption|]. constructor; [|constructor].
    split; [exact Logic.I|cbn; unfold arg_level; lia]. }
  destruct b; cbn [inherits_fix].
  - apply fits_primary; [reflexivity|]. apply call_wf; [discriminate|exact A].
  - assert (Hn : o = BCmp CNe).
    { destruct o as [| | | | | | | |c| | | | |u| | |]; try discriminate; [destruct c; try discriminate; reflexivity|].
      cbn in E. destruct (teqb _ _); discriminate. }
    subst o. eapply not_call_fits; eauto. discriminate.
Qed.
Lemma extract_class : forall l r f x t, class_and_string l r f x t -> fname f = Some (lit "class") ->
  extract_class_and_string l r = Some (toks x, [TAtom (AStr t)]).
Proof.
  intros l r f x t C Hf. unfold extract_class_and_string.
  assert (K : is_class_call (ECall f [(None, Some x)]) = true) by (cbn [is_class_call]; rewrite (fname_name _ _ Hf); reflexivity).
  destruct C as [[ -> -> ]|[ -> -> ]]; rewrite K; reflexivity.
Qed.
Lemma class_equals_harmless : forall p e r o nl l rr f x t,
  node_of_file p e -> class_equals (frames p) e = Some r ->
  e = EBin o nl l rr -> class_and_string l rr f x t -> fname f = Some (lit "class") ->
  assigned (frames p) = false -> pipe_target (frames p) = false ->
  fix_harmless (fun I => exists cls, knows_class I cls /\
    (o = BSpecial (lit "%in%") /\ l = EAtom (AStr t) \/ yields I x (fun v => length (cls v) = 1))) p e r.
Proof.
  intros p e r o nl l rr f x t H Hr He C Hf HA HP. rewrite He in Hr. unfold class_equals in Hr.
  destruct (equality o) as [b|] eqn:E; [|discriminate]. destruct (parent_is_condition _); [|discriminate].
  rewrite (extract_class _ _ _ _ _ C Hf) in Hr. apply some_eq in Hr.
  apply call_harmless with (e' := inherits_fix b x t); auto.
  - subst e. destruct b; exact Hr.
  - subst e. eapply class_fits; eauto.
  - subst e. reflexivity.
  - destruct b; reflexivity.
  - intros I (cls & K & Q) s. subst e.
    assert (X : eval I (inherits_fix b x t) s = match eval I x s with None => None
       | Some (v, s1) => Some (lgls I [Bool.eqb b (existsb (teqb (slit I t)) (cls v))], s1) end).
    { destruct b.
      - rewrite (inherits_eval I cls x t s K). destruct (eval I x s) as [[v s1]|]; [|reflexivity].
        destruct (existsb _ _); reflexivity.
      - change (eval I (inherits_fix false x t) s) with (strict1 I (vnot I) (eval I (inherits_fix true x t)) s).
        unfold strict1, cbind. rewrite (inherits_eval I cls x t s K).
        destruct (eval I x s) as [[v s1]|]; [|reflexivity]. cbn [lgls map vnot clift cret option_map].
        destruct (existsb _ _); reflexivity. }
    assert (W : forall s0, eval I (EAtom (AStr t)) s0 = Some (VStr [Some (slit I t)], s0)) by reflexivity.
    rewrite X. destruct o as [| | | | | | | |c| | | | |u| | |]; try discriminate.
    + assert (Hc : c = if b then CEq else CNe) by (destruct c; try discriminate; apply some_eq in E; subst b; reflexivity).
      assert (Q' : yields I x (fun v => length (cls v) = 1)) by (destruct Q as [[Q _]|Q]; [discriminate|exact Q]).
      destruct C as [[ -> -> ]|[ -> -> ]].
      * change (eval I (EBin (BCmp c) nl (ECall f [(None, Some x)]) (EAtom (AStr t))) s)
          with (strict2 I (compare I c) (eval I (ECall f [(None, Some x)])) (eval I (EAtom (AStr t))) s).
        unfold strict2, cbind. rewrite (class_eval I cls f x s K Hf).
        destruct (eval I x s) as [[v s1]|] eqn:Ex; [|reflexivity]. rewrite W. subst c.
        rewrite (proj1 (class_compare I cls b v t K (Q' _ _ _ Ex))). reflexivity.
      * change (eval I (EBin (BCmp c) nl (EAtom (AStr t)) (ECall f [(None, Some x)])) s)
          with (strict2 I (compare I c) (eval I (EAtom (AStr t))) (eval I (ECall f [(None, Some x)])) s).
        unfold strict2, cbind. rewrite W. rewrite (class_eval I cls f x s K Hf).
        destruct (eval I x s) as [[v s1]|] eqn:Ex; [|reflexivity]. subst c.
        rewrite (proj2 (class_compare I cls b v t K (Q' _ _ _ Ex))). reflexivity.
    + cbn [equality] in E. destruct (teqb u (lit "%in%")) eqn:U; [|discriminate]. apply some_eq in E. subst b.
      apply teqb_eq in U. subst u. destruct C as [[ -> -> ]|[ -> -> ]].
      * assert (Q' : yields I x (fun v => length (cls v) = 1)) by (destruct Q as [[_ Q]|Q]; [discriminate|exact Q]).
        change (eval I (EBin (BSpecial (lit "%in%")) nl (ECall f [(None, Some x)]) (EAtom (AStr t))) s)
          with (strict2 I (vin I) (eval I (ECall f [(None, Some x)])) (eval I (EAtom (AStr t))) s).
        unfold strict2, cbind. rewrite (class_eval I cls f x s K Hf).
        destruct (eval I x s) as [[v s1]|] eqn:Ex; [|reflexivity]. rewrite W.
        pose proof (Q' _ _ _ Ex) as L. cbn beta in L. destruct (cls v) as [|c [|? ?]]; try discriminate.
        cbn [map vin to_str existsb oeqb clift cret]. unfold cret, clift, lgls. cbn [map]. rewrite !Bool.orb_false_r.
        destruct (teqb c (slit I t)) eqn:T.
        -- apply teqb_eq in T. subst c. rewrite teqb_refl. reflexivity.
        -- destruct (teqb (slit I t) c) eqn:T2; [|reflexivity]. apply teqb_eq in T2. rewrite <- T2, teqb_refl in T. discriminate.
      * change (eval I (EBin (BSpecial (lit "%in%")) nl (EAtom (AStr t)) (ECall f [(None, Some x)])) s)
          with (strict2 I (vin I) (eval I (EAtom (AStr t))) (eval I (ECall f [(None, Some x)])) s).
        unfold strict2, cbind. rewrite W. rewrite (class_eval I cls f x s K Hf).
        destruct (eval I x s) as [[v s1]|] eqn:Ex; [|reflexivity]. rewrite class_in.
        destruct (existsb _ _); reflexivity.
Qed.

(** *** sapply(x, length) *)
Lemma lengths_harmless : forall p e r f x,
  node_of_file p e -> lengths_rule (frames p) e = ROk (Some r) ->
  e = ECall f [(None, Some x); (None, Some (EAtom (AId (lit "length"))))] -> fname f = Some (lit "sapply") ->
  assigned (frames p) = false -> pipe_target (frames p) = false ->
  fix_harmless (fun I => exists lens, knows_lengths I lens /\ yields I x (fun v => lens v <> [])) p e r.
Proof.
  intros p e r f x H Hr He Hf HA HP. pose proof (node_wf _ _ H) as W. rewrite He in W, Hr.
  unfold lengths_rule in Hr. rewrite (fname_name _ _ Hf) in Hr.
  change (negb (existsb (teqb (lit "sapply")) lengths_names)) with false in Hr. cbv iota in Hr.
  change (get_arg_by_name_then_position [(None, Some x); (None, Some (EAtom (AId (lit "length"))))] (lit "FUN") 2)
    with (Some (@None text, Some (EAtom (AId (lit "length"))))) in Hr.
  change (get_arg_by_name_then_position [(None, Some x); (None, Some (EAtom (AId (lit "length"))))] (lit "x") 1)
    with (Some (@None text, Some x)) in Hr. cbv iota in Hr.
  destruct (same_text _ _); [|discriminate]. apply ok_inj, some_eq in Hr.
  apply call_harmless with (e' := ECall (EAtom (AId (lit "lengths"))) [(None, Some x)]); auto.
  - subst e. exact Hr.
  - destruct (call_args _ _ _ W) as [_ A]. inversion A; subst. apply fits_primary; [reflexivity|].
    apply call_wf; [discriminate|]. constructor; [assumption|constructor].
  - subst e. reflexivity.
  - intros I (lens & (K1 & K2) & Y) s. subst e.
    assert (O1 : open_name (lit "sapply")) by is_open. assert (O2 : open_name (lit "lengths")) by is_open.
    pose proof (call_means1 I _ _ (EAtom (AId (lit "lengths"))) x s O2 eq_refl K1) as Q1.
    pose proof (K2 f (eval I x) s Hf) as Q2. cbv zeta in Q2.
    rewrite (eval_open I _ f _ O1 Hf).
    destruct (eval I x s) as [[v s1]|] eqn:E; [|exact (eq_trans Q2 (eq_sym Q1))].
    pose proof (Y _ _ _ E) as L. cbn beta in L.
    destruct (length (lens v) =? 0) eqn:Z.
    + apply Nat.eqb_eq in Z. destruct (lens v); [congruence|discriminate].
    + exact (eq_trans Q2 (eq_sym (Q1 _ eq_refl))).
Qed.
