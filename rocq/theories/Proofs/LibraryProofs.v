(** The R of Spec/RLibrary.v meets the requirements of Spec/RFunctions.v; and what the fixes change (C97). *)
From Verif Require Import Spec.RGrammar Spec.RWellFormed Spec.RPosition Spec.RSemantics Spec.RFix Spec.RFunctions Spec.RLibrary.
From Verif Require Import Proofs.TextProofs Proofs.RParse Proofs.LintRefute Proofs.FunctionProofs.

(** The variables do not hide the functions. *)
Definition free (env : text -> option dval) : Prop :=
  (forall n g, In (n, g) lib1 -> env n = None) /\ (forall n g, In (n, g) lib2 -> env n = None).

Section Library.
Variable env : text -> option dval.
Notation I := (library env).

Lemma fname_eval : forall f n s, fname f = Some n -> home n = lit "base" -> env n = None -> eval I f s = Some (VOther n, s).
Proof.
  intros f n s H B E. destruct f as [[]| | | | | | | | | | | |]; cbn [fname] in H; try discriminate.
  - injection H as ->. cbn [eval atom_sem library i_atom]. rewrite E. reflexivity.
  - destruct (teqb _ (home _)) eqn:T; [|discriminate]. injection H as ->. rewrite B in T.
    cbn [eval atom_sem library i_atom]. rewrite T. reflexivity.
Qed.
Lemma lib_means1 : forall n g h, env n = None -> home n = lit "base" -> entry n lib1 = Some h -> (forall v w, g v = Some w -> h v = Some w) ->
  means1 I n g.
Proof.
  intros n g h E B Hn Hg f c s Hf. cbn [library i_call]. unfold lib_call.
  rewrite (fname_eval f n s Hf B E), Hn. destruct (c s) as [[v s1]|]; [|reflexivity].
  intros w Hw. rewrite (Hg _ _ Hw). reflexivity.
Qed.
Lemma lib_means2 : forall n g h, env n = None -> home n = lit "base" -> entry n lib2 = Some h -> (forall v w x, g v w = Some x -> h v w = Some x) ->
  means2 I n g.
Proof.
  intros n g h E B Hn Hg f c d s Hf. cbn [library i_call]. unfold lib_call.
  rewrite (fname_eval f n s Hf B E), Hn. destruct (c s) as [[v s1]|]; [|reflexivity].
  destruct (d s1) as [[w s2]|]; [|reflexivity]. intros x Hx. rewrite (Hg _ _ _ Hx). reflexivity.
Qed.
Lemma one_nat_number : forall k, one_nat (number I k) = Some k.
Proof.
  intro k. cbn [number one_nat library nnat].
  replace (Z.of_nat k <? 0)%Z with false by (symmetry; apply Z.ltb_ge; lia). rewrite Nat2Z.id. reflexivity.
Qed.
Lemma lib_number : forall n g, env n = None -> home n = lit "base" ->
  entry n lib1 = Some (fun v => option_map (fun k => numbers_of base (g k)) (one_nat v)) -> on_number I n g.
Proof.
  intros n g E B Hn f c s Hf. cbn [library i_call]. unfold lib_call.
  rewrite (fname_eval f n s Hf B E), Hn. destruct (c s) as [[v s1]|]; [|reflexivity].
  intros k ->. rewrite one_nat_number. reflexivity.
Qed.
Lemma positions_places : forall ks, positions (map (fun k => Some (Z.of_nat (S k))) ks) = Some ks.
Proof.
  induction ks as [|k ks IH]; [reflexivity|]. cbn [map positions]. rewrite IH.
  replace (Z.of_nat (S k) <=? 0)%Z with false by (symmetry; apply Z.leb_gt; lia). cbn [option_map].
  do 2 f_equal. lia.
Qed.

Hypothesis H : free env.
Ltac is_in := cbn [lib1 lib2 In]; repeat first [ left; reflexivity | right ].
Ltac entry_free := first [ solve [eapply (proj1 H); is_in] | solve [eapply (proj2 H); is_in] ].
Ltac m1 := eapply lib_means1; [entry_free|reflexivity|reflexivity|].
Ltac m2 := eapply lib_means2; [entry_free|reflexivity|reflexivity|].

Lemma library_sort : knows_sort I.
Proof.
  split; [|split].
  - m1. intros v w E. exact E.
  - m1. intros v w E. exact E.
  - intros c d s. cbn [library i_sub]. unfold lib_sub. destruct (c s) as [[v s1]|]; [|reflexivity].
    destruct (d s1) as [[w s2]|]; [|reflexivity]. intros ks x -> Hx. cbn [places library nnat].
    rewrite positions_places. change (elements_at base v ks) with (elements_at I v ks). rewrite Hx. reflexivity.
Qed.
Lemma library_grep : knows_grep I.
Proof.
  exists teqb. split; [|split].
  - m2. intros v w x E. exact E.
  - m2. intros v w x E. exact E.
  - m1. intros v w E. exact E.
Qed.
Lemma library_levels : knows_levels I.
Proof.
  exists lib_levels, lib_len. split; [|split]; m1; intros v w E; exact E.
Qed.
Lemma library_seq : knows_seq I lib_size.
Proof.
  split; [|split; [reflexivity|split; [|split; [|split]]]].
  - intros c d s. cbn [library i_bin]. unfold lib_bin. destruct (c s) as [[v s1]|]; [|reflexivity].
    destruct (d s1) as [[w s2]|]; [|reflexivity]. intros a b -> ->. rewrite !one_nat_number. reflexivity.
  - intros n Hn. repeat (destruct Hn as [<-|Hn]; [m1; intros v w E; exact E|]). destruct Hn.
  - m1. intros v w E. exact E.
  - eapply lib_number; [entry_free|reflexivity|reflexivity].
  - eapply lib_number; [entry_free|reflexivity|reflexivity].
Qed.
Lemma library_class : knows_class I lib_class.
Proof.
  split; [|split].
  - intros t u. cbn [library scmp]. unfold tcmp. destruct (teqb t u) eqn:E.
    + apply teqb_eq in E. tauto.
    + split; [discriminate|]. intros ->. rewrite teqb_refl in E. discriminate.
  - m1. intros v w E. exact E.
  - m2. intros v w x E. exact E.
Qed.
Lemma library_lengths : knows_lengths I lib_lens.
Proof.
  split.
  - m1. intros v w E. exact E.
  - intros f c s Hf call. unfold call. cbn [library i_call]. unfold lib_call.
    assert (E1 : env (lit "sapply") = None) by entry_free. assert (E2 : env (lit "length") = None) by entry_free.
    rewrite (fname_eval f _ s Hf eq_refl E1).
    change (entry (lit "sapply") lib2) with (Some (fun v (w : dval) => Some (if length (lib_lens v) =? 0 then VOther (lit "list()") else numbers_of base (lib_lens v)))).
    destruct (c s) as [[v s1]|]; [|reflexivity].
    rewrite (fname_eval (EAtom (AId (lit "length"))) (lit "length") s1 eq_refl eq_refl E2). cbn [option_map].
    destruct (length (lib_lens v) =? 0); [exists (lit "list()"); reflexivity|reflexivity].
Qed.
End Library.

Lemma free_x : forall v, free (env_of [(lit "x", v)]).
Proof.
  intro v. split; intros n g Hg; repeat (destruct Hg as [Hg|Hg]; [apply (f_equal fst) in Hg; cbn [fst] in Hg; subst n; reflexivity|]);
    destruct Hg.
Qed.
Lemma pure_x : forall v, pure (library (env_of [(lit "x", v)])) (EAtom (AId (lit "x"))).
Proof. intros v s w s' H. injection H as <- <-. reflexivity. Qed.
Lemma yields_x : forall v (K : dval -> Prop), K v -> yields (library (env_of [(lit "x", v)])) (EAtom (AId (lit "x"))) K.
Proof.
  intros v K HK s w s' H. injection H as <- <-. exact HK.
Qed.

(** [x[order(x)]] with a missing value. *)
Lemma sort_missing : exists p e r,
  node_of_file p e /\ sort_rule (frames p) e = Some r /\ frames p = [] /\
  ~ fix_harmless (fun I => knows_sort I /\ pure I (EAtom (AId (lit "x"))) /\
      yields I (EAtom (AId (lit "x"))) (fun v => exists l, v = VNum l)) p e r.
Proof.
  exists (here []), (ESub false (var (lit "x")) [(None, Some (call1 (lit "order") (var (lit "x"))))]).
  eexists. split; [read_it 30|]. split; [vm_compute; reflexivity|]. split; [reflexivity|].
  by_run 30 (library (env_of [(lit "x", VNum [Some 2%Z; None; Some 1%Z])])) 0%Z.
  split; [apply library_sort, free_x|]. split; [apply pure_x|]. apply yields_x. eexists; reflexivity.
Qed.
(** [1:length(x)] with an empty vector. *)
Lemma seq_empty : exists p e r,
  node_of_file p e /\ seq_rule (frames p) e = Some r /\ frames p = [] /\
  ~ fix_harmless (fun I => exists size, knows_seq I size) p e r.
Proof.
  exists (here []), (EBin BColon false (EAtom (ANum (lit "1"))) (call1 (lit "length") (var (lit "x")))).
  eexists. split; [read_it 30|]. split; [vm_compute; reflexivity|]. split; [reflexivity|].
  by_run 30 (library (env_of [(lit "x", VNum [])])) 0%Z.
  eexists. apply library_seq, free_x.
Qed.
Lemma seq2_empty : exists p e r,
  node_of_file p e /\ seq2_rule (frames p) e = Some r /\ frames p = [] /\
  ~ fix_harmless (fun I => exists size, knows_seq I size) p e r.
Proof.
  exists (here []), (call1 (lit "seq") (call1 (lit "nrow") (var (lit "x")))).
  eexists. split; [read_it 30|]. split; [vm_compute; reflexivity|]. split; [reflexivity|].
  by_run 30 (library (env_of [(lit "x", VNum [])])) 0%Z.
  eexists. apply library_seq, free_x.
Qed.
(** [if (class(x) == "b") 1] for an object with two classes: an error becomes 1. *)
Lemma class_two : exists p e r,
  node_of_file p e /\ class_equals (frames p) e = Some r /\
  ~ fix_harmless (fun I => exists cls, knows_class I cls) p e r.
Proof.
  exists (here [FIfC (EAtom (ANum (lit "1"))) None]),
    (EBin (BCmp CEq) false (call1 (lit "class") (var (lit "x"))) (EAtom (AStr (lit "b")))).
  eexists. split; [read_it 30|]. split; [vm_compute; reflexivity|].
  by_run 30 (library (env_of [(lit "x", VOther (lit "both"))])) 0%Z.
  eexists. apply library_class, free_x.
Qed.
(** [sapply(x, length)] is [list()] for an empty vector. *)
Lemma lengths_empty : exists p e r,
  node_of_file p e /\ lengths_rule (frames p) e = ROk (Some r) /\ frames p = [] /\
  ~ fix_harmless (fun I => exists lens, knows_lengths I lens) p e r.
Proof.
  exists (here []), (ECall (var (lit "sapply")) [(None, Some (var (lit "x"))); (None, Some (var (lit "length")))]).
  eexists. split; [read_it 30|]. split; [vm_compute; reflexivity|]. split; [reflexivity|].
  by_run 30 (library (env_of [(lit "x", VNum [])])) 0%Z.
  eexists. apply library_lengths, free_x.
Qed.
