(** Concrete files for the properties of suppression comments. *)
From Coq Require Import Sorted.
From Verif Require Import Model.Text Model.Base Model.Rules Model.Directive Model.Driver Model.Suppress Model.Fix
  Spec.DirectiveSpec Spec.SuppressSpec Proofs.TextProofs Proofs.RulesProofs Proofs.DirectiveProofs
  Proofs.SuppressProofs Proofs.SuppressFilter Proofs.SuppressMain Proofs.SuppressOrder.

Definition at_source_b (src : text) (c : comment) : bool :=
  match bsplit (fst (c_range c)) src with
  | Some (a, rest) => starts_with (c_text c) rest && (snd (c_range c) =? blen a + blen (c_text c))
  | None => false
  end.
Lemma at_source_b_ok src c : at_source_b src c = true -> at_source src c.
Proof.
  unfold at_source_b. destruct (bsplit (fst (c_range c)) src) as [[a rest]|] eqn:B; [|discriminate].
  intros H. apply andb_prop in H. destruct H as (H1 & H2). apply Nat.eqb_eq in H2. apply bsplit_iff in B. destruct B as (-> & B).
  unfold starts_with in H1. destruct (strip_prefix (c_text c) rest) as [b|] eqn:S; [|discriminate]. apply strip_prefix_iff in S. subst rest.
  exists a, b. split; auto. rewrite blen_app, <- H2, B. now destruct (c_range c).
Qed.
Lemma in_source_b_ok src n : forallb (at_source_b src) (comments_of n) = true -> in_source src n.
Proof. intros H. rewrite forallb_forall in H. apply Forall_forall. intros c Hc. now apply at_source_b_ok, H. Qed.
Fixpoint orderb (l : list comment) : bool :=
  match l with
  | [] => true
  | c :: r => (fst (c_range c) <=? snd (c_range c)) && forallb (fun c' => snd (c_range c) <=? fst (c_range c')) r && orderb r
  end.
Lemma in_order_b_ok n : orderb (source_order n) = true -> in_order n.
Proof.
  unfold in_order. induction (source_order n) as [|c l IH]; cbn; [split; constructor|].
  intros H. apply andb_prop in H. destruct H as (H & H3). apply andb_prop in H. destruct H as (H1 & H2).
  destruct (IH H3) as (I1 & I2). apply Nat.leb_le in H1. rewrite forallb_forall in H2. split; constructor; auto.
  apply Forall_forall. intros x Hx. unfold before. apply Nat.leb_le. auto.
Qed.

(** A comment [t] standing after the text [a]. *)
Definition after (a t : text) : comment := Cmt t (blen a, blen (a ++ t)).
Definition leaf (a t : text) (leading : list comment) : node := Node (blen a, blen (a ++ t)) false leading [] [] [].
Definition diag_at (r : rule) (a t : text) : diag := mk_diag (rule_name r) (blen a) (blen (a ++ t)) empty_fix.

(** ** A file using file, region and expression suppressions *)
Definition f1 := lit "# jarl-ignore-file equals_na: legacy".
Definition p2 := f1 ++ [nl] ++ lit "x == NA" ++ [nl].
Definition f2 := lit "# jarl-ignore-start any_is_na: ok".
Definition p3 := p2 ++ f2 ++ [nl].
Definition c3 := lit "any(is.na(x))".
Definition p4 := p3 ++ c3 ++ [nl].
Definition f4 := lit "# jarl-ignore-end any_is_na".
Definition p5 := p4 ++ f4 ++ [nl] ++ lit "y" ++ [nl].
Definition f5 := lit "# jarl-ignore true_false_symbol: fine".
Definition p6 := p5 ++ f5 ++ [nl].
Definition file1 := p6 ++ lit "T" ++ [nl] ++ lit "any(is.na(z))" ++ [nl].
Definition tree1 : node :=
  Node (0, blen file1) false [] [] []
    [Node (0, blen file1) false [] [] []
      [leaf (f1 ++ [nl]) (lit "x == NA") [after [] f1];
       leaf p3 c3 [after p2 f2];
       leaf (p4 ++ f4 ++ [nl]) (lit "y") [after p4 f4];
       leaf p6 (lit "T") [after p5 f5];
       leaf (p6 ++ lit "T" ++ [nl]) (lit "any(is.na(z))") []]].
Definition diags1 : list diag :=
  [diag_at R_EqualsNa (f1 ++ [nl]) (lit "x == NA"); diag_at R_AnyIsNa p3 c3;
   diag_at R_TrueFalseSymbol p6 (lit "T"); diag_at R_AnyIsNa (p6 ++ lit "T" ++ [nl]) (lit "any(is.na(z))")].
Lemma tree1_source : in_source file1 tree1.
Proof. apply in_source_b_ok. vm_compute. reflexivity. Qed.
Lemma tree1_order : in_order tree1 /\ brackets_lead tree1.
Proof. split; [apply in_order_b_ok; vm_compute; reflexivity|]. constructor. Qed.
Lemma tree1_result : exists m, from_node tree1 file1 = Some m /\
  snd (filter_diagnostics m diags1) = [diag_at R_AnyIsNa (p6 ++ lit "T" ++ [nl]) (lit "any(is.na(z))")] /\
  get_unused (fst (filter_diagnostics m diags1)) = [] /\
  get_unused (fst (filter_diagnostics m [])) <> [].
Proof. eexists. split; [vm_compute; reflexivity|]. vm_compute. repeat split; congruence. Qed.

(** ** Two start comments: the first one is lost *)
Definition g1 := lit "# jarl-ignore-start any_is_na: a".
Definition q2 := g1 ++ [nl] ++ lit "x" ++ [nl].
Definition g2 := lit "# jarl-ignore-start any_is_na: b".
Definition q3 := q2 ++ g2 ++ [nl] ++ lit "y" ++ [nl].
Definition g3 := lit "# jarl-ignore-end any_is_na".
Definition file2 := q3 ++ g3 ++ [nl] ++ lit "z" ++ [nl].
Definition tree2 : node :=
  Node (0, blen file2) false [] [] []
    [Node (0, blen file2) false [] [] []
      [leaf (g1 ++ [nl]) (lit "x") [after [] g1];
       leaf (q2 ++ g2 ++ [nl]) (lit "y") [after q2 g2];
       leaf (q3 ++ g3 ++ [nl]) (lit "z") [after q3 g3]]].
Lemma tree2_source : in_source file2 tree2.
Proof. apply in_source_b_ok. vm_compute. reflexivity. Qed.
Lemma tree2_order : in_order tree2 /\ brackets_lead tree2.
Proof. split; [apply in_order_b_ok; vm_compute; reflexivity|]. constructor. Qed.
Theorem duplicate_start_lost : exists src n m v,
  in_source src n /\ in_order n /\ brackets_lead n /\ from_node n src = Some m /\
  In v (visits src n true 0) /\ directive_comment v /\
  ~ reported m (v_range v) /\ ~ in_effect m (v_range v) /\ ~ closes (visits src n true 0) v /\ ~ heads_items v.
Proof.
  exists file2, tree2. eexists. exists (Visit (after [] g1) (blen (g1 ++ [nl]), blen (g1 ++ [nl] ++ lit "x")) 0 (Plain true)).
  split; [exact tree2_source|]. split; [apply tree2_order|]. split; [apply tree2_order|].
  split; [vm_compute; reflexivity|]. split; [vm_compute; auto|]. split; [vm_compute; eauto|].
  split; [|split; [|split]].
  - vm_compute. intuition congruence.
  - vm_compute. intuition congruence.
  - intros (r & s & (l1 & l2 & l3 & _ & _ & (_ & H) & _)). vm_compute in H. discriminate.
  - vm_compute. discriminate.
Qed.

(** ** A crash: start comment at the end of the file, end comment inside the last expression *)
Definition h0 := lit "foo(" ++ [nl] ++ lit "  ".
Definition h1 := lit "# jarl-ignore-end any_is_na".
Definition r2 := h0 ++ h1 ++ [nl] ++ lit "  x" ++ [nl] ++ lit ")" ++ [nl].
Definition h2 := lit "# jarl-ignore-start any_is_na: reason".
Definition file3 := r2 ++ h2 ++ [nl].
Definition tree3 : node :=
  Node (0, blen file3) false [] [] []
    [Node (0, blen r2 - 1) false [] [] []
      [Node (0, blen r2 - 1) false [] [after r2 h2] []
        [leaf (h0 ++ h1 ++ [nl] ++ lit "  ") (lit "x") [after h0 h1]]]].
Lemma tree3_source : in_source file3 tree3.
Proof. apply in_source_b_ok. vm_compute. reflexivity. Qed.
Theorem trailing_start_crashes : exists src n, in_source src n /\ in_order n /\ from_node n src = None.
Proof.
  exists file3, tree3. split; [exact tree3_source|]. split; [apply in_order_b_ok; vm_compute; reflexivity|].
  vm_compute. reflexivity.
Qed.
(** ... and an end comment at the end of the file does not close a region opened inside the last
    expression. *)
Definition k1 := lit "# jarl-ignore-start any_is_na: reason".
Definition s2 := h0 ++ k1 ++ [nl] ++ lit "  any(is.na(x))" ++ [nl] ++ lit ")" ++ [nl].
Definition k2 := lit "# jarl-ignore-end any_is_na".
Definition file4 := s2 ++ k2 ++ [nl].
Definition tree4 : node :=
  Node (0, blen file4) false [] [] []
    [Node (0, blen s2 - 1) false [] [] []
      [Node (0, blen s2 - 1) false [] [after s2 k2] []
        [leaf (h0 ++ k1 ++ [nl] ++ lit "  ") (lit "any(is.na(x))") [after h0 k1]]]].
Theorem source_order_refuted : exists src n m r a b l, in_source src n /\ in_order n /\ from_node n src = Some m /\
  source_order n = a :: b :: l /\
  parse_comment_directive (c_text a) = Some (PValid (Dir KStart r)) /\
  parse_comment_directive (c_text b) = Some (PValid (Dir KEnd r)) /\
  (forall v, In v (visits src n true 0) -> v_level v = 0 /\ exists top, v_role v = Plain top) /\
  m_regions m = [] /\ In (c_range a) (m_unmatched_start m) /\ In (c_range b) (m_unmatched_end m).
Proof.
  exists file4, tree4. eexists. exists R_AnyIsNa, (after h0 k1), (after s2 k2), [].
  split; [apply in_source_b_ok; vm_compute; reflexivity|]. split; [apply in_order_b_ok; vm_compute; reflexivity|].
  split; [vm_compute; reflexivity|]. split; [reflexivity|]. split; [vm_compute; reflexivity|]. split; [vm_compute; reflexivity|].
  split; [|vm_compute; auto]. intros v H. vm_compute in H. destruct H as [<-|[<-|[]]]; cbn; eauto.
Qed.
