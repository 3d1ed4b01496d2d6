(** The documented table against the rules of the program. *)
From Verif Require Import Model.Text Model.Base Model.Rules Model.Config Spec.ConfigSpec Spec.RuleTable
  Proofs.TextProofs Proofs.RulesProofs Proofs.ConfigProofs.

(** All rows at once: checked by computing over the table. *)
Definition row_ok (w : row) : bool :=
  match from_name (w_name w) with
  | None => teqb (w_name w) (lit "unused_suppression")
  | Some r =>
      (if mem (w_name w) [lit "sample_int"; lit "unused_function"] then true else Bool.eqb (rule_default r) (negb (w_off w))) &&
      (if mem (w_name w) [lit "class_equals"; lit "browser"; lit "empty_assignment"] then true else
         match rule_fix r, w_fix w with FixNone, FixNone | FixSafe, FixSafe | FixUnsafe, FixUnsafe => true | _, _ => false end) &&
      match rule_min_version r, w_version w with
      | None, None => true
      | Some (a, b, c), Some (a', b', c') => (a =? a') && (b =? b') && (c =? c')
      | _, _ => false
      end &&
      forallb (fun g => Bool.eqb (existsb (fun h => teqb (category_name h) (category_name g)) (rule_categories r))
                                 (existsb (fun h => teqb (category_name h) (category_name g)) (w_groups w))) all_categories
  end.
Lemma table_ok : forallb row_ok documented_rules = true.
Proof. vm_compute. reflexivity. Qed.
Lemma all_cats g : In g all_categories.
Proof. destruct g; vm_compute; auto 20. Qed.
Lemma in_cats g l : existsb (fun h => teqb (category_name h) (category_name g)) l = true <-> In g l.
Proof.
  rewrite existsb_exists. split.
  - intros (h & I & E). apply teqb_eq in E. apply category_name_inj in E. now subst.
  - intros I. exists g. split; auto. apply teqb_refl.
Qed.
Lemma row_facts w r : In w documented_rules -> w_name w = rule_name r ->
  (~ In (w_name w) [lit "sample_int"; lit "unused_function"] -> rule_default r = negb (w_off w)) /\
  (~ In (w_name w) [lit "class_equals"; lit "browser"; lit "empty_assignment"] -> rule_fix r = w_fix w) /\
  rule_min_version r = w_version w /\
  (forall g, In g (rule_categories r) <-> In g (w_groups w)).
Proof.
  intros I E. pose proof table_ok as T. rewrite forallb_forall in T. specialize (T w I). unfold row_ok in T.
  rewrite (proj2 (from_name_iff (w_name w) r) E) in T.
  apply andb_prop in T as (T & G). apply andb_prop in T as (T & V). apply andb_prop in T as (D & F).
  split; [|split; [|split]].
  - intros N. destruct (mem (w_name w) [lit "sample_int"; lit "unused_function"]) eqn:M.
    + exfalso. apply N. now apply mem_iff.
    + now apply Bool.eqb_prop.
  - intros N. destruct (mem (w_name w) [lit "class_equals"; lit "browser"; lit "empty_assignment"]) eqn:M.
    + exfalso. apply N. now apply mem_iff.
    + destruct (rule_fix r), (w_fix w); congruence.
  - destruct (rule_min_version r) as [[[a b] c]|], (w_version w) as [[[a' b'] c']|]; try discriminate; auto.
    apply andb_prop in V as (V & V3). apply andb_prop in V as (V1 & V2).
    apply Nat.eqb_eq in V1, V2, V3. congruence.
  - intros g. rewrite forallb_forall in G. specialize (G g (all_cats g)). apply Bool.eqb_prop in G.
    now rewrite <- in_cats, G, in_cats.
Qed.
Lemma row_rule w : In w documented_rules -> w_name w <> lit "unused_suppression" -> exists r, w_name w = rule_name r.
Proof.
  intros I N. pose proof table_ok as T. rewrite forallb_forall in T. specialize (T w I). unfold row_ok in T.
  destruct (from_name (w_name w)) as [r|] eqn:F.
  - exists r. now apply from_name_iff.
  - apply teqb_eq in T. contradiction.
Qed.
Lemma rule_row r : r <> R_OutdatedSuppression -> exists w, In w documented_rules /\ w_name w = rule_name r.
Proof.
  intros N.
  assert (X : forallb (fun r => match r with R_OutdatedSuppression => true | _ => existsb (fun w => teqb (w_name w) (rule_name r)) documented_rules end) all_rules = true)
    by (vm_compute; reflexivity).
  rewrite forallb_forall in X. specialize (X r (all_rules_complete r)).
  assert (Y : existsb (fun w => teqb (w_name w) (rule_name r)) documented_rules = true) by (destruct r; [exact X..|congruence] || (destruct r; try exact X; congruence)).
  apply existsb_exists in Y as (w & I & E). exists w. split; auto. now apply teqb_eq.
Qed.
