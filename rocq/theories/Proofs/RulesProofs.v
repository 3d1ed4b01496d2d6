From Verif Require Import Model.Text Model.Base Model.Rules Proofs.TextProofs.

Lemma mem_iff x l : mem x l = true <-> In x l.
Proof.
  unfold mem. rewrite existsb_exists. split.
  - intros (y & Hy & E). apply teqb_eq in E. now subst.
  - intros H. exists x. split; auto. apply teqb_refl.
Qed.
Lemma mem_false x l : mem x l = false <-> ~ In x l.
Proof. rewrite <- mem_iff. destruct (mem x l); split; congruence. Qed.

Lemma all_rules_complete r : In r all_rules.
Proof. destruct r; unfold all_rules; repeat (first [left; reflexivity | right]). Qed.

Lemma from_name_name r : from_name (rule_name r) = Some r.
Proof. destruct r; vm_compute; reflexivity. Qed.
Lemma rule_name_inj r r' : rule_name r = rule_name r' -> r = r'.
Proof. intros E. pose proof (from_name_name r) as H. rewrite E, from_name_name in H. now injection H. Qed.
Lemma from_name_iff s r : from_name s = Some r <-> s = rule_name r.
Proof.
  split.
  - unfold from_name. intros H. apply find_some in H as (_ & H). now apply teqb_eq in H.
  - intros ->. apply from_name_name.
Qed.
Lemma from_name_none s : from_name s = None <-> forall r, s <> rule_name r.
Proof.
  split.
  - intros H r ->. rewrite from_name_name in H. discriminate.
  - intros H. destruct (from_name s) eqn:E; auto. apply from_name_iff in E. now apply H in E.
Qed.

Fixpoint nodupb (l : list text) : bool := match l with [] => true | x :: r => negb (mem x r) && nodupb r end.
Lemma nodupb_spec l : nodupb l = true -> NoDup l.
Proof.
  induction l as [|x r IH]; cbn; intros H; constructor; apply andb_prop in H as (H1 & H2).
  - apply negb_true_iff, mem_false in H1. exact H1.
  - auto.
Qed.
Lemma names_nodup : NoDup (map rule_name all_rules).
Proof. apply nodupb_spec. vm_compute. reflexivity. Qed.
Lemma all_rules_nodup : NoDup all_rules.
Proof. eapply NoDup_map_inv. apply names_nodup. Qed.

Lemma rule_name_trim r : trim (rule_name r) = rule_name r.
Proof. destruct r; vm_compute; reflexivity. Qed.
Lemma rule_name_nonempty r : rule_name r <> [].
Proof. destruct r; discriminate. Qed.
Lemma rule_name_not_group r c : rule_name r <> category_name c.
Proof. destruct r, c; discriminate. Qed.
Lemma rule_name_not_all r : rule_name r <> lit "ALL".
Proof. destruct r; discriminate. Qed.
Lemma category_complete c : In c all_categories.
Proof. destruct c; cbn; auto 10. Qed.
Lemma category_of_name_iff s c : category_of_name s = Some c <-> s = category_name c.
Proof.
  split.
  - unfold category_of_name. repeat match goal with |- context [teqb s ?x] => let E := fresh "E" in destruct (teqb s x) eqn:E; [apply teqb_eq in E; intros [= <-]; exact E|] end.
    intros H. discriminate H.
  - intros ->. destruct c; reflexivity.
Qed.
Lemma has_category_iff r c : has_category r c = true <-> In c (rule_categories r).
Proof.
  unfold has_category. rewrite existsb_exists. split.
  - intros (x & H & E). destruct c, x; try discriminate; exact H.
  - intros H. exists c. split; auto. destruct c; reflexivity.
Qed.
Lemma category_inhabited c : exists r, In c (rule_categories r).
Proof.
  destruct c.
  - exists R_BlanketSuppression; cbn; auto.
  - exists R_Browser; cbn; auto.
  - exists R_AllEqual; cbn; auto.
  - exists R_AnyIsNa; cbn; auto.
  - exists R_Assignment; cbn; auto.
  - assert (H : existsb (fun r => has_category r Testthat) all_rules = true) by (vm_compute; reflexivity).
    apply existsb_exists in H as (r & _ & H). exists r. now apply has_category_iff.
Qed.
Lemma category_not_all c : category_name c <> lit "ALL".
Proof. destruct c; discriminate. Qed.
Lemma category_name_inj c c' : category_name c = category_name c' -> c = c'.
Proof. destruct c, c'; try discriminate; reflexivity. Qed.
