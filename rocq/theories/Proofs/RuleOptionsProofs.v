From Verif Require Import Model.Text Model.Base Model.RuleOptions Spec.RuleOptionsSpec Proofs.TextProofs.

Lemma resolve_table_spec t d :
  (contradictory t /\ resolve_table t d = RErr) \/
  (~ contradictory t /\ exists l, resolve_table t d = ROk l /\ forall x, In x l <-> in_effect t d x).
Proof.
  destruct t as [[[b|] [e|]]|]; cbn.
  - left. split; auto. unfold contradictory. eauto.
  - right. split; [intros (? & ? & [=])|]. eexists. split; [reflexivity|]. reflexivity.
  - right. split; [intros (? & ? & [=])|]. eexists. split; [reflexivity|]. intros x. apply in_app_iff.
  - right. split; [intros (? & ? & [=])|]. eexists. split; [reflexivity|]. reflexivity.
  - right. split; [intros (? & ? & [=])|]. eexists. split; [reflexivity|]. reflexivity.
Qed.

Lemma resolve_options_spec a dup imp und unr th :
  match resolve_options a dup imp und unr th with
  | ROk o =>
      ~ contradictory dup /\ ~ contradictory imp /\ ~ contradictory und /\ ~ contradictory unr /\
      (forall x, In x (o_dup_args o) <-> in_effect dup documented_dup_args x) /\
      (forall x, In x (o_implicit o) <-> in_effect imp documented_implicit x) /\
      (forall x, In x (o_undesirable o) <-> in_effect und documented_undesirable x) /\
      (forall x, In x (o_stopping o) <-> in_effect unr documented_stopping x) /\
      (o_assignment o = false <-> a = Some (Some (lit "="))) /\
      o_threshold o = match th with Some n => n | None => 50 end
  | RErr => contradictory dup \/ contradictory imp \/ contradictory und \/ contradictory unr \/
      exists v, a = Some (Some v) /\ v <> lit "<-" /\ v <> lit "="
  | RPanic => False
  end.
Proof.
  unfold resolve_options.
  assert (HA : (exists b, resolve_assignment a = ROk b /\ (b = false <-> a = Some (Some (lit "=")))) \/
    (resolve_assignment a = RErr /\ exists v, a = Some (Some v) /\ v <> lit "<-" /\ v <> lit "=")).
  { destruct a as [[v|]|]; cbn [resolve_assignment].
    - destruct (teqb v (lit "<-")) eqn:E1; [|destruct (teqb v (lit "=")) eqn:E2].
      + apply teqb_eq in E1. subst. left. eexists. split; [reflexivity|]. split; discriminate.
      + apply teqb_eq in E2. subst. left. eexists. split; [reflexivity|]. split; reflexivity.
      + apply teqb_neq in E1, E2. right. split; auto. exists v. repeat split; auto.
    - left. eexists. split; [reflexivity|]. split; discriminate.
    - left. eexists. split; [reflexivity|]. split; discriminate. }
  destruct HA as [(b & -> & HA)|(-> & HA)]; cbn [rbind]; [|tauto].
  destruct (resolve_table_spec dup default_dup_args) as [(C1 & ->)|(C1 & l1 & -> & H1)]; cbn [rbind]; [tauto|].
  destruct (resolve_table_spec imp default_implicit) as [(C2 & ->)|(C2 & l2 & -> & H2)]; cbn [rbind]; [tauto|].
  destruct (resolve_table_spec und default_undesirable) as [(C3 & ->)|(C3 & l3 & -> & H3)]; cbn [rbind]; [tauto|].
  destruct (resolve_table_spec unr default_stopping) as [(C4 & ->)|(C4 & l4 & -> & H4)]; cbn [rbind]; [tauto|].
  cbn. tauto.
Qed.
