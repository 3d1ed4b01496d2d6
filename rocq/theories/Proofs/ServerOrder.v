(** Which diagnostics the server sends, in which order, and what the editor shows. *)
From Verif Require Import Model.Text Model.Base Model.Lsp Model.Server Spec.ServerSpec.
From Verif Require Import Proofs.TextProofs Proofs.LspSync Proofs.ServerProofs.
From Coq Require Import Permutation.

Section Server.
Context {D A : Type}.
Variable enc : encoding.
Variable L : linter D A.
Notation server := (server D A).
Notation obs := (obs D A).
Notation reaches := (reaches enc L).

Definition of_task (t : task) : list snapshot := match t with LintDocument s => [s] | _ => [] end.
Definition of_worker (w : worker D A) : list snapshot :=
  match w with
  | Busy t | Dead t => of_task t
  | Telling s _ _ | Saying s _ _ | Publishing s _ => [s]
  | _ => []
  end.
Definition of_thread (m : main) : list snapshot := match m with Sending t => of_task t | _ => [] end.
Definition inflight (s : server) : list snapshot :=
  flat_map of_worker (pool s) ++ flat_map of_task (queue s) ++ of_thread (thread s).
Definition worker_ok (w : worker D A) : Prop :=
  match w with
  | Telling s ds n | Saying s ds n => lints L s (Done (ds, n))
  | Publishing s ds => exists n, lints L s (Done (ds, n))
  | _ => True
  end.
Definition pubs (tr : list obs) : list (uri * list D * option Z) :=
  flat_map (fun o => match o with Sent (Publish u ds v) => [(u, ds, v)] | _ => [] end) tr.
Definition publication (sn : snapshot) (ds : list D) : sent D A := Publish (sn_uri sn) ds (Some (dc_version (sn_doc sn))).

Lemma pubs_app a b : pubs (a ++ b) = pubs a ++ pubs b.
Proof. apply flat_map_app. Qed.
Lemma no_pubs_published (o : list obs) : pubs o = [] -> published o = [].
Proof.
  induction o as [|x o IH]; [reflexivity|]. destruct x as [m|y]; [exact IH|]. destruct y; try exact IH. discriminate.
Qed.

Lemma internal_inflight (s : server) o s' : internal L s o s' -> Forall worker_ok (pool s) ->
  Forall worker_ok (pool s') /\ length (pool s') = length (pool s) /\
  ((pubs o = [] /\ Permutation (inflight s) (inflight s') /\ (length (pool s) <= 1 -> inflight s = inflight s')) \/
   exists sn, Permutation (inflight s) (sn :: inflight s') /\ (length (pool s) <= 1 -> inflight s = sn :: inflight s') /\
     ((lints L sn Failed /\ o = []) \/ exists ds n, lints L sn (Done (ds, n)) /\ o = [Sent (publication sn ds)])).
Proof.
  intros H Ok. destruct H as [s t T C|s a b t q Ru P Q|s a w b tb w' out Ru P W]; unfold inflight; cbn [pool queue thread].
  - split; [exact Ok|]. split; [reflexivity|]. left. split; [reflexivity|]. rewrite T. cbn [of_thread].
    rewrite flat_map_app. cbn [flat_map]. rewrite !app_nil_r. split; [reflexivity|auto].
  - rewrite P in *. apply Forall_app in Ok. destruct Ok as [Oa Ob]. inversion Ob as [|x y _ Ob']; subst.
    split; [apply Forall_app; split; [exact Oa|constructor; [exact Logic.I|exact Ob']]|].
    split; [rewrite !app_length; reflexivity|]. left. split; [reflexivity|].
    rewrite Q, !flat_map_app. cbn [flat_map of_worker app]. split.
    + rewrite <- !app_assoc. apply Permutation_app_head. rewrite !app_assoc. apply Permutation_app_tail.
      apply Permutation_app_tail. apply Permutation_app_comm.
    + rewrite app_length. cbn [length]. intros Le. destruct a as [|? ?]; [|cbn in Le; lia]. destruct b as [|? ?]; [|cbn in Le; lia].
      cbn [flat_map app]. rewrite app_nil_r, <- app_assoc. reflexivity.
  - rewrite P in *. apply Forall_app in Ok. destruct Ok as [Oa Ob]. inversion Ob as [|x y Ow Ob']; subst x y.
    assert (worker_ok w') as Ow' by (destruct W; cbn [worker_ok] in *; eauto; exact Logic.I).
    split; [apply Forall_app; split; [exact Oa|constructor; assumption]|].
    split; [rewrite !app_length; reflexivity|]. rewrite !flat_map_app. cbn [flat_map].
    assert ((of_worker w = of_worker w' /\ @pubs (map Sent out) = []) \/
            (exists sn, of_worker w = [sn] /\ of_worker w' = [] /\ ((lints L sn Failed /\ out = []) \/ exists ds n, lints L sn (Done (ds, n)) /\ out = [publication sn ds]))) as [[E N]|(sn & E & E' & X)].
    { destruct W; cbn [worker_ok of_worker of_task] in *; try (left; split; reflexivity); right.
      - exists s0. split; [reflexivity|]. split; [reflexivity|]. left. split; [assumption|reflexivity].
      - exists s0. split; [reflexivity|]. split; [reflexivity|]. right. destruct Ow as [n Ow]. exists ds, n. split; [exact Ow|reflexivity]. }
    + left. rewrite E. split; [exact N|split; [reflexivity|reflexivity]].
    + right. exists sn. rewrite E, E'. cbn [app]. split.
      * rewrite <- !app_assoc. symmetry. apply Permutation_middle.
      * split.
        -- rewrite app_length. cbn [length]. intros Le. destruct a as [|? ?]; [|cbn in Le; lia]. reflexivity.
        -- destruct X as [[F ->]|(ds & n & Dn & ->)]; [left; split; [exact F|reflexivity]|right; exists ds, n; split; [exact Dn|reflexivity]].
Qed.

Lemma receive_inflight cfg (s : server) m s' out : thread s = Waiting -> receive enc cfg s m = (s', out) ->
  pool s' = pool s /\ inflight s' = inflight s ++ @saves_from D A enc (docs s) [Received m] /\
  pubs (map Sent out) = match m with Notif (DidClose u) => match docs s u with Some _ => [(u, [], None)] | None => [] end | _ => [] end.
Proof.
  intros W H. unfold inflight. rewrite W. cbn [of_thread]. rewrite app_nil_r.
  destruct m; cbn [receive saves_from] in *;
    try (injection H as <- <-; cbn [pool queue thread with_thread]; rewrite ?W; cbn [of_thread]; rewrite !app_nil_r; repeat split; reflexivity).
  - destruct (docs s u); injection H as <- <-; cbn [pool queue thread with_thread]; rewrite ?W; cbn [of_thread of_task]; rewrite !app_nil_r; repeat split; reflexivity.
  - rewrite !app_nil_r. unfold handle_event in H. destruct e; cbn [handle] in H.
    + unfold notify_config in H. cbn [config_shown with_docs] in H.
      destruct (config_shown s); [|destruct cfg]; injection H as <- <-; cbn [pool queue thread with_docs]; rewrite ?W; cbn [of_thread]; rewrite !app_nil_r; repeat split; reflexivity.
    + destruct (docs s u); [destruct (apply_changes d cs version enc) as [d' st]; destruct st|]; injection H as <- <-; cbn [pool queue thread with_docs with_thread]; rewrite ?W; cbn [of_thread]; rewrite !app_nil_r; repeat split; reflexivity.
    + destruct (docs s u); injection H as <- <-; cbn [pool queue thread with_docs with_thread]; rewrite ?W; cbn [of_thread]; rewrite !app_nil_r; repeat split; reflexivity.
    + destruct (docs s u) as [d|]; injection H as <- <-; cbn [pool queue thread with_docs with_thread]; rewrite ?W; cbn [of_thread of_task]; rewrite ?app_nil_r, <- ?app_assoc; repeat split; reflexivity.
Qed.

Lemma pool_ok n tr (s : server) : reaches n tr s -> Forall worker_ok (pool s) /\ length (pool s) = n.
Proof.
  induction 1 as [|tr s o s' R [Ok Ln] St].
  - cbn [start pool]. split; [apply Forall_forall; intros w I; apply repeat_spec in I; subst w; exact Logic.I|apply repeat_length].
  - destruct St as [s m cfg s' out W Rc|s o s' I].
    + destruct (receive_inflight _ _ _ _ _ W Rc) as (-> & _). split; assumption.
    + destruct (internal_inflight _ _ _ I Ok) as (Ok' & Ln' & _). split; [exact Ok'|congruence].
Qed.

(** *** The results sent are those of the saved texts *)
Lemma results_app l1 r1 l2 r2 : results L l1 r1 -> results L l2 r2 -> results L (l1 ++ l2) (r1 ++ r2).
Proof. induction 1; intros H2; cbn [app]; [exact H2|econstructor; eauto|apply res_failed; auto]. Qed.
Lemma results_perm l l' : Permutation l l' -> forall r, results L l r -> exists r', results L l' r' /\ Permutation r r'.
Proof.
  induction 1 as [|x l l' P IH|x y l|l l1 l2 P1 IH1 P2 IH2]; intros r H.
  - exists r. split; [exact H|reflexivity].
  - inversion H; subst.
    + destruct (IH _ ltac:(eassumption)) as (r' & Hr & Pr). eexists. split; [eapply res_done; eassumption|constructor; exact Pr].
    + destruct (IH _ ltac:(eassumption)) as (r' & Hr & Pr). exists r'. split; [apply res_failed; assumption|exact Pr].
  - inversion H as [|? ? ? ? ? Dy Hx|? ? ? Fy Hx]; subst; inversion Hx as [|? ? ? ? ? Dx Hl|? ? ? Fx Hl]; subst.
    + eexists. split; [eapply res_done; [exact Dx|eapply res_done; [exact Dy|exact Hl]]|apply perm_swap].
    + eexists. split; [eapply res_failed; [exact Fx|eapply res_done; [exact Dy|exact Hl]]|reflexivity].
    + eexists. split; [eapply res_done; [exact Dx|eapply res_failed; [exact Fy|exact Hl]]|reflexivity].
    + eexists. split; [eapply res_failed; [exact Fx|eapply res_failed; [exact Fy|exact Hl]]|reflexivity].
  - destruct (IH1 _ H) as (r1 & H1 & Q1). destruct (IH2 _ H1) as (r2 & H2 & Q2). exists r2. split; [exact H2|etransitivity; eassumption].
Qed.
Lemma published_sent_pubs (l : list (sent D A)) u : pubs (map Sent l) = [(u, [], None)] -> @published D A (map Sent l) = [].
Proof.
  induction l as [|x l IH]; [reflexivity|]. destruct x; cbn [map pubs flat_map published app]; try exact IH.
  intros E. injection E as -> -> -> E. change (pubs (map Sent l) = []) in E. change (@published D A (map Sent l) = []). exact (no_pubs_published _ E).
Qed.
Lemma receive_published cfg (s : server) m s' out : thread s = Waiting -> receive enc cfg s m = (s', out) ->
  @published D A (Received m :: map Sent out) = [].
Proof.
  intros W Rc. destruct (receive_inflight _ _ _ _ _ W Rc) as (_ & _ & P). change (@published D A (map Sent out) = []).
  destruct m; try exact (no_pubs_published _ P). destruct e; try exact (no_pubs_published _ P).
  destruct (docs s u); [exact (published_sent_pubs _ _ P)|exact (no_pubs_published _ P)].
Qed.
Lemma receive_saves tr (s : server) n m (out : list (sent D A)) : reaches n tr s ->
  saves enc (tr ++ Received m :: map Sent out) = saves enc tr ++ @saves_from D A enc (docs s) [Received m].
Proof.
  intros R. rewrite saves_app, <- (docs_known _ _ _ _ _ R). f_equal.
  change (Received m :: map Sent out) with ([Received m] ++ @map _ obs Sent out). rewrite saves_from_app, saves_from_sent, app_nil_r. reflexivity.
Qed.
Lemma internal_saves tr (s : server) o s' : internal L s o s' -> saves enc (tr ++ o) = saves enc tr.
Proof. intros I. rewrite saves_app. destruct (internal_docs enc L _ _ _ I) as (_ & _ & ->). apply app_nil_r. Qed.

Lemma published_results n tr (s : server) : reaches n tr s ->
  exists done p, Permutation (saves enc tr) (done ++ inflight s) /\ results L done p /\ Permutation p (published tr).
Proof.
  induction 1 as [|tr s o s' R (done & p & P1 & P2 & P3) St].
  - exists [], []. unfold inflight, start. cbn [pool queue thread flat_map app of_thread].
    assert (flat_map of_worker (repeat (@Idle D A) n) = []) as -> by (induction n; [reflexivity|assumption]).
    repeat split; [reflexivity|constructor|reflexivity].
  - destruct St as [s m cfg s' out W Rc|s o s' I].
    + exists done, p. rewrite (receive_saves _ _ _ _ _ R), published_app, (receive_published _ _ _ _ _ W Rc), app_nil_r.
      destruct (receive_inflight _ _ _ _ _ W Rc) as (_ & -> & _). split; [|split; assumption].
      rewrite app_assoc. apply Permutation_app_tail. exact P1.
    + rewrite (internal_saves _ _ _ _ I), published_app.
      destruct (internal_inflight _ _ _ I (proj1 (pool_ok _ _ _ R))) as (_ & _ & [(N & Pe & _)|(sn & Pe & _ & [[F ->]|(ds & k & Dn & ->)])]).
      * exists done, p. rewrite (no_pubs_published _ N), app_nil_r. split; [|split; assumption].
        etransitivity; [exact P1|]. apply Permutation_app_head. exact Pe.
      * exists (done ++ [sn]), p. split; [|split].
        -- etransitivity; [exact P1|]. rewrite <- app_assoc. apply Permutation_app_head. exact Pe.
        -- rewrite <- (app_nil_r p). apply results_app; [exact P2|apply res_failed; [exact F|constructor]].
        -- cbn [published flat_map]. rewrite app_nil_r. exact P3.
      * exists (done ++ [sn]), (p ++ [(sn_uri sn, ds, dc_version (sn_doc sn))]). split; [|split].
        -- etransitivity; [exact P1|]. rewrite <- app_assoc. apply Permutation_app_head. exact Pe.
        -- apply results_app; [exact P2|eapply res_done; [exact Dn|constructor]].
        -- cbn [published flat_map publication app]. apply Permutation_app_tail. exact P3.
Qed.
Lemma quiet_inflight (s : server) : quiet s -> inflight s = [].
Proof.
  intros ([T|T] & Q & P); unfold inflight; rewrite T, Q; cbn [flat_map of_thread app]; rewrite app_nil_r;
    (induction P as [|w l E P IH]; [reflexivity|cbn [flat_map]; rewrite E; exact IH]).
Qed.
Lemma all_published n tr (s : server) : reaches n tr s -> quiet s ->
  exists p, results L (saves enc tr) p /\ Permutation p (published tr).
Proof.
  intros R Q. destruct (published_results _ _ _ R) as (done & p & P1 & P2 & P3). rewrite (quiet_inflight _ Q), app_nil_r in P1.
  destruct (results_perm _ _ (Permutation_sym P1) _ P2) as (p' & H & P). exists p'. split; [exact H|].
  etransitivity; [symmetry; exact P|exact P3].
Qed.
Lemma in_order n tr (s : server) : n <= 1 -> reaches n tr s ->
  exists done, saves enc tr = done ++ inflight s /\ results L done (published tr).
Proof.
  intros Le. induction 1 as [|tr s o s' R (done & P1 & P2) St].
  - exists []. unfold inflight, start. cbn [pool queue thread flat_map app of_thread].
    assert (flat_map of_worker (repeat (@Idle D A) n) = []) as -> by (clear Le; induction n; [reflexivity|assumption]).
    split; [reflexivity|constructor].
  - destruct St as [s m cfg s' out W Rc|s o s' I].
    + exists done. rewrite (receive_saves _ _ _ _ _ R), published_app, (receive_published _ _ _ _ _ W Rc), app_nil_r.
      destruct (receive_inflight _ _ _ _ _ W Rc) as (_ & -> & _). split; [|assumption].
      rewrite app_assoc. f_equal. exact P1.
    + rewrite (internal_saves _ _ _ _ I), published_app. destruct (pool_ok _ _ _ R) as [Ok Ln].
      destruct (internal_inflight _ _ _ I Ok) as (_ & _ & [(N & _ & Pe)|(sn & _ & Pe & [[F ->]|(ds & k & Dn & ->)])]);
        specialize (Pe ltac:(lia)).
      * exists done. rewrite (no_pubs_published _ N), app_nil_r, <- Pe. split; assumption.
      * exists (done ++ [sn]). rewrite <- app_assoc. cbn [app published flat_map]. rewrite app_nil_r, <- Pe. split; [exact P1|].
        rewrite <- (app_nil_r (published tr)). apply results_app; [exact P2|apply res_failed; [exact F|constructor]].
      * exists (done ++ [sn]). rewrite <- app_assoc. cbn [app published flat_map publication]. rewrite <- Pe. split; [exact P1|].
        apply results_app; [exact P2|eapply res_done; [exact Dn|constructor]].
Qed.
Lemma one_worker_in_order tr (s : server) : reaches 1 tr s -> quiet s -> results L (saves enc tr) (published tr).
Proof.
  intros R Q. destruct (in_order 1 tr s ltac:(lia) R) as (done & E & H). rewrite (quiet_inflight _ Q), app_nil_r in E. rewrite E. exact H.
Qed.

(** *** Prefixes of executions *)
Inductive from (s0 : server) : list obs -> server -> Prop :=
| f_start : from s0 [] s0
| f_step tr s o s' : from s0 tr s -> step enc L s o s' -> from s0 (tr ++ o) s'.
Lemma from_reaches n tr1 s1 tr2 s2 : reaches n tr1 s1 -> from s1 tr2 s2 -> reaches n (tr1 ++ tr2) s2.
Proof.
  intros R. induction 1 as [|tr s o s' F IH St]; [rewrite app_nil_r; exact R|]. rewrite app_assoc. exact (r_step _ _ _ _ _ _ _ IH St).
Qed.
Lemma app_split {X} (a b c d : list X) : a ++ b = c ++ d ->
  (exists r, c = a ++ r /\ b = r ++ d) \/ (exists r, a = c ++ r /\ d = r ++ b).
Proof.
  revert c. induction a as [|x a IH]; intros c E; [left; exists c; split; [reflexivity|exact E]|].
  destruct c as [|y c]; [right; exists (x :: a); split; [reflexivity|symmetry; exact E]|].
  injection E as -> E. destruct (IH c E) as [(r & -> & ->)|(r & -> & ->)]; [left; exists r; split; reflexivity|right; exists r; split; reflexivity].
Qed.
Lemma no_received_sent m (l : list (sent D A)) a b : @map _ obs Sent l <> a ++ Received m :: b.
Proof.
  intros E. assert (In (@Received D A m) (map Sent l)) as I by (rewrite E; apply in_or_app; right; left; reflexivity).
  apply in_map_iff in I. destruct I as (x & X & _). discriminate X.
Qed.
Lemma internal_no_received (s : server) o s' m a b : internal L s o s' -> o <> a ++ Received m :: b.
Proof. intros I. destruct I; [destruct a; discriminate|destruct a; discriminate|apply no_received_sent]. Qed.
Lemma split_received n tr (s : server) tr1 m tr2 : reaches n tr s -> tr = tr1 ++ Received m :: tr2 ->
  exists s1 cfg s1' out tr2', reaches n tr1 s1 /\ thread s1 = Waiting /\ receive enc cfg s1 m = (s1', out) /\
    tr2 = map Sent out ++ tr2' /\ from s1' tr2' s.
Proof.
  intros R. revert tr2. induction R as [|tr s o s' R IH St]; intros tr2 E; [destruct tr1; discriminate|].
  destruct (app_split _ _ _ _ E) as [(r & -> & Eo)|(r & Et & Er)].
  - destruct St as [s m' cfg s' out W Rc|s o s' I].
    + destruct r as [|x r]; [|injection Eo as <- Eo; destruct (no_received_sent _ _ _ _ Eo)].
      cbn [app] in Eo. injection Eo as -> <-. rewrite app_nil_r. exists s, cfg, s', out, []. repeat split; try assumption; [rewrite app_nil_r; reflexivity|constructor].
    + destruct (internal_no_received _ _ _ _ _ _ I Eo).
  - destruct r as [|x r].
    + rewrite app_nil_r in Et. subst tr1. cbn [app] in Er. destruct St as [s m' cfg s' out W Rc|s o s' I].
      * injection Er as -> ->.
        exists s, cfg, s', out, []. repeat split; try assumption; [rewrite app_nil_r; reflexivity|constructor].
      * destruct (internal_no_received _ _ _ m [] tr2 I (eq_sym Er)).
    + injection Er as <- ->. destruct (IH r Et) as (s1 & cfg & s1' & out & tr2' & R1 & W & Rc & -> & F).
      exists s1, cfg, s1', out, (tr2' ++ o). repeat split; try assumption; [rewrite app_assoc; reflexivity|exact (f_step _ _ _ _ _ F St)].
Qed.
End Server.
