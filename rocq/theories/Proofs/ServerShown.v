(** What the editor shows, where messages come from, messages shown once. *)
From Verif Require Import Model.Text Model.Base Model.Lsp Model.Server Spec.ServerSpec.
From Verif Require Import Proofs.TextProofs Proofs.LspSync Proofs.ServerProofs Proofs.ServerOrder.
From Coq Require Import Permutation.

Section Server.
Context {D A : Type}.
Variable enc : encoding.
Variable L : linter D A.
Notation server := (server D A).
Notation obs := (obs D A).
Notation reaches := (reaches enc L).

Lemma perm_filter {X} (f : X -> bool) l l' : Permutation l l' -> Permutation (filter f l) (filter f l').
Proof.
  induction 1 as [|x l l' P IH|x y l|l l1 l2 P1 IH1 P2 IH2]; cbn [filter].
  - constructor.
  - destruct (f x); [constructor|]; exact IH.
  - destruct (f x), (f y); try apply perm_swap; reflexivity.
  - etransitivity; eassumption.
Qed.

Definition pubs_of (u : uri) (tr : list obs) : list (uri * list D * option Z) := filter (fun x => teqb (fst (fst x)) u) (pubs tr).
Definition flying (u : uri) (s : server) : list snapshot := filter (fun x => teqb (sn_uri x) u) (inflight s).
Lemma pubs_of_app u a b : pubs_of u (a ++ b) = pubs_of u a ++ pubs_of u b.
Proof. unfold pubs_of. rewrite pubs_app. apply filter_app. Qed.

Definition shown_from (acc : option (list D)) (tr : list obs) (u : uri) : option (list D) :=
  fold_left (fun acc o => match o with
                          | Sent (Publish x ds _) => if teqb x u then Some ds else acc
                          | _ => acc end) tr acc.
Lemma shown_app a b u : shown (a ++ b) u = shown_from (shown a u) b u.
Proof. apply fold_left_app. Qed.
Lemma shown_from_pubs u (tr : list obs) : forall acc, shown_from acc tr u = fold_left (fun _ p => Some (snd (fst p))) (pubs_of u tr) acc.
Proof.
  induction tr as [|o tr IH]; intros acc; [reflexivity|]. destruct o as [m|x]; [exact (IH acc)|]. destruct x; try exact (IH acc).
  unfold pubs_of. cbn [shown_from fold_left pubs flat_map app filter fst]. destruct (teqb u0 u); [exact (IH (Some ds))|exact (IH acc)].
Qed.

(** *** A document with nothing under way *)
Lemma receive_saves_other (d : session) m u : m <> Notif (DidSave u) ->
  filter (fun x => teqb (sn_uri x) u) (@saves_from D A enc d [Received m]) = [].
Proof.
  intros N. destruct m; try reflexivity. destruct e; try reflexivity. cbn [saves_from]. destruct (d u0); [|reflexivity].
  cbn [app filter sn_uri]. destruct (teqb u0 u) eqn:E; [|reflexivity]. apply teqb_eq in E. subst. destruct (N eq_refl).
Qed.
Lemma step_flying (s : server) o s' u : faultless L -> Forall (worker_ok L) (pool s) -> step enc L s o s' -> not_saved u o ->
  Forall (worker_ok L) (pool s') /\
  ((Permutation (flying u s) (flying u s') /\ (forall x, In x (pubs_of u o) -> x = (u, [], None)) /\ (not_closed u o -> pubs_of u o = [])) \/
   exists sn ds n, Permutation (flying u s) (sn :: flying u s') /\ sn_uri sn = u /\ lints L sn (Done (ds, n)) /\
     pubs_of u o = [(u, ds, Some (dc_version (sn_doc sn)))]).
Proof.
  intros [Hh Hf] Ok St NS. destruct St as [s m cfg s' out W Rc|s o s' I].
  - destruct (receive_inflight _ _ _ _ _ _ W Rc) as (P & E & Pu). rewrite P. split; [exact Ok|]. left. unfold flying. rewrite E, filter_app, receive_saves_other.
    2: { intros ->. apply NS. left. reflexivity. }
    rewrite app_nil_r. split; [reflexivity|]. unfold pubs_of, pubs. cbn [flat_map app]. fold (pubs (@map _ obs Sent out)). rewrite Pu. split.
    + intros x I. apply filter_In in I. destruct I as [I T]. destruct m; try (destruct I; fail). destruct e; try (destruct I; fail).
      destruct (docs s u0); [|destruct I]. destruct I as [I|[]]. subst x. cbn [fst] in T. apply teqb_eq in T. subst. reflexivity.
    + intros NC. destruct m; try reflexivity. destruct e; try reflexivity. destruct (docs s u0); [|reflexivity]. cbn [filter fst].
      destruct (teqb u0 u) eqn:T; [|reflexivity]. apply teqb_eq in T. subst. destruct NC. left. reflexivity.
  - destruct (internal_inflight _ _ _ _ I Ok) as (Ok' & _ & [(N & Pe & _)|(sn & Pe & _ & [[F ->]|(ds & k & Dn & ->)])]); (split; [exact Ok'|]).
    + left. split; [apply perm_filter; exact Pe|]. unfold pubs_of. rewrite N. split; [intros x []|reflexivity].
    + destruct (Hf sn F).
    + unfold flying. pose proof (perm_filter (fun x => teqb (sn_uri x) u) _ _ Pe) as Q. cbn [filter] in Q.
      unfold pubs_of. cbn [pubs flat_map publication app filter fst]. destruct (teqb (sn_uri sn) u) eqn:T.
      * apply teqb_eq in T. right. exists sn, ds, k. repeat split; try assumption. rewrite T. reflexivity.
      * left. repeat split; [exact Q|intros x []].
Qed.
Lemma not_saved_app u (a b : list obs) : not_saved u (a ++ b) -> not_saved u a /\ not_saved u b.
Proof. unfold not_saved. intros H. split; intros I; apply H; apply in_or_app; [left|right]; exact I. Qed.
Lemma not_closed_app u (a b : list obs) : not_closed u (a ++ b) -> not_closed u a /\ not_closed u b.
Proof. unfold not_closed. intros H. split; intros I; apply H; apply in_or_app; [left|right]; exact I. Qed.

Lemma after_save u sn s0 tr (s : server) : faultless L -> from enc L s0 tr s -> Forall (worker_ok L) (pool s0) ->
  Permutation [sn] (flying u s0) -> not_saved u tr -> not_closed u tr ->
  Forall (worker_ok L) (pool s) /\
  ((Permutation [sn] (flying u s) /\ pubs_of u tr = []) \/
   (flying u s = [] /\ exists ds n v, lints L sn (Done (ds, n)) /\ pubs_of u tr = [(u, ds, v)])).
Proof.
  intros Hl F Ok0 Fl. induction F as [|tr s o s' F IH St]; intros NS NC.
  - split; [exact Ok0|]. left. split; [exact Fl|reflexivity].
  - apply not_saved_app in NS. destruct NS as [NS NSo]. apply not_closed_app in NC. destruct NC as [NC NCo].
    destruct (IH NS NC) as [Ok C]. destruct (step_flying _ _ _ _ Hl Ok St NSo) as [Ok' D']. split; [exact Ok'|]. rewrite pubs_of_app.
    destruct C as [[C1 C2]|(C1 & ds & n & v & C2 & C3)]; destruct D' as [(E1 & _ & E2)|(sn' & ds' & n' & E1 & E2 & E3 & E4)].
    + left. split; [etransitivity; eassumption|]. rewrite C2, (E2 NCo). reflexivity.
    + right. assert (Permutation [sn] (sn' :: flying u s')) as P by (etransitivity; eassumption).
      apply Permutation_length_1_inv in P. injection P as -> ->. split; [reflexivity|]. rewrite C2, E4. exists ds', n'. eexists. split; [exact E3|reflexivity].
    + right. rewrite C1 in E1. apply Permutation_nil in E1. split; [exact E1|]. exists ds, n, v. split; [exact C2|]. rewrite C3, (E2 NCo). reflexivity.
    + rewrite C1 in E1. apply Permutation_nil in E1. discriminate.
Qed.
Lemma after_close u s0 tr (s : server) : faultless L -> from enc L s0 tr s -> Forall (worker_ok L) (pool s0) ->
  flying u s0 = [] -> not_saved u tr ->
  Forall (worker_ok L) (pool s) /\ flying u s = [] /\ forall x, In x (pubs_of u tr) -> x = (u, [], None).
Proof.
  intros Hl F Ok0 Fl. induction F as [|tr s o s' F IH St]; intros NS.
  - split; [exact Ok0|]. split; [exact Fl|intros x []].
  - apply not_saved_app in NS. destruct NS as [NS NSo].
    destruct (IH NS) as (Ok & C & P). destruct (step_flying _ _ _ _ Hl Ok St NSo) as [Ok' D']. split; [exact Ok'|]. rewrite pubs_of_app, C in *.
    destruct D' as [(E1 & E3 & _)|(sn' & ds' & n' & E1 & _)]; [|apply Permutation_nil in E1; discriminate].
    apply Permutation_nil in E1. split; [exact E1|]. intros x I. apply in_app_or in I. destruct I as [I|I]; [exact (P x I)|exact (E3 x I)].
Qed.

Lemma results_count u l r : faultless L -> results L l r ->
  length (filter (fun x => teqb (sn_uri x) u) l) = length (filter (fun x : uri * list D * Z => teqb (fst (fst x)) u) r).
Proof.
  intros [_ Hf]. induction 1 as [|s ds n l r Dn H IH|s l r F H IH]; [reflexivity| |destruct (Hf s F)].
  cbn [filter fst]. destruct (teqb (sn_uri s) u); cbn [length]; congruence.
Qed.
Lemma nothing_flying u n tr (s : server) : faultless L -> reaches n tr s -> received_times u tr = saved_times enc u tr -> flying u s = [].
Proof.
  intros Hl R E. destruct (published_results _ _ _ _ _ R) as (done & p & P1 & P2 & P3).
  unfold received_times, saved_times in E. rewrite (Permutation_length (perm_filter _ _ _ P1)), filter_app, app_length in E.
  pose proof (Permutation_length (perm_filter (fun x : uri * list D * Z => teqb (fst (fst x)) u) _ _ P3)) as E3.
  pose proof (results_count u _ _ Hl P2) as E2. apply length_zero_iff_nil. unfold flying. cbn beta in *. unfold uri in *. lia.
Qed.

Lemma patient n tr (s : server) u tr1 tr2 d : faultless L -> reaches n tr s -> quiet s ->
  tr = tr1 ++ Received (Notif (DidSave u)) :: tr2 -> doc_at enc tr1 u = Some d ->
  received_times u tr1 = saved_times enc u tr1 -> not_saved u tr2 -> not_closed u tr2 ->
  exists ds k, lints L (Snap u d) (Done (ds, k)) /\ shown tr u = Some ds.
Proof.
  intros Hl R Q E Dc T NS NC. destruct (split_received _ _ _ _ _ _ _ _ R E) as (s1 & cfg & s1' & out & tr2' & R1 & W & Rc & -> & F).
  pose proof (nothing_flying u _ _ _ Hl R1 T) as Fl. pose proof (docs_known _ _ _ _ _ R1) as Dk.
  destruct (receive_inflight _ _ _ _ _ _ W Rc) as (P & I & Pu).
  assert (docs s1 u = Some d) as Dd by (rewrite Dk; exact Dc).
  apply not_saved_app in NS. apply not_closed_app in NC. destruct NS as [_ NS], NC as [_ NC].
  destruct (after_save u (Snap u d) s1' tr2' s Hl F) as [_ [[C _]|(_ & ds & k & v & C1 & C2)]].
  - rewrite P. exact (proj1 (pool_ok _ _ _ _ _ R1)).
  - unfold flying in *. rewrite I, filter_app, Fl. cbn [saves_from app]. rewrite Dd. cbn [app filter sn_uri]. rewrite teqb_refl. reflexivity.
  - exact NS.
  - exact NC.
  - unfold flying in C. rewrite (quiet_inflight _ Q) in C. apply Permutation_sym, Permutation_nil in C. discriminate.
  - exists ds, k. split; [exact C1|]. rewrite E, shown_app, shown_from_pubs.
    change (Received (Notif (DidSave u)) :: map Sent out ++ tr2') with ([Received (Notif (DidSave u))] ++ @map _ obs Sent out ++ tr2').
    rewrite !pubs_of_app, C2. unfold pubs_of at 1 2. rewrite Pu. reflexivity.
Qed.
Lemma close_clears n tr (s : server) u tr1 tr2 d : faultless L -> reaches n tr s ->
  tr = tr1 ++ Received (Notif (DidClose u)) :: tr2 -> doc_at enc tr1 u = Some d ->
  received_times u tr1 = saved_times enc u tr1 -> not_saved u tr2 -> shown tr u = Some [].
Proof.
  intros Hl R E Dc T NS. destruct (split_received _ _ _ _ _ _ _ _ R E) as (s1 & cfg & s1' & out & tr2' & R1 & W & Rc & -> & F).
  pose proof (nothing_flying u _ _ _ Hl R1 T) as Fl. pose proof (docs_known _ _ _ _ _ R1) as Dk.
  destruct (receive_inflight _ _ _ _ _ _ W Rc) as (P & I & Pu).
  assert (docs s1 u = Some d) as Dd by (rewrite Dk; exact Dc). rewrite Dd in Pu.
  apply not_saved_app in NS. destruct NS as [_ NS].
  destruct (after_close u s1' tr2' s Hl F) as (_ & _ & C).
  - rewrite P. exact (proj1 (pool_ok _ _ _ _ _ R1)).
  - unfold flying in *. rewrite I, filter_app, Fl. reflexivity.
  - exact NS.
  - rewrite E, shown_app, shown_from_pubs.
    change (Received (Notif (DidClose u)) :: map Sent out ++ tr2') with ([Received (Notif (DidClose u))] ++ @map _ obs Sent out ++ tr2').
    rewrite !pubs_of_app. unfold pubs_of at 1 2. rewrite Pu. cbn [pubs flat_map filter fst app]. rewrite teqb_refl. cbn [app fold_left fst snd].
    revert C. generalize (pubs_of u tr2'). intros l C. induction l as [|x l IH]; [reflexivity|]. cbn [fold_left].
    rewrite (C x (or_introl eq_refl)). cbn [fst snd]. apply IH. intros y Y. apply C. right. exact Y.
Qed.

(** *** Where a message comes from *)
Lemma in_saves sn (tr : list obs) : In sn (saves enc tr) ->
  exists a b, tr = a ++ Received (Notif (DidSave (sn_uri sn))) :: b /\ doc_at enc a (sn_uri sn) = Some (sn_doc sn).
Proof.
  unfold saves, doc_at. generalize empty_session as d. induction tr as [|o tr IH]; intros d I; [destruct I|].
  assert (forall e, In sn (saves_from enc (fst (handle enc d e)) tr) -> exists a b, Received (Notif e) :: tr = a ++ Received (Notif (DidSave (sn_uri sn))) :: b /\
    run_events enc d (events a) (sn_uri sn) = Some (sn_doc sn)) as K.
  { intros e X. destruct (IH _ X) as (a & b & -> & E). exists (Received (Notif e) :: a), b. split; [reflexivity|exact E]. }
  destruct o as [m|x].
  - destruct m; try (destruct (IH _ I) as (a & b & -> & E); eexists (_ :: a), b; split; [reflexivity|exact E]).
    cbn [saves_from] in I. apply in_app_or in I. destruct I as [I|I]; [|exact (K e I)].
    destruct e; try (destruct I; fail). destruct (d u) as [x|] eqn:Du; [|destruct I]. destruct I as [<-|[]].
    exists [], tr. split; [reflexivity|exact Du].
  - destruct (IH _ I) as (a & b & -> & E). eexists (_ :: a), b. split; [reflexivity|exact E].
Qed.
Lemma split_sent n tr (s : server) tr1 x tr2 : reaches n tr s -> tr = tr1 ++ Sent x :: tr2 ->
  exists tr0 s0 o1 o2 s0', reaches n tr0 s0 /\ tr1 = tr0 ++ o1 /\ step enc L s0 (o1 ++ Sent x :: o2) s0'.
Proof.
  intros R. revert tr2. induction R as [|tr s o s' R IH St]; intros tr2 E; [destruct tr1; discriminate|].
  destruct (app_split _ _ _ _ E) as [(r & -> & Eo)|(r & Et & Er)].
  - exists tr, s, r, tr2, s'. subst o. split; [exact R|]. split; [reflexivity|exact St].
  - destruct r as [|y r].
    + rewrite app_nil_r in Et. subst tr1. cbn [app] in Er. exists tr, s, [], tr2, s'. subst o. rewrite app_nil_r. split; [exact R|]. split; [reflexivity|exact St].
    + injection Er as <- ->. exact (IH r Et).
Qed.
Lemma published_sound n tr (s : server) tr1 tr2 u ds v : reaches n tr s -> tr = tr1 ++ Sent (Publish u ds (Some v)) :: tr2 ->
  exists a b d k, tr1 = a ++ Received (Notif (DidSave u)) :: b /\ doc_at enc a u = Some d /\ dc_version d = v /\ lints L (Snap u d) (Done (ds, k)).
Proof.
  intros R E. destruct (split_sent _ _ _ _ _ _ R E) as (tr0 & s0 & o1 & o2 & s0' & R0 & -> & St).
  remember (o1 ++ Sent (Publish u ds (Some v)) :: o2) as o eqn:Eo. destruct St as [s0 m cfg s0' out W Rc|s0 o s0' I].
  - pose proof (receive_published _ _ _ _ _ _ W Rc) as N. rewrite Eo, published_app in N. apply app_eq_nil in N. destruct N as [_ N]. discriminate N.
  - destruct (internal_inflight _ _ _ _ I (proj1 (pool_ok _ _ _ _ _ R0))) as (_ & _ & [(N & _)|(sn & Pe & _ & [[F ->]|(ds' & k & Dn & ->)])]).
    + rewrite Eo, pubs_app in N. apply app_eq_nil in N. destruct N as [_ N]. discriminate N.
    + destruct o1; discriminate.
    + destruct o1 as [|x o1]; [|destruct o1; discriminate]. injection Eo as <- <- <- _. rewrite app_nil_r.
      destruct (published_results _ _ _ _ _ R0) as (done & p & P1 & _).
      destruct (in_saves sn tr0) as (a & b & E1 & E2).
      { apply (Permutation_in _ (Permutation_sym P1)). apply in_or_app. right. apply (Permutation_in _ (Permutation_sym Pe)). left. reflexivity. }
      exists a, b, (sn_doc sn), k. split; [exact E1|]. split; [exact E2|]. split; [reflexivity|]. destruct sn. exact Dn.
Qed.

Definition asked (tr : list obs) (sn : snapshot) (i : rid) (r : pos * pos) : Prop :=
  exists a b, tr = a ++ Received (CodeAction i (sn_uri sn) r) :: b /\ doc_at enc a (sn_uri sn) = Some (sn_doc sn).
Lemma asked_app tr o sn i r : asked tr sn i r -> asked (tr ++ o) sn i r.
Proof. intros (a & b & -> & E). exists a, (b ++ o). split; [rewrite <- app_assoc; reflexivity|exact E]. Qed.
Definition task_asked (tr : list obs) (t : task) : Prop := match t with HandleCodeAction sn i r => asked tr sn i r | _ => True end.
Definition answer_asked (tr : list obs) (i : rid) (l : list A) : Prop :=
  exists sn r, asked tr sn i r /\ (acts L sn r (Done l) \/ (acts L sn r Failed /\ l = [])).
Definition worker_asked (tr : list obs) (w : worker D A) : Prop :=
  match w with Busy t => task_asked tr t | Answering i l => answer_asked tr i l | _ => True end.
Lemma task_asked_app tr o t : task_asked tr t -> task_asked (tr ++ o) t.
Proof. destruct t; [auto|apply asked_app]. Qed.
Lemma worker_asked_app tr o w : worker_asked tr w -> worker_asked (tr ++ o) w.
Proof.
  destruct w; try (intros; exact Logic.I); [apply task_asked_app|]. intros (sn & r & H & X). exists sn, r. split; [apply asked_app; exact H|exact X].
Qed.
Definition all_asked (tr : list obs) (s : server) : Prop :=
  (forall t, thread s = Sending t -> task_asked tr t) /\ Forall (task_asked tr) (queue s) /\ Forall (worker_asked tr) (pool s).
Lemma receive_fields cfg (s : server) m s' out : receive enc cfg s m = (s', out) -> queue s' = queue s /\ pool s' = pool s /\ told s' = told s.
Proof.
  intros Rc. destruct m; cbn [receive] in Rc; try (injection Rc as <- <-; repeat split; reflexivity).
  - destruct (docs s u); injection Rc as <- <-; repeat split; reflexivity.
  - unfold handle_event in Rc. destruct (handle enc (docs s) e) as [d' st].
    destruct st; [|injection Rc as <- <-; repeat split; reflexivity|injection Rc as <- <-; repeat split; reflexivity].
    destruct e; try (injection Rc as <- <-; repeat split; reflexivity).
    + unfold notify_config in Rc. cbn [config_shown with_docs] in Rc. destruct (config_shown s); [injection Rc as <- <-; repeat split; reflexivity|].
      destruct cfg; injection Rc as <- <-; repeat split; reflexivity.
    + destruct (docs s u); injection Rc as <- <-; repeat split; reflexivity.
Qed.
Lemma asked_inv n tr (s : server) : reaches n tr s -> all_asked tr s.
Proof.
  induction 1 as [|tr s o s' R (T & Q & P) St].
  - repeat split; [intros t E; discriminate|constructor|]. cbn [start pool]. apply Forall_forall. intros w I. apply repeat_spec in I. subst w. exact Logic.I.
  - assert (Forall (task_asked (tr ++ o)) (queue s)) as Q' by (eapply Forall_impl; [|exact Q]; intros; apply task_asked_app; assumption).
    assert (Forall (worker_asked (tr ++ o)) (pool s)) as P' by (eapply Forall_impl; [|exact P]; intros; apply worker_asked_app; assumption).
    assert (forall t, thread s = Sending t -> task_asked (tr ++ o) t) as T' by (intros t E; apply task_asked_app; exact (T t E)).
    clear T Q P. destruct St as [s m cfg s' out W Rc|s o s' I].
    + destruct (receive_fields _ _ _ _ _ Rc) as (Eq & Ep & _). unfold all_asked. rewrite Eq, Ep. split; [|split; assumption]. intros t E.
      destruct m; cbn [receive] in Rc; try (injection Rc as <- <-; cbn [thread with_thread] in E; rewrite ?W in E; discriminate).
      * destruct (docs s u) as [d|] eqn:Du; injection Rc as <- <-; cbn [thread with_thread] in E; rewrite ?W in E; [|discriminate].
        injection E as <-. exists tr, []. split; [reflexivity|]. unfold doc_at. rewrite <- (docs_known _ _ _ _ _ R). exact Du.
      * unfold handle_event in Rc. destruct (handle enc (docs s) e) as [d' st].
        destruct st; [|injection Rc as <- <-; cbn [thread with_docs] in E; rewrite W in E; discriminate|injection Rc as <- <-; discriminate E].
        destruct e; try (injection Rc as <- <-; cbn [thread with_docs] in E; rewrite W in E; discriminate).
        -- unfold notify_config in Rc. cbn [config_shown with_docs] in Rc.
           destruct (config_shown s); [|destruct cfg]; injection Rc as <- <-; cbn [thread with_docs] in E; rewrite W in E; discriminate.
        -- destruct (docs s u); injection Rc as <- <-; cbn [thread with_docs with_thread] in E; rewrite ?W in E; [|discriminate]. injection E as <-. exact Logic.I.
    + destruct I as [s t Th C|s a b t q Ru P Q|s a w b tb w' out Ru P W]; unfold all_asked; cbn [thread queue pool].
      * split; [intros t' E; discriminate|]. split; [apply Forall_app; split; [exact Q'|constructor; [exact (T' t Th)|constructor]]|exact P'].
      * split; [exact T'|]. rewrite Q in Q'. inversion Q' as [|x y Qt Qq]; subst. split; [exact Qq|]. rewrite P in P'.
        apply Forall_app in P'. destruct P' as [Pa Pb]. inversion Pb; subst. apply Forall_app. split; [exact Pa|]. constructor; [exact Qt|assumption].
      * split; [exact T'|]. split; [exact Q'|]. rewrite P in P'. apply Forall_app in P'. destruct P' as [Pa Pb]. inversion Pb as [|x y Pw Pb']; subst x y.
        apply Forall_app. split; [exact Pa|]. constructor; [|exact Pb'].
        destruct W; try exact Logic.I; cbn [worker_asked task_asked] in *.
        -- exists s0, r. split; [exact Pw|]. left. assumption.
        -- exists s0, r. split; [exact Pw|]. right. split; [assumption|reflexivity].
Qed.
Lemma answer_sound n tr (s : server) tr1 tr2 i l : reaches n tr s -> tr = tr1 ++ Sent (Answer i l) :: tr2 ->
  exists a b u r d, tr1 = a ++ Received (CodeAction i u r) :: b /\ doc_at enc a u = Some d /\
    (acts L (Snap u d) r (Done l) \/ (acts L (Snap u d) r Failed /\ l = [])).
Proof.
  intros R E. destruct (split_sent _ _ _ _ _ _ R E) as (tr0 & s0 & o1 & o2 & s0' & R0 & -> & St).
  destruct (asked_inv _ _ _ R0) as (_ & _ & P).
  remember (o1 ++ Sent (Answer i l) :: o2) as o eqn:Eo.
  assert (In (Sent (Answer i l)) o) as In_ by (rewrite Eo; apply in_or_app; right; left; reflexivity).
  destruct St as [s0 m cfg s0' out W Rc|s0 o s0' I].
  - exfalso. destruct In_ as [In_|In_]; [discriminate|]. apply in_map_iff in In_. destruct In_ as (x & X & In_). injection X as ->.
    destruct m; cbn [receive] in Rc; try (injection Rc as <- <-; cbn in In_; intuition discriminate).
    + destruct (docs s0 u); injection Rc as <- <-; cbn in In_; intuition discriminate.
    + unfold handle_event in Rc. destruct (handle enc (docs s0) e) as [d' st].
      destruct st; [|injection Rc as <- <-; destruct In_|injection Rc as <- <-; destruct In_].
      destruct e; try (injection Rc as <- <-; cbn in In_; intuition discriminate).
      * unfold notify_config in Rc. cbn [config_shown with_docs] in Rc.
        destruct (config_shown s0); [|destruct cfg]; injection Rc as <- <-; cbn in In_; intuition discriminate.
      * destruct (docs s0 u); injection Rc as <- <-; destruct In_.
  - destruct I as [s2 t Th C|s2 a b t q Ru Po Q|s2 a w b tb w' out Ru Po W]; [destruct In_|destruct In_|].
    apply in_map_iff in In_. destruct In_ as (x & X & In_). injection X as ->.
    destruct W; cbn in In_; try (intuition discriminate; fail). destruct In_ as [In_|[]]. injection In_ as -> ->.
    rewrite Po in P. apply Forall_app in P. destruct P as [_ P]. inversion P as [|x y Pw _]; subst. cbn [worker_asked] in Pw.
    destruct Pw as (sn & r & (p & q & -> & E1) & E2). exists p, (q ++ o1), (sn_uri sn), r, (sn_doc sn).
    split; [rewrite <- app_assoc; reflexivity|]. split; [exact E1|]. destruct sn. exact E2.
Qed.

(** *** Messages shown once *)
Lemma config_app (a b : list obs) : config_messages (a ++ b) = config_messages a + config_messages b.
Proof. unfold config_messages. rewrite filter_app, app_length. reflexivity. Qed.
Lemma hidden_app (a b : list obs) : hidden_messages (a ++ b) = hidden_messages a + hidden_messages b.
Proof. unfold hidden_messages. rewrite filter_app, app_length. reflexivity. Qed.
Definition saying (w : worker D A) : nat := match w with Saying _ _ _ => 1 | _ => 0 end.
Lemma work_messages b w b' w' out : work L b w b' w' out ->
  @config_messages D A (map Sent out) = 0 /\
  @hidden_messages D A (map Sent out) + saying w' + (if b then 1 else 0) = saying w + (if b' then 1 else 0) /\ (b = true -> b' = true).
Proof. intros W. destruct W; cbn; destruct b || idtac; repeat split; auto. Qed.
Lemma receive_messages cfg (s : server) m s' out : receive enc cfg s m = (s', out) ->
  @hidden_messages D A (Received m :: map Sent out) = 0 /\
  @config_messages D A (Received m :: map Sent out) + (if config_shown s then 1 else 0) = (if config_shown s' then 1 else 0).
Proof.
  intros Rc. destruct m; cbn [receive] in Rc; try (injection Rc as <- <-; split; reflexivity).
  - destruct (docs s u); injection Rc as <- <-; split; reflexivity.
  - unfold handle_event in Rc. destruct (handle enc (docs s) e) as [d' st].
    destruct st; [|injection Rc as <- <-; split; reflexivity|injection Rc as <- <-; split; reflexivity].
    destruct e; try (injection Rc as <- <-; split; reflexivity).
    + unfold notify_config in Rc. cbn [config_shown with_docs] in Rc. destruct (config_shown s) eqn:C; [injection Rc as <- <-; cbn; rewrite C; split; reflexivity|].
      destruct cfg; injection Rc as <- <-; cbn; rewrite ?C; split; reflexivity.
    + destruct (docs s u); injection Rc as <- <-; split; reflexivity.
Qed.
Lemma messages_once n tr (s : server) : reaches n tr s ->
  config_messages tr = (if config_shown s then 1 else 0) /\
  hidden_messages tr + total saying (pool s) = (if told s then 1 else 0).
Proof.
  induction 1 as [|tr s o s' R [C H] St].
  - cbn [start pool told config_shown]. split; [reflexivity|]. induction n as [|n IH]; [reflexivity|exact IH].
  - rewrite config_app, hidden_app. destruct St as [s m cfg s' out W Rc|s o s' I].
    + destruct (receive_messages _ _ _ _ _ Rc) as [-> X]. destruct (receive_fields _ _ _ _ _ Rc) as (_ & -> & ->). lia.
    + destruct I as [s t Th Cp|s a b t q Ru Po Q|s a w b tb w' out Ru Po W]; cbn [config_shown told pool].
      * unfold config_messages, hidden_messages in *. cbn [filter length]. lia.
      * rewrite Po, !total_app, !total_cons in *. unfold config_messages, hidden_messages in *. cbn [filter length saying] in *. lia.
      * rewrite Po, !total_app, !total_cons in *. destruct (work_messages _ _ _ _ _ W) as (-> & X & _). lia.
Qed.
Definition past_telling (w : worker D A) : bool := match w with Saying _ _ _ | Publishing _ _ => true | _ => false end.
Lemma told_first n tr (s : server) : (forall sn ds k, lints L sn (Done (ds, k)) -> 0 < k) -> reaches n tr s ->
  published tr <> [] \/ existsb past_telling (pool s) = true -> told s = true.
Proof.
  intros Pk. induction 1 as [|tr s o s' R IH St].
  - cbn [start pool]. intros [H|H]; [destruct (H eq_refl)|]. exfalso. apply existsb_exists in H. destruct H as (w & I & E).
    apply repeat_spec in I. subst w. discriminate E.
  - rewrite published_app. destruct St as [s m cfg s' out W Rc|s o s' I].
    + rewrite (receive_published _ _ _ _ _ _ W Rc), app_nil_r. destruct (receive_fields _ _ _ _ _ Rc) as (_ & -> & ->). exact IH.
    + destruct I as [s t Th Cp|s a b t q Ru Po Q|s a w b tb w' out Ru Po W]; cbn [told pool].
      * cbn [published flat_map]. rewrite app_nil_r. exact IH.
      * cbn [published flat_map]. rewrite app_nil_r. rewrite Po in IH. rewrite existsb_app in *. cbn [existsb past_telling orb] in *. exact IH.
      * rewrite Po, existsb_app in IH. rewrite existsb_app. cbn [existsb] in *.
        assert (published tr <> [] \/ existsb past_telling a || (past_telling w || existsb past_telling b) = true -> tb = true) as IH'.
        { intros X. specialize (IH X). destruct (work_messages _ _ _ _ _ W) as (_ & _ & M). exact (M IH). }
        assert ((past_telling w' = true -> past_telling w = true \/ tb = true) /\ (@published D A (map Sent out) <> [] -> past_telling w = true)) as [K1 K2].
        { destruct W; cbn; split; intros X; try discriminate; try (destruct (X eq_refl)); auto.
          match goal with H0 : lints L _ (Done (_, 0)) |- _ => specialize (Pk _ _ _ H0); lia end. }
        intros [H|H].
        -- destruct (@published D A (map Sent out)) eqn:E; [rewrite app_nil_r in H; apply IH'; left; exact H|].
           apply IH'. right. rewrite (K2 ltac:(discriminate)), orb_true_r. reflexivity.
        -- apply orb_true_iff in H. destruct H as [H|H]; [apply IH'; right; rewrite H; reflexivity|]. apply orb_true_iff in H.
           destruct H as [H|H]; [|apply IH'; right; rewrite H, !orb_true_r; reflexivity].
           destruct (K1 H) as [X|X]; [apply IH'; right; rewrite X, orb_true_r; reflexivity|exact X].
Qed.
Lemma shown_when_needed n tr (s : server) : (forall sn ds k, lints L sn (Done (ds, k)) -> 0 < k) -> reaches n tr s -> quiet s ->
  published tr <> [] -> hidden_messages tr = 1.
Proof.
  intros Pk R (_ & _ & P) H. destruct (messages_once _ _ _ R) as [_ X]. rewrite (told_first _ _ _ Pk R (or_introl H)) in X.
  assert (total saying (pool s) = 0) as E; [|lia]. clear -P. induction P as [|w l E P IH]; [reflexivity|]. rewrite total_cons, E, IH. reflexivity.
Qed.
Lemma at_most_once n tr (s : server) : reaches n tr s -> config_messages tr <= 1 /\ hidden_messages tr <= 1.
Proof. intros R. destruct (messages_once _ _ _ R) as [C H]. destruct (config_shown s), (told s); lia. Qed.
End Server.
