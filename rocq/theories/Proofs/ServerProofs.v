(** Invariants of the server threads. *)
From Verif Require Import Model.Text Model.Base Model.Lsp Model.Server Spec.ServerSpec.
From Verif Require Import Proofs.TextProofs Proofs.LspSync.
From Coq Require Import Permutation Wellfounded.

Section Server.
Context {D A : Type}.
Variable enc : encoding.
Variable L : linter D A.
Notation server := (server D A).
Notation obs := (obs D A).
Notation reaches := (reaches enc L).

(** *** Traces *)
Lemma events_app (a b : list obs) : events (a ++ b) = events a ++ events b.
Proof. apply flat_map_app. Qed.
Lemma published_app (a b : list obs) : published (a ++ b) = published a ++ published b.
Proof. apply flat_map_app. Qed.
Lemma requests_app i (a b : list obs) : requests i (a ++ b) = requests i a + requests i b.
Proof. induction a as [|[m|x] a IH]; cbn [app requests]; lia. Qed.
Lemma answers_app i (a b : list obs) : answers i (a ++ b) = answers i a + answers i b.
Proof. induction a as [|[m|x] a IH]; cbn [app answers]; lia. Qed.
Lemma events_sent (l : list (sent D A)) : events (map Sent l) = [].
Proof. induction l; [reflexivity|assumption]. Qed.
Lemma requests_sent i (l : list (sent D A)) : requests i (map Sent l) = 0.
Proof. induction l; [reflexivity|assumption]. Qed.
Lemma saves_from_app (a : list obs) : forall d b, saves_from enc d (a ++ b) = saves_from enc d a ++ saves_from enc (run_events enc d (events a)) b.
Proof.
  induction a as [|o a IH]; intros d b; [reflexivity|]. destruct o as [m|x]; [destruct m|]; try (apply IH).
  cbn [app saves_from events flat_map run_events]. fold (events a). rewrite IH, app_assoc. reflexivity.
Qed.
Lemma saves_from_sent d (l : list (sent D A)) : saves_from enc d (map Sent l) = [].
Proof. induction l; [reflexivity|assumption]. Qed.
Lemma saves_app (a b : list obs) : saves enc (a ++ b) = saves enc a ++ saves_from enc (run_events enc empty_session (events a)) b.
Proof. apply saves_from_app. Qed.

(** *** The documents *)
Lemma handle_event_docs cfg (s : server) e s' out : handle_event enc cfg s e = (s', out) ->
  docs s' = fst (handle enc (docs s) e).
Proof.
  unfold handle_event. destruct (handle enc (docs s) e) as [d' st]. intros H. cbn [fst].
  destruct st; [|injection H as <- <-; reflexivity|injection H as <- <-; reflexivity].
  destruct e; try (injection H as <- <-; reflexivity).
  - unfold notify_config in H. cbn [config_shown with_docs] in H. destruct (config_shown s); [injection H as <- <-; reflexivity|].
    destruct cfg; injection H as <- <-; reflexivity.
  - destruct (docs s u); injection H as <- <-; reflexivity.
Qed.
Lemma receive_docs cfg (s : server) m s' out : receive enc cfg s m = (s', out) ->
  docs s' = run_events enc (docs s) (@events D A [Received m]).
Proof.
  destruct m; cbn [receive events flat_map app run_events]; intros H; try (injection H as <- <-; reflexivity).
  - destruct (docs s u); injection H as <- <-; reflexivity.
  - exact (handle_event_docs _ _ _ _ _ H).
Qed.
Lemma internal_docs (s : server) o s' : internal L s o s' -> docs s' = docs s /\ events o = [] /\ (forall d, saves_from enc d o = []).
Proof.
  intros H. destruct H; (split; [reflexivity|]); try (split; reflexivity).
  split; [apply events_sent|intros; apply saves_from_sent].
Qed.
Lemma step_docs (s : server) o s' : step enc L s o s' -> docs s' = run_events enc (docs s) (events o).
Proof.
  intros [s0 m cfg s0' out W R|s0 o0 s0' I].
  - rewrite (receive_docs _ _ _ _ _ R). change (Received m :: map Sent out) with ([Received m] ++ @map _ obs Sent out).
    rewrite events_app, events_sent, app_nil_r. reflexivity.
  - destruct (internal_docs _ _ _ I) as (-> & -> & _). reflexivity.
Qed.
Lemma docs_known n tr (s : server) : reaches n tr s -> docs s = run_events enc empty_session (events tr).
Proof.
  induction 1 as [|tr s o s' R IH St]; [reflexivity|]. rewrite (step_docs _ _ _ St), IH, events_app, run_app. reflexivity.
Qed.

(** *** Requests and answers *)
Definition due_task (i : rid) (t : task) : nat := match t with HandleCodeAction _ j _ => if i =? j then 1 else 0 | _ => 0 end.
Definition due_worker (i : rid) (w : worker D A) : nat :=
  match w with Busy t | Dead t => due_task i t | Answering j _ => if i =? j then 1 else 0 | _ => 0 end.
Definition due_thread (i : rid) (m : main) : nat := match m with Sending t => due_task i t | _ => 0 end.
Definition total {X} (f : X -> nat) (l : list X) : nat := list_sum (map f l).
Definition due (i : rid) (s : server) : nat := due_thread i (thread s) + total (due_task i) (queue s) + total (due_worker i) (pool s).
Definition bad (i : rid) (tr : list obs) : nat :=
  length (filter (fun o => match o with Received (BadCodeAction j) => i =? j | _ => false end) tr).
Lemma total_app {X} (f : X -> nat) a b : total f (a ++ b) = total f a + total f b.
Proof. unfold total. rewrite map_app. apply list_sum_app. Qed.
Lemma total_cons {X} (f : X -> nat) a b : total f (a :: b) = f a + total f b.
Proof. reflexivity. Qed.
Lemma bad_app i (a b : list obs) : bad i (a ++ b) = bad i a + bad i b.
Proof. unfold bad. rewrite filter_app, app_length. reflexivity. Qed.
Lemma bad_sent i (l : list (sent D A)) : bad i (map Sent l) = 0.
Proof. induction l; [reflexivity|assumption]. Qed.

Lemma work_due i b w b' w' out : work L b w b' w' out -> due_worker i w = due_worker i w' + answers i (map Sent out).
Proof.
  intros H. destruct H; cbn [due_worker due_task map answers answer_id is_id]; try reflexivity; destruct (i =? id); reflexivity.
Qed.
Lemma internal_due i (s : server) o s' : internal L s o s' ->
  due i s = due i s' + answers i o /\ requests i o = 0 /\ bad i o = 0.
Proof.
  intros H. destruct H as [s t T C|s a b t q Ru P Q|s a w b tb w' out Ru P W]; unfold due; cbn [thread queue pool].
  - rewrite T, total_app, total_cons. cbn [due_thread answers]. cbn. lia.
  - rewrite P, Q, !total_app, !total_cons. cbn [due_worker answers]. cbn. lia.
  - rewrite P, !total_app, !total_cons, (work_due i _ _ _ _ _ W), requests_sent, bad_sent. lia.
Qed.
Lemma handle_event_due i cfg (s : server) e s' out : thread s = Waiting -> handle_event enc cfg s e = (s', out) ->
  due i s' = due i s /\ answers i (map Sent out) = 0.
Proof.
  intros W. unfold handle_event. destruct (handle enc (docs s) e) as [d' st]. intros H. unfold due. rewrite W.
  destruct st; [|injection H as <- <-; cbn [thread with_docs queue pool]; rewrite W; split; reflexivity|injection H as <- <-; split; reflexivity].
  destruct e; try (injection H as <- <-; cbn [thread with_docs queue pool]; rewrite W; split; reflexivity).
  - unfold notify_config in H. cbn [config_shown with_docs] in H. destruct (config_shown s).
    + injection H as <- <-; cbn [thread with_docs queue pool]; rewrite W; split; reflexivity.
    + destruct cfg; injection H as <- <-; cbn [thread with_docs queue pool]; rewrite W; split; reflexivity.
  - destruct (docs s u); injection H as <- <-; cbn [thread with_docs with_thread queue pool]; try rewrite W; split; reflexivity.
Qed.
Lemma receive_due i cfg (s : server) m s' out : thread s = Waiting -> receive enc cfg s m = (s', out) ->
  is_id i (request_id m) + due i s = due i s' + answers i (map Sent out) + bad i [Received m].
Proof.
  intros W H. destruct m; cbn [receive request_id is_id] in *;
    try (injection H as <- <-; unfold due, bad; cbn [thread with_thread queue pool]; rewrite ?W; cbn [due_thread map answers answer_id is_id filter length]; lia).
  - destruct (docs s u); injection H as <- <-; unfold due, bad; cbn [thread with_thread queue pool];
      rewrite ?W; cbn [due_thread due_task map answers answer_id is_id filter length]; lia.
  - injection H as <- <-. unfold bad. cbn [map answers filter]. destruct (i =? id); cbn [length]; lia.
  - destruct (handle_event_due i _ _ _ _ _ W H) as [-> ->]. unfold bad. cbn [filter length]. lia.
Qed.
Lemma accounting i n tr (s : server) : reaches n tr s -> requests i tr = answers i tr + due i s + bad i tr.
Proof.
  induction 1 as [|tr s o s' R IH St].
  - unfold due, start. cbn [thread queue pool requests answers]. unfold bad. cbn [filter length].
    assert (total (due_worker i) (repeat (@Idle D A) n) = 0) as -> by (induction n; [reflexivity|assumption]). reflexivity.
  - rewrite requests_app, answers_app, bad_app. destruct St as [s m cfg s' out W Rc|s o s' I].
    + pose proof (receive_due i _ _ _ _ _ W Rc) as E. cbn [requests answers]. rewrite requests_sent.
      change (Received m :: map Sent out) with ([Received m] ++ @map _ obs Sent out). rewrite bad_app, bad_sent. lia.
    + destruct (internal_due i _ _ _ I) as (E & -> & ->). lia.
Qed.
Lemma answered_at_most_once n tr (s : server) : reaches n tr s -> forall i, answers i tr <= requests i tr.
Proof. intros R i. pose proof (accounting i _ _ _ R). lia. Qed.
Lemma bad_none i (tr : list obs) : (forall m, In (Received m) tr -> well_formed m) -> bad i tr = 0.
Proof.
  induction tr as [|o tr IH]; intros H; [reflexivity|]. unfold bad in *. cbn [filter].
  destruct o as [m|x]; [|apply IH; intros m I; apply H; right; exact I].
  destruct m; try (apply IH; intros m I; apply H; right; exact I). destruct (H (BadCodeAction id) (or_introl eq_refl)).
Qed.
Lemma quiet_due i (s : server) : quiet s -> due i s = 0.
Proof.
  intros ([T|T] & Q & P); unfold due; rewrite T, Q; cbn [due_thread]; unfold total at 1; cbn [map list_sum fold_right];
    (induction P as [|w l E P IH]; [reflexivity|rewrite total_cons, E; cbn [due_worker]; lia]).
Qed.
Lemma answered_exactly n tr (s : server) : reaches n tr s -> (forall m, In (Received m) tr -> well_formed m) -> quiet s ->
  forall i, answers i tr = requests i tr.
Proof. intros R B Q i. rewrite (accounting i _ _ _ R), (quiet_due i _ Q), (bad_none i _ B). lia. Qed.

(** *** Threads are lost only to panics *)
Lemma none_lost n tr (s : server) : healthy L -> reaches n tr s -> no_thread_lost s /\ length (pool s) = n.
Proof.
  intros [HL HA]. induction 1 as [|tr s o s' R IH St].
  - split; [intros t I; apply repeat_spec in I; discriminate|apply repeat_length].
  - destruct IH as [N E]. destruct St as [s m cfg s' out W Rc|s o s' I].
    + assert (pool s' = pool s) as P.
      { destruct m; cbn [receive] in Rc; try (injection Rc as <- <-; reflexivity).
        - destruct (docs s u); injection Rc as <- <-; reflexivity.
        - unfold handle_event in Rc. destruct (handle enc (docs s) e) as [d' st].
          destruct st; [|injection Rc as <- <-; reflexivity|injection Rc as <- <-; reflexivity].
          destruct e; try (injection Rc as <- <-; reflexivity).
          + unfold notify_config in Rc. cbn [config_shown with_docs] in Rc. destruct (config_shown s); [injection Rc as <- <-; reflexivity|].
            destruct cfg; injection Rc as <- <-; reflexivity.
          + destruct (docs s u); injection Rc as <- <-; reflexivity. }
      split; [intros t I; rewrite P in I; exact (N t I)|rewrite P; exact E].
    + destruct I as [s t T C|s a b t q Ru P Q|s a w b tb w' out Ru P W]; cbn [pool].
      * split; assumption.
      * rewrite P in E. split; [|rewrite app_length in *; cbn [length] in *; exact E]. intros t' I. apply in_app_or in I.
        destruct I as [I|[I|I]]; [|discriminate|]; apply (N t'); rewrite P; apply in_or_app; [left; exact I|right; right; exact I].
      * rewrite P in E. split; [|rewrite app_length in *; cbn [length] in *; exact E]. intros t' I. apply in_app_or in I.
        destruct I as [I|[I|I]]; try (apply (N t'); rewrite P; apply in_or_app; [left; exact I|right; right; exact I]).
        -- apply (N t'). rewrite P. apply in_or_app. left. exact I.
        -- subst w'. inversion W; subst; [destruct (HL s0) as [_ X]|destruct (HA s0 r) as [_ X]]; exact (X ltac:(assumption)).
        -- apply (N t'). rewrite P. apply in_or_app. right. right. exact I.
Qed.

(** *** Every schedule ends *)
Definition weight (w : worker D A) : nat :=
  match w with Idle | Dead _ => 0 | Busy _ => 6 | Telling _ _ _ => 5 | Saying _ _ _ => 4 | Publishing _ _ => 3 | Answering _ _ => 3 end.
Definition measure (s : server) : nat :=
  (match thread s with Sending _ => 9 | _ => 0 end) + 8 * length (queue s) + total weight (pool s).
Lemma internal_decreases (s : server) o s' : internal L s o s' -> measure s' < measure s.
Proof.
  intros H. destruct H as [s t T C|s a b t q Ru P Q|s a w b tb w' out Ru P W]; unfold measure; cbn [thread queue pool].
  - rewrite T, app_length. cbn [length]. lia.
  - rewrite P, Q, !total_app, !total_cons. cbn [weight length]. lia.
  - rewrite P, !total_app, !total_cons. assert (weight w' < weight w) by (destruct W; cbn [weight]; lia). lia.
Qed.
Lemma internal_running (s : server) o s' : internal L s o s' -> running s -> running s'.
Proof. intros H Ru. destruct H; unfold running in *; cbn [thread]; auto. Qed.

Lemma can_go_on (s : server) : healthy L -> no_thread_lost s -> pool s <> [] -> running s -> (exists o s', internal L s o s') \/ quiet s.
Proof.
  intros [HL HA] N P Ru.
  assert ((exists a w b, pool s = a ++ w :: b /\ w <> Idle) \/ Forall (fun w => w = Idle) (pool s)) as [(a & w & b & E & NI)|All].
  { induction (pool s) as [|w l IH]; [right; constructor|]. destruct w; try (left; eexists [], _, l; split; [reflexivity|discriminate]).
    destruct l as [|w2 l]; [right; repeat constructor|]. destruct (IH ltac:(discriminate)) as [(a & w & b & E & X)|F].
    - left. exists (Idle :: a), w, b. rewrite E. split; [reflexivity|exact X].
    - right. constructor; [reflexivity|exact F]. }
  - left. assert (exists tb w' out, work L (told s) w tb w' out) as (tb & w' & out & W).
    { destruct w as [|t|sn ds h|sn ds h|sn ds|id l|t]; try (destruct (NI eq_refl)).
      - destruct t as [sn|sn id r].
        + destruct (HL sn) as [[o O] X]. destruct o as [[ds h]| |]; [|eexists _, _, _; apply w_lint_failed; exact O|destruct (X O)].
          destruct h; [eexists _, _, _; apply w_lint; exact O|eexists _, _, _; eapply w_hidden; [exact O|lia]].
        + destruct (HA sn r) as [[o O] X]. destruct o as [l| |]; [eexists _, _, _; apply w_acts; exact O|eexists _, _, _; apply w_acts_failed; exact O|destruct (X O)].
      - destruct (told s); [eexists _, _, _; apply w_already|eexists _, _, _; apply w_swap].
      - eexists _, _, _; apply w_say.
      - eexists _, _, _; apply w_publish.
      - eexists _, _, _; apply w_answer.
      - destruct (N t). rewrite E. apply in_or_app. right. left. reflexivity. }
    eexists _, _. exact (i_work L s a w b tb w' out Ru E W).
  - destruct (queue s) as [|t q] eqn:Q.
    + destruct (thread s) eqn:T; try (right; split; [rewrite T; solve [auto]|split; assumption]).
      * left. eexists _, _. refine (i_enqueue L s t T _). rewrite Q. unfold capacity. cbn. lia.
      * unfold running in Ru. rewrite T in Ru. destruct Ru.
      * unfold running in Ru. rewrite T in Ru. destruct Ru.
    + left. destruct (pool s) as [|w l] eqn:E; [destruct (P eq_refl)|]. inversion All; subst w.
      eexists _, _. exact (i_take L s [] l t q Ru E Q).
Qed.

Lemma settles n tr (s : server) : healthy L -> 0 < n -> reaches n tr s -> running s ->
  inevitably L (fun tr' s' => quiet s' /\ reaches n tr' s' /\ (thread s <> Stopped -> thread s' = Waiting) /\
                              exists o, tr' = tr ++ o /\ forall m, ~ In (Received m) o) tr s.
Proof.
  intros H Pn R Ru.
  enough (forall k tr' s', measure s' < k -> reaches n tr' s' -> running s' -> (thread s <> Stopped -> thread s' <> Stopped) ->
    (exists o, tr' = tr ++ o /\ forall m, ~ In (Received m) o) ->
    inevitably L (fun tr' s' => quiet s' /\ reaches n tr' s' /\ (thread s <> Stopped -> thread s' = Waiting) /\
                              exists o, tr' = tr ++ o /\ forall m, ~ In (Received m) o) tr' s') as G.
  { apply (G (S (measure s))); [lia|exact R|exact Ru|auto|exists []; split; [rewrite app_nil_r; reflexivity|intros m []]]. }
  induction k as [|k IH]; intros tr' s' M R' Ru' T (o1 & E1 & O1); [lia|].
  destruct (none_lost _ _ _ H R') as [N Ln].
  destruct (can_go_on s' H N) as [Go|Q]; [intros E; rewrite E in Ln; cbn in Ln; lia|exact Ru'| |].
  - apply inev_later; [exact Go|]. intros o s2 I. apply IH.
    + pose proof (internal_decreases _ _ _ I). lia.
    + exact (r_step _ _ _ _ _ _ _ R' (s_internal _ _ _ _ _ I)).
    + exact (internal_running _ _ _ I Ru').
    + intros X. specialize (T X). destruct I; cbn [thread]; [discriminate|exact T|exact T].
    + exists (o1 ++ o). split; [rewrite E1, app_assoc; reflexivity|]. intros m In_. apply in_app_or in In_. destruct In_ as [In_|In_]; [exact (O1 m In_)|].
      destruct I; [destruct In_|destruct In_|]. apply in_map_iff in In_. destruct In_ as (x & X & _). discriminate X.
  - apply inev_now. split; [exact Q|]. split; [exact R'|]. split; [|exists o1; split; assumption].
    intros X. destruct Q as ([W|W] & _); [exact W|destruct (T X W)].
Qed.
Lemma inevitably_mono (P P' : list obs -> server -> Prop) : (forall tr s, P tr s -> P' tr s) ->
  forall tr s, inevitably L P tr s -> inevitably L P' tr s.
Proof.
  intros H tr s I. induction I as [tr s X|tr s G _ IH]; [apply inev_now; apply H; exact X|apply inev_later; [exact G|exact IH]].
Qed.
Lemma finally_answered n tr (s : server) : healthy L -> 0 < n -> reaches n tr s -> running s ->
  (forall m, In (Received m) tr -> well_formed m) ->
  inevitably L (fun tr' s' => forall i, answers i tr' = requests i tr') tr s.
Proof.
  intros H Pn R Ru B. eapply inevitably_mono; [|exact (settles n tr s H Pn R Ru)].
  intros tr' s' (Q & R' & _ & o & -> & NO). apply (answered_exactly n _ s' R'); [|exact Q].
  intros m I. apply in_app_or in I. destruct I as [I|I]; [exact (B m I)|destruct (NO m I)].
Qed.
Lemma finally_waiting n tr (s : server) : healthy L -> 0 < n -> reaches n tr s -> running s -> thread s <> Stopped ->
  inevitably L (fun _ s' => thread s' = Waiting) tr s.
Proof.
  intros H Pn R Ru T. eapply inevitably_mono; [|exact (settles n tr s H Pn R Ru)]. intros tr' s' (_ & _ & X & _). exact (X T).
Qed.
End Server.
