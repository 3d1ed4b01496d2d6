(** Executions in which the server does not do what is expected. *)
From Verif Require Import Model.Text Model.Base Model.Lsp Model.Server Spec.ServerSpec.
From Verif Require Import Proofs.TextProofs Proofs.LspSync Proofs.ServerProofs Proofs.ServerOrder Proofs.ServerShown.

Section Server.
Context {D A : Type}.
Variable enc : encoding.
Variable L : linter D A.
Notation server := (server D A).
Notation obs := (obs D A).
Notation reaches := (reaches enc L).

Lemma do_receive n tr (s : server) m cfg s' out : reaches n tr s -> thread s = Waiting -> receive enc cfg s m = (s', out) ->
  reaches n (tr ++ Received m :: map Sent out) s'.
Proof. intros R W Rc. exact (r_step _ _ _ _ _ _ _ R (s_receive _ _ _ _ _ _ _ W Rc)). Qed.
Lemma do_enqueue n tr dc cs tl q (p : list (worker D A)) t : reaches n tr (Server dc cs tl q p (Sending t)) -> length q < capacity ->
  reaches n tr (Server dc cs tl (q ++ [t]) p Waiting).
Proof.
  intros R C. rewrite <- (app_nil_r tr). refine (r_step _ _ _ _ _ _ _ R (s_internal _ _ _ _ _ _)).
  exact (i_enqueue L (Server dc cs tl q p (Sending t)) t eq_refl C).
Qed.
Lemma do_save n tr dc cs tl q (p : list (worker D A)) u d : reaches n tr (Server dc cs tl q p Waiting) -> dc u = Some d -> length q < capacity ->
  reaches n (tr ++ [Received (Notif (DidSave u))]) (Server dc cs tl (q ++ [LintDocument (Snap u d)]) p Waiting).
Proof.
  intros R Du C. assert (reaches n (tr ++ Received (Notif (DidSave u)) :: map Sent []) (Server dc cs tl q p (Sending (LintDocument (Snap u d))))) as R1.
  { apply (do_receive _ _ _ _ None _ _ R eq_refl). cbn [receive]. unfold handle_event. cbn [handle docs]. rewrite Du. reflexivity. }
  exact (do_enqueue _ _ _ _ _ _ _ _ R1 C).
Qed.
Lemma do_take n tr dc cs tl t q a (b : list (worker D A)) : reaches n tr (Server dc cs tl (t :: q) (a ++ Idle :: b) Waiting) ->
  reaches n tr (Server dc cs tl q (a ++ Busy t :: b) Waiting).
Proof.
  intros R. rewrite <- (app_nil_r tr). refine (r_step _ _ _ _ _ _ _ R (s_internal _ _ _ _ _ _)).
  exact (i_take L (Server dc cs tl (t :: q) (a ++ Idle :: b) Waiting) a b t q Logic.I eq_refl eq_refl).
Qed.
Lemma do_work n tr dc cs tl q a w (b : list (worker D A)) tb w' out : reaches n tr (Server dc cs tl q (a ++ w :: b) Waiting) ->
  work L tl w tb w' out -> reaches n (tr ++ map Sent out) (Server dc cs tb q (a ++ w' :: b) Waiting).
Proof.
  intros R W. refine (r_step _ _ _ _ _ _ _ R (s_internal _ _ _ _ _ _)).
  exact (i_work L (Server dc cs tl q (a ++ w :: b) Waiting) a w b tb w' out Logic.I eq_refl W).
Qed.
Definition one_doc (u : uri) (d : doc) : session := set_doc empty_session u (Some d).
Lemma do_open n u t v : reaches n [Received (Notif (DidOpen u t v))] (Server (one_doc u (new_doc t v)) false false [] (repeat Idle n) Waiting).
Proof. exact (do_receive n [] (start n) (Notif (DidOpen u t v)) None _ _ (r_start _ _ _) eq_refl eq_refl). Qed.
Lemma one_doc_known u d : one_doc u d u = Some d.
Proof. unfold one_doc, set_doc. rewrite teqb_refl. reflexivity. Qed.

(** *** Requests that are never answered *)
Lemma malformed_ignored n i : exists tr (s : server), reaches n tr s /\ quiet s /\ requests i tr = 1 /\ answers i tr = 0.
Proof.
  exists [Received (BadCodeAction i)], (start n). split; [exact (do_receive n [] (start n) (BadCodeAction i) None _ _ (r_start _ _ _) eq_refl eq_refl)|].
  split; [split; [left; reflexivity|split; [reflexivity|apply Forall_forall; intros w I; apply repeat_spec in I; exact I]]|].
  cbn [requests answers request_id is_id]. rewrite Nat.eqb_refl. split; reflexivity.
Qed.
Lemma idle_no_work b w b' w' out : @work D A L b w b' w' out -> w <> Idle /\ forall t, w <> Dead t.
Proof. intros W. destruct W; split; try discriminate; intros; discriminate. Qed.
Lemma lost_request n u t v r i : 0 < n -> acts L (Snap u (new_doc t v)) r Panicked ->
  exists tr (s : server), reaches n tr s /\ thread s = Waiting /\ (forall m, In (Received m) tr -> well_formed m) /\
    requests i tr = 1 /\ answers i tr = 0 /\ forall o s', ~ internal L s o s'.
Proof.
  intros Pn P. destruct n as [|n]; [lia|]. pose proof (do_open (S n) u t v) as R.
  eapply (do_receive _ _ _ (CodeAction i u r) None) in R; [|reflexivity|cbn [receive docs]; rewrite one_doc_known; reflexivity].
  cbn [map] in R. unfold with_thread in R. cbn [docs config_shown told queue pool] in R.
  pose proof (do_enqueue _ _ _ _ _ _ _ _ R ltac:(cbn [length]; unfold capacity; lia)) as R1. cbn [app] in R1. change (repeat (@Idle D A) (S n)) with ([] ++ Idle :: repeat (@Idle D A) n) in R1.
  apply do_take in R1. eapply do_work in R1; [|apply w_acts_panic; exact P].
  eexists _, _. split; [exact R1|]. split; [reflexivity|]. split.
  { cbn [app map]. intros m [E|[E|[]]]; injection E as <-; exact Logic.I. }
  cbn [app map requests answers request_id is_id]. rewrite Nat.eqb_refl. split; [reflexivity|]. split; [reflexivity|].
  intros o s' I. inversion I as [s1 t1 T|s1 a b t1 q Ru Po Q|s1 a w b tb w' out Ru Po W]; subst.
  - discriminate T.
  - discriminate Q.
  - destruct (idle_no_work _ _ _ _ _ W) as [N1 N2]. cbn [pool app] in Po.
    assert (In w (Dead (HandleCodeAction (Snap u (new_doc t v)) i r) :: repeat Idle n)) as In_ by (rewrite Po; apply in_or_app; right; left; reflexivity).
    destruct In_ as [<-|In_]; [exact (N2 _ eq_refl)|apply repeat_spec in In_; exact (N1 In_)].
Qed.

(** *** A server that is blocked for ever *)
Section Blocked.
Variables (u : uri) (t : text) (v : Z).
Notation sn := (Snap u (new_doc t v)).
Notation dc := (one_doc u (new_doc t v)).
Notation T := (LintDocument sn).
Hypothesis P : lints L sn Panicked.
Lemma kill n j : forall k tr, reaches n tr (Server dc false false [] (repeat (Dead T) k ++ repeat Idle j) Waiting) ->
  exists tr', reaches n tr' (Server dc false false [] (repeat (Dead T) (k + j)) Waiting).
Proof.
  induction j as [|j IH]; intros k tr R; [exists tr; cbn [repeat] in R; rewrite app_nil_r in R; rewrite Nat.add_0_r; exact R|].
  apply (do_save _ _ _ _ _ _ _ u (new_doc t v)) in R; [|apply one_doc_known|cbn; unfold capacity; lia]. cbn [app repeat] in R.
  apply do_take in R. eapply do_work in R; [|apply w_lint_panic; exact P].
  replace (k + S j) with (S k + j) by lia. eapply (IH (S k)).
  replace (repeat (Dead T) (S k) ++ repeat (@Idle D A) j) with (repeat (Dead T) k ++ Dead T :: repeat (@Idle D A) j); [exact R|].
  change (Dead T :: repeat (@Idle D A) j) with ([Dead T] ++ repeat (@Idle D A) j). rewrite app_assoc. f_equal.
  clear. induction k as [|k IH]; [reflexivity|]. cbn [repeat app]. rewrite IH. reflexivity.
Qed.
Lemma fill n p j : forall k tr, reaches n tr (Server dc false false (repeat T k) p Waiting) -> k + j <= capacity ->
  exists tr', reaches n tr' (Server dc false false (repeat T (k + j)) p Waiting).
Proof.
  induction j as [|j IH]; intros k tr R C; [exists tr; rewrite Nat.add_0_r; exact R|].
  apply (do_save _ _ _ _ _ _ _ u (new_doc t v)) in R; [|apply one_doc_known|rewrite repeat_length; lia].
  replace (k + S j) with (S k + j) by lia. eapply (IH (S k)); [|lia].
  replace (repeat T (S k)) with (repeat T k ++ [T]); [exact R|]. clear. induction k as [|k IH]; [reflexivity|]. cbn [repeat app]. rewrite IH. reflexivity.
Qed.
Lemma blocked n r i : exists tr (s : server), reaches n tr s /\ running s /\ thread s <> Stopped /\
  (forall o s', ~ step enc L s o s') /\ exists tr0, tr = tr0 ++ [Received (CodeAction i u r)].
Proof.
  destruct (kill n n 0 _ (do_open n u t v)) as [tr1 R1]. destruct (fill n _ capacity 0 tr1 R1 (le_n _)) as [tr2 R2].
  cbn [Nat.add] in R2. eapply (do_receive _ _ _ (CodeAction i u r) None) in R2; [|reflexivity|cbn [receive docs]; rewrite one_doc_known; reflexivity].
  unfold with_thread in R2. cbn [docs config_shown told queue pool] in R2.
  eexists _, _. split; [exact R2|]. split; [exact Logic.I|]. split; [discriminate|]. split; [|exists tr2; reflexivity].
  intros o s' St. inversion St as [s1 m cfg s1' out W|s1 o1 s1' I]; subst; [discriminate W|].
  inversion I as [s1 t1 Th C|s1 a b t1 q Ru Po Q|s1 a w b tb w' out Ru Po W]; subst.
  - cbn [queue] in C. rewrite repeat_length in C. lia.
  - cbn [pool] in Po. assert (In (@Idle D A) (repeat (Dead T) n)) as In_ by (rewrite Po; apply in_or_app; right; left; reflexivity).
    apply repeat_spec in In_. discriminate.
  - destruct (idle_no_work _ _ _ _ _ W) as [N1 N2]. cbn [pool] in Po.
    assert (In w (repeat (Dead T) n)) as In_ by (rewrite Po; apply in_or_app; right; left; reflexivity).
    apply repeat_spec in In_. exact (N2 _ In_).
Qed.
End Blocked.

(** *** Old diagnostics *)
Lemma all_idle n : Forall (fun w : worker D A => w = Idle) (repeat Idle n).
Proof. apply Forall_forall. intros w I. apply repeat_spec in I. exact I. Qed.
Lemma do_change n tr cs tl q (p : list (worker D A)) u d d2 ch v2 : reaches n tr (Server (one_doc u d) cs tl q p Waiting) ->
  apply_changes d ch v2 enc = (d2, SOk) ->
  reaches n (tr ++ [Received (Notif (DidChange u ch v2))]) (Server (set_doc (one_doc u d) u (Some d2)) cs tl q p Waiting).
Proof.
  intros R E. apply (do_receive _ _ _ (Notif (DidChange u ch v2)) None _ [] R eq_refl). cbn [receive]. unfold handle_event. cbn [handle docs].
  rewrite one_doc_known, E. reflexivity.
Qed.
Lemma changed_known u d d2 : set_doc (one_doc u d) u (Some d2) u = Some d2.
Proof. unfold set_doc at 1. rewrite teqb_refl. reflexivity. Qed.

Lemma overtaken n u t v ch v2 d2 ds1 ds2 : 2 <= n -> apply_changes (new_doc t v) ch v2 enc = (d2, SOk) ->
  lints L (Snap u (new_doc t v)) (Done (ds1, 0)) -> lints L (Snap u d2) (Done (ds2, 0)) ->
  exists tr (s : server) tr1 tr2, reaches n tr s /\ quiet s /\ tr = tr1 ++ Received (Notif (DidSave u)) :: tr2 /\
    not_saved u tr2 /\ not_closed u tr2 /\ doc_at enc tr1 u = Some d2 /\ shown tr u = Some ds1.
Proof.
  intros Pn E L1 L2. destruct n as [|[|n]]; [lia|lia|]. pose proof (do_open (S (S n)) u t v) as R.
  apply (do_save _ _ _ _ _ _ _ u (new_doc t v)) in R; [|apply one_doc_known|cbn; unfold capacity; lia]. cbn [app repeat] in R.
  apply (do_take _ _ _ _ _ _ _ []) in R. cbn [app] in R.
  eapply do_change in R; [|exact E]. cbn [app] in R.
  apply (do_save _ _ _ _ _ _ _ u d2) in R; [|apply changed_known|cbn; unfold capacity; lia]. cbn [app] in R.
  apply (do_take _ _ _ _ _ _ _ [Busy (LintDocument (Snap u (new_doc t v)))]) in R.
  eapply do_work in R; [|apply w_lint; exact L2]. eapply do_work in R; [|apply w_publish]. cbn [app map] in R.
  eapply (do_work _ _ _ _ _ _ []) in R; [|apply w_lint; exact L1]. cbn [app map] in R.
  eapply (do_work _ _ _ _ _ _ []) in R; [|apply w_publish]. cbn [app map sn_uri sn_doc] in R.
  eexists _, _, [Received (Notif (DidOpen u t v)); Received (Notif (DidSave u)); Received (Notif (DidChange u ch v2))], _.
  split; [exact R|]. split; [split; [left; reflexivity|split; [reflexivity|constructor; [reflexivity|constructor; [reflexivity|apply all_idle]]]]|].
  split; [reflexivity|]. split; [intros [I|[I|[]]]; discriminate|]. split; [intros [I|[I|[]]]; discriminate|].
  split.
  - unfold doc_at. cbn [events flat_map app run_events handle fst]. change (set_doc empty_session u (Some (new_doc t v))) with (one_doc u (new_doc t v)).
    rewrite one_doc_known, E. cbn [fst]. apply changed_known.
  - unfold shown. cbn [fold_left]. rewrite teqb_refl. reflexivity.
Qed.

Lemma published_after_close n u t v ds : 0 < n -> lints L (Snap u (new_doc t v)) (Done (ds, 0)) ->
  exists tr (s : server), reaches n tr s /\ quiet s /\ doc_at enc tr u = None /\ shown tr u = Some ds /\
    exists tr1 tr2, tr = tr1 ++ Received (Notif (DidClose u)) :: tr2 /\ (forall m, ~ In (Received m) tr2) /\ doc_at enc tr1 u <> None.
Proof.
  intros Pn L1. destruct n as [|n]; [lia|]. pose proof (do_open (S n) u t v) as R.
  apply (do_save _ _ _ _ _ _ _ u (new_doc t v)) in R; [|apply one_doc_known|cbn; unfold capacity; lia]. cbn [app repeat] in R.
  apply (do_take _ _ _ _ _ _ _ []) in R. cbn [app] in R.
  eapply (do_receive _ _ _ (Notif (DidClose u)) None) in R; [|reflexivity|cbn [receive]; unfold handle_event; cbn [handle docs]; rewrite one_doc_known; reflexivity].
  unfold with_docs in R. cbn [docs config_shown told queue pool thread app map] in R.
  eapply (do_work _ _ _ _ _ _ []) in R; [|apply w_lint; exact L1]. cbn [app map] in R.
  eapply (do_work _ _ _ _ _ _ []) in R; [|apply w_publish]. cbn [app map sn_uri sn_doc] in R.
  eexists _, _. split; [exact R|]. split; [split; [left; reflexivity|split; [reflexivity|constructor; [reflexivity|apply all_idle]]]|].
  split.
  - unfold doc_at. cbn [events flat_map app run_events handle fst]. change (set_doc empty_session u (Some (new_doc t v))) with (one_doc u (new_doc t v)).
    rewrite one_doc_known. cbn [fst]. unfold set_doc. rewrite teqb_refl. reflexivity.
  - split; [unfold shown; cbn [fold_left]; rewrite teqb_refl; reflexivity|].
    eexists [Received (Notif (DidOpen u t v)); Received (Notif (DidSave u))], _. split; [reflexivity|].
    split; [intros m [I|[I|[]]]; discriminate|]. unfold doc_at. cbn [events flat_map app run_events handle fst]. unfold set_doc. rewrite teqb_refl. discriminate.
Qed.

Lemma kept_after_failure n u t v ch v2 d2 ds : 0 < n -> apply_changes (new_doc t v) ch v2 enc = (d2, SOk) ->
  lints L (Snap u (new_doc t v)) (Done (ds, 0)) -> lints L (Snap u d2) Failed ->
  exists tr (s : server) tr1 tr2, reaches n tr s /\ quiet s /\ tr = tr1 ++ Received (Notif (DidSave u)) :: tr2 /\
    tr2 = [] /\ doc_at enc tr1 u = Some d2 /\ received_times u tr1 = saved_times enc u tr1 /\ shown tr u = Some ds.
Proof.
  intros Pn E L1 L2. destruct n as [|n]; [lia|]. pose proof (do_open (S n) u t v) as R.
  apply (do_save _ _ _ _ _ _ _ u (new_doc t v)) in R; [|apply one_doc_known|cbn; unfold capacity; lia]. cbn [app repeat] in R.
  apply (do_take _ _ _ _ _ _ _ []) in R. cbn [app] in R.
  eapply (do_work _ _ _ _ _ _ []) in R; [|apply w_lint; exact L1]. cbn [app map] in R.
  eapply (do_work _ _ _ _ _ _ []) in R; [|apply w_publish]. cbn [app map sn_uri sn_doc] in R.
  eapply do_change in R; [|exact E]. cbn [app] in R.
  apply (do_save _ _ _ _ _ _ _ u d2) in R; [|apply changed_known|cbn; unfold capacity; lia]. cbn [app] in R.
  apply (do_take _ _ _ _ _ _ _ []) in R. cbn [app] in R.
  eapply (do_work _ _ _ _ _ _ []) in R; [|apply w_lint_failed; exact L2]. cbn [app map] in R.
  eexists _, _, [Received (Notif (DidOpen u t v)); Received (Notif (DidSave u)); Sent (Publish u ds (Some v)); Received (Notif (DidChange u ch v2))], _.
  split; [exact R|]. split; [split; [left; reflexivity|split; [reflexivity|constructor; [reflexivity|apply all_idle]]]|].
  split; [reflexivity|]. split; [reflexivity|].
  split.
  - unfold doc_at. cbn [events flat_map app run_events handle fst]. change (set_doc empty_session u (Some (new_doc t v))) with (one_doc u (new_doc t v)).
    rewrite one_doc_known, E. cbn [fst]. apply changed_known.
  - split; [|unfold shown; cbn [fold_left]; rewrite teqb_refl; reflexivity].
    unfold received_times, saved_times, saves. cbn [published flat_map saves_from handle fst app]. unfold set_doc at 1. rewrite teqb_refl. cbn [app filter sn_uri fst].
    rewrite teqb_refl. reflexivity.
Qed.

(** A session without surprises *)
Lemma simple_session n u t v ds r i l : 0 < n -> lints L (Snap u (new_doc t v)) (Done (ds, 0)) -> acts L (Snap u (new_doc t v)) r (Done l) ->
  exists s : server, quiet s /\
  reaches n [Received (Notif (DidOpen u t v)); Received (Notif (DidSave u)); Sent (Publish u ds (Some v));
             Received (CodeAction i u r); Sent (Answer i l); Received (Notif (DidClose u)); Sent (Publish u [] None)] s.
Proof.
  intros Pn L1 L2. destruct n as [|n]; [lia|]. pose proof (do_open (S n) u t v) as R.
  apply (do_save _ _ _ _ _ _ _ u (new_doc t v)) in R; [|apply one_doc_known|cbn; unfold capacity; lia]. cbn [app repeat] in R.
  apply (do_take _ _ _ _ _ _ _ []) in R. cbn [app] in R.
  eapply (do_work _ _ _ _ _ _ []) in R; [|apply w_lint; exact L1]. cbn [app map] in R.
  eapply (do_work _ _ _ _ _ _ []) in R; [|apply w_publish]. cbn [app map sn_uri sn_doc] in R.
  eapply (do_receive _ _ _ (CodeAction i u r) None) in R; [|reflexivity|cbn [receive docs]; rewrite one_doc_known; reflexivity].
  cbn [map app] in R. unfold with_thread in R. cbn [docs config_shown told queue pool] in R.
  apply do_enqueue in R; [|cbn; unfold capacity; lia]. cbn [app] in R. apply (do_take _ _ _ _ _ _ _ []) in R. cbn [app] in R.
  eapply (do_work _ _ _ _ _ _ []) in R; [|apply w_acts; exact L2]. cbn [app map] in R.
  eapply (do_work _ _ _ _ _ _ []) in R; [|apply w_answer]. cbn [app map] in R.
  eapply (do_receive _ _ _ (Notif (DidClose u)) None) in R; [|reflexivity|cbn [receive]; unfold handle_event; cbn [handle docs]; rewrite one_doc_known; reflexivity].
  unfold with_docs in R. cbn [docs config_shown told queue pool thread app map] in R.
  eexists. split; [|exact R]. split; [left; reflexivity|split; [reflexivity|constructor; [reflexivity|apply all_idle]]].
Qed.
Lemma simple_save n u t v ds : 0 < n -> lints L (Snap u (new_doc t v)) (Done (ds, 0)) ->
  exists s : server, quiet s /\
  reaches n [Received (Notif (DidOpen u t v)); Received (Notif (DidSave u)); Sent (Publish u ds (Some v))] s.
Proof.
  intros Pn L1. destruct n as [|n]; [lia|]. pose proof (do_open (S n) u t v) as R.
  apply (do_save _ _ _ _ _ _ _ u (new_doc t v)) in R; [|apply one_doc_known|cbn; unfold capacity; lia]. cbn [app repeat] in R.
  apply (do_take _ _ _ _ _ _ _ []) in R. cbn [app] in R.
  eapply (do_work _ _ _ _ _ _ []) in R; [|apply w_lint; exact L1]. cbn [app map] in R.
  eapply (do_work _ _ _ _ _ _ []) in R; [|apply w_publish]. cbn [app map sn_uri sn_doc] in R.
  eexists. split; [|exact R]. split; [left; reflexivity|split; [reflexivity|constructor; [reflexivity|apply all_idle]]].
Qed.

Lemma hidden_session u t v ds k msg : 0 < k -> lints L (Snap u (new_doc t v)) (Done (ds, k)) ->
  exists s : server, quiet s /\
  reaches 1 [Received (Notif (DidOpen u t v)); Sent (ShowConfig msg); Received (Notif (DidSave u)); Sent (ShowHidden k); Sent (Publish u ds (Some v))] s.
Proof.
  intros Pk L1.
  pose proof (do_receive 1 [] (start 1) (Notif (DidOpen u t v)) (Some msg) _ _ (r_start _ _ _) eq_refl eq_refl) as R.
  unfold with_docs, start in R. cbn [docs told queue pool thread map app] in R. change (set_doc empty_session u (Some (new_doc t v))) with (one_doc u (new_doc t v)) in R.
  apply (do_save _ _ _ _ _ _ _ u (new_doc t v)) in R; [|apply one_doc_known|cbn; unfold capacity; lia]. cbn [app repeat] in R.
  apply (do_take _ _ _ _ _ _ _ []) in R. cbn [app] in R.
  eapply (do_work _ _ _ _ _ _ []) in R; [|eapply w_hidden; [exact L1|exact Pk]]. cbn [app map] in R.
  eapply (do_work _ _ _ _ _ _ []) in R; [|apply w_swap]. cbn [app map] in R.
  eapply (do_work _ _ _ _ _ _ []) in R; [|apply w_say]. cbn [app map] in R.
  eapply (do_work _ _ _ _ _ _ []) in R; [|apply w_publish]. cbn [app map sn_uri sn_doc] in R.
  eexists. split; [|exact R]. split; [left; reflexivity|split; [reflexivity|repeat constructor]].
Qed.

(** *** After [shutdown] *)
Lemma stopped_from s0 tr (s : server) : from enc L s0 tr s -> thread s0 = Stopped -> thread s = Stopped /\ forall m, ~ In (Received m) tr.
Proof.
  intros F T. induction F as [|tr s o s' F [IH N] St]; [split; [exact T|intros m []]|].
  destruct St as [s m cfg s' out W Rc|s o s' I]; [congruence|].
  assert (thread s' = Stopped) as T' by (destruct I as [s t X|s a b t q Ru P Q|s a w b tb w' out Ru P W]; cbn [thread]; [congruence|exact IH|exact IH]).
  split; [exact T'|]. intros m J. apply in_app_or in J. destruct J as [J|J]; [exact (N m J)|].
  apply in_split in J. destruct J as (a & b & E). exact (internal_no_received _ _ _ _ _ _ _ I E).
Qed.
Lemma shutdown_last n tr (s : server) tr1 i tr2 : reaches n tr s -> tr = tr1 ++ Received (Shutdown i) :: tr2 ->
  thread s = Stopped /\ exists tr3, tr2 = Sent (AnswerNull i) :: tr3 /\ forall m, ~ In (Received m) tr3.
Proof.
  intros R E. destruct (split_received _ _ _ _ _ _ _ _ R E) as (s1 & cfg & s1' & out & tr2' & R1 & W & Rc & -> & F).
  cbn [receive] in Rc. injection Rc as <- <-. destruct (stopped_from _ _ _ F eq_refl) as [T N].
  split; [exact T|]. exists tr2'. split; [reflexivity|exact N].
Qed.

(** [exit] without [shutdown] *)
Lemma exit_zero n : exists tr (s : server), reaches n tr s /\ (forall i, ~ In (Received (Shutdown i)) tr) /\ thread s = Exited 0.
Proof.
  exists [Received Exit], (with_thread (start n) (Exited 0)). split; [exact (do_receive n [] (start n) Exit None _ _ (r_start _ _ _) eq_refl eq_refl)|].
  split; [intros i [I|[]]; discriminate|reflexivity].
Qed.
End Server.
