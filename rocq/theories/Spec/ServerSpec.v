(** What an editor can observe of the language server: the messages it has sent and received. *)
From Verif Require Import Model.Text Model.Base Model.Lsp Model.Server.

Section Observed.
Context {D A : Type}.
Variable enc : encoding.

(** The document [u], known from the notifications of the editor. *)
Definition events (tr : list (obs D A)) : list event :=
  flat_map (fun o => match o with Received (Notif e) => [e] | _ => [] end) tr.
Definition doc_at (tr : list (obs D A)) (u : uri) : option doc := run_events enc empty_session (events tr) u.

(** Requests of the editor, and the id of a request. *)
Definition request_id (m : message) : option rid :=
  match m with Shutdown i | CodeAction i _ _ | BadCodeAction i | OtherRequest i => Some i | _ => None end.
(** The message follows the protocol: parameters of the right shape. *)
Definition well_formed (m : message) : Prop :=
  match m with BadCodeAction _ | BadNotification => False | _ => True end.
(** The id that a message of the server answers. *)
Definition answer_id (x : sent D A) : option rid :=
  match x with Answer i _ | AnswerNull i | Refuse i _ => Some i | _ => None end.
Definition is_id (i : rid) (o : option rid) : nat := match o with Some j => if i =? j then 1 else 0 | None => 0 end.
Fixpoint requests (i : rid) (tr : list (obs D A)) : nat :=
  match tr with
  | [] => 0
  | Received m :: r => is_id i (request_id m) + requests i r
  | _ :: r => requests i r
  end.
Fixpoint answers (i : rid) (tr : list (obs D A)) : nat :=
  match tr with
  | [] => 0
  | Sent x :: r => is_id i (answer_id x) + answers i r
  | _ :: r => answers i r
  end.

(** Saved texts, in order: the documents that the editor has saved. *)
Fixpoint saves_from (d : session) (tr : list (obs D A)) : list snapshot :=
  match tr with
  | [] => []
  | Received (Notif e) :: r =>
      match e with
      | DidSave u => match d u with Some x => [Snap u x] | None => [] end
      | _ => []
      end ++ saves_from (fst (handle enc d e)) r
  | _ :: r => saves_from d r
  end.
Definition saves (tr : list (obs D A)) : list snapshot := saves_from empty_session tr.

(** Diagnostics sent for saved texts, in order: file, diagnostics, version. *)
Definition published (tr : list (obs D A)) : list (uri * list D * Z) :=
  flat_map (fun o => match o with Sent (Publish u ds (Some v)) => [(u, ds, v)] | _ => [] end) tr.
(** These are the results of checking these texts, in this order; a check that fails gives none. *)
Inductive results (L : linter D A) : list snapshot -> list (uri * list D * Z) -> Prop :=
| res_nil : results L [] []
| res_done s ds n l r : lints L s (Done (ds, n)) -> results L l r ->
    results L (s :: l) ((sn_uri s, ds, dc_version (sn_doc s)) :: r)
| res_failed s l r : lints L s Failed -> results L l r -> results L (s :: l) r.

(** What the editor shows for [u]: the diagnostics it received last. *)
Definition shown (tr : list (obs D A)) (u : uri) : option (list D) :=
  fold_left (fun acc o => match o with
                          | Sent (Publish x ds _) => if teqb x u then Some ds else acc
                          | _ => acc end) tr None.
(** How many times [u] was saved, and how many results were received. *)
Definition saved_times (u : uri) (tr : list (obs D A)) : nat :=
  length (filter (fun s => teqb (sn_uri s) u) (saves tr)).
Definition received_times (u : uri) (tr : list (obs D A)) : nat :=
  length (filter (fun x => teqb (fst (fst x)) u) (published tr)).
Definition not_saved (u : uri) (tr : list (obs D A)) : Prop := ~ In (Received (Notif (DidSave u))) tr.
Definition not_closed (u : uri) (tr : list (obs D A)) : Prop := ~ In (Received (Notif (DidClose u))) tr.

(** Messages that are meant to be shown once. *)
Definition config_messages (tr : list (obs D A)) : nat :=
  length (filter (fun o => match o with Sent (ShowConfig _) => true | _ => false end) tr).
Definition hidden_messages (tr : list (obs D A)) : nat :=
  length (filter (fun o => match o with Sent (ShowHidden _) => true | _ => false end) tr).

(** Nothing is left to do. *)
Definition quiet (s : server D A) : Prop :=
  (thread s = Waiting \/ thread s = Stopped) /\ queue s = [] /\ Forall (fun w => w = Idle) (pool s).
Definition no_thread_lost (s : server D A) : Prop := forall t, ~ In (Dead t) (pool s).

(** The linter always returns, with diagnostics or an error. *)
Definition healthy (L : linter D A) : Prop :=
  (forall s, (exists o, lints L s o) /\ ~ lints L s Panicked) /\
  (forall s r, (exists o, acts L s r o) /\ ~ acts L s r Panicked).
(** The linter returns diagnostics for every text, and never panics. *)
Definition faultless (L : linter D A) : Prop := healthy L /\ forall s, ~ lints L s Failed.

(** Whatever the schedule, the server by itself gets to a point where [P] holds. *)
Inductive inevitably (L : linter D A) (P : list (obs D A) -> server D A -> Prop) : list (obs D A) -> server D A -> Prop :=
| inev_now tr s : P tr s -> inevitably L P tr s
| inev_later tr s : (exists o s', internal L s o s') ->
    (forall o s', internal L s o s' -> inevitably L P (tr ++ o) s') -> inevitably L P tr s.
End Observed.
