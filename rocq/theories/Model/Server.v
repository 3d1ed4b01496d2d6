(** The threads of the language server: crates/jarl-lsp/src/{server,client,session,lib}.rs.
    The main thread receives messages and hands work to a pool of worker threads over a bounded
    channel; all threads send to the client.  A run is any interleaving of their steps.
    Simplifications: sending to the client never fails (its channel stays open); one main-loop turn
    is one step, since it sends at most one message; the JSON of messages is left out, except that
    parameters may be of the wrong shape; request ids are numbers; the server never sends
    requests ([send_request] has no caller), so an answer from the client is ignored. *)
From Verif Require Import Model.Text Model.Base Model.Lsp.

Definition rid := nat.

(** [DocumentSnapshot], session.rs:50-60 (the encoding and the capabilities are the same all along) *)
Record snapshot := Snap { sn_uri : uri; sn_doc : doc }.

(** What a computation on a snapshot can do.  It also depends on the files on disk, which are not
    part of the snapshot, so the same snapshot may have several outcomes. *)
Inductive outcome (A : Type) := Done (a : A) | Failed | Panicked.
Arguments Done {A} a.
Arguments Failed {A}.
Arguments Panicked {A}.

(** [lint_document], lint.rs:57-80: diagnostics and number of hidden [unused_function] ones;
    [generate_code_actions], server.rs:413-447. *)
Record linter (D A : Type) := Linter {
  lints : snapshot -> outcome (list D * nat) -> Prop;
  acts : snapshot -> pos * pos -> outcome (list A) -> Prop }.
Arguments lints {D A} l.
Arguments acts {D A} l.

(** Messages from the client, server.rs:189-344.  [BadCodeAction] has parameters that
    [serde_json::from_value] refuses, and so has [BadNotification]. *)
Inductive message :=
| Shutdown (id : rid)
| CodeAction (id : rid) (u : uri) (r : pos * pos)
| BadCodeAction (id : rid)
| OtherRequest (id : rid)
| Exit
| Notif (e : event)
| BadNotification
| OtherNotification
| Reply (id : rid).

(** Messages to the client, client.rs:45-160 *)
Inductive sent (D A : Type) :=
| Answer (id : rid) (l : list A)
| AnswerNull (id : rid)
| Refuse (id : rid) (code : Z)
| Publish (u : uri) (ds : list D) (version : option Z)
| ShowConfig (msg : text)
| ShowHidden (n : nat).
Arguments Answer {D A} id l.
Arguments AnswerNull {D A} id.
Arguments Refuse {D A} id code.
Arguments Publish {D A} u ds version.
Arguments ShowConfig {D A} msg.
Arguments ShowHidden {D A} n.

(** [Task], server.rs:40-52 *)
Inductive task := LintDocument (s : snapshot) | HandleCodeAction (s : snapshot) (id : rid) (r : pos * pos).

(** The main thread: waiting for a message, blocked in [task_sender.send], out of its loop,
    after [process::exit], after a panic. *)
Inductive main := Waiting | Sending (t : task) | Stopped | Exited (code : nat) | Crashed.

(** A worker thread, server.rs:347-412: between two steps of [handle_lint_task] and of
    [handle_code_action_request].  A thread that panicked is gone, with its task. *)
Inductive worker (D A : Type) :=
| Idle
| Busy (t : task)
| Telling (s : snapshot) (ds : list D) (hidden : nat)
| Saying (s : snapshot) (ds : list D) (hidden : nat)
| Publishing (s : snapshot) (ds : list D)
| Answering (id : rid) (l : list A)
| Dead (t : task).
Arguments Idle {D A}.
Arguments Busy {D A} t.
Arguments Telling {D A} s ds hidden.
Arguments Saying {D A} s ds hidden.
Arguments Publishing {D A} s ds.
Arguments Answering {D A} id l.
Arguments Dead {D A} t.

(** [config_shown] is [config_notification_shown] of session.rs:46; [told] is the shared
    [unused_fn_threshold_notified] of client.rs:25; [shutdown_requested] is [Stopped]. *)
Record server (D A : Type) := Server {
  docs : session; config_shown : bool; told : bool;
  queue : list task; pool : list (worker D A); thread : main }.
Arguments Server {D A}.
Arguments docs {D A} s.
Arguments config_shown {D A} s.
Arguments told {D A} s.
Arguments queue {D A} s.
Arguments pool {D A} s.
Arguments thread {D A} s.

(** [channel::bounded::<Task>(100)], server.rs:110 *)
Definition capacity : nat := 100.

Section Threads.
Context {D A : Type}.
Variable enc : encoding.
Variable L : linter D A.

Definition with_thread (s : server D A) (m : main) : server D A :=
  Server (docs s) (config_shown s) (told s) (queue s) (pool s) m.
Definition with_docs (s : server D A) (d : session) : server D A :=
  Server d (config_shown s) (told s) (queue s) (pool s) (thread s).

(** [check_and_notify_config], session.rs:245-305; [cfg] is the message about the configuration
    that [discover_settings] finds on disk in another directory, if any. *)
Definition notify_config (cfg : option text) (s : server D A) : server D A * list (sent D A) :=
  if config_shown s then (s, [])
  else match cfg with
       | None => (s, [])
       | Some m => (Server (docs s) true (told s) (queue s) (pool s) (thread s), [ShowConfig m])
       end.

(** [handle_notification], server.rs:258-344 *)
Definition handle_event (cfg : option text) (s : server D A) (e : event) : server D A * list (sent D A) :=
  let '(d', st) := handle enc (docs s) e in
  let s' := with_docs s d' in
  match st with
  | SPanic => (with_thread s' Crashed, [])
  | SErr => (s', [])
  | SOk =>
      match e with
      | DidOpen _ _ _ => notify_config cfg s'
      | DidChange _ _ _ => (s', [])
      | DidClose u => (s', [Publish u [] None])
      | DidSave u =>
          match docs s u with
          | Some d => (with_thread s' (Sending (LintDocument (Snap u d))), [])
          | None => (s', [])
          end
      end
  end.

(** [handle_message], [handle_request] and the test of the main loop, server.rs:129-256 *)
Definition receive (cfg : option text) (s : server D A) (m : message) : server D A * list (sent D A) :=
  match m with
  | Shutdown id => (with_thread s Stopped, [AnswerNull id])
  | CodeAction id u r =>
      match docs s u with
      | Some d => (with_thread s (Sending (HandleCodeAction (Snap u d) id r)), [])
      | None => (s, [Refuse id (-32603)])
      end
  | BadCodeAction _ => (s, [])
  | OtherRequest id => (s, [Refuse id (-32601)])
  | Exit => (with_thread s (Exited 0), [])
  | Notif e => handle_event cfg s e
  | BadNotification | OtherNotification => (s, [])
  | Reply _ => (s, [])
  end.

(** [worker_thread] on one task, server.rs:347-412, and [notify_unused_fn_threshold_once],
    client.rs:139-157: the flag before and after, the worker after, what is sent. *)
Inductive work : bool -> worker D A -> bool -> worker D A -> list (sent D A) -> Prop :=
| w_hidden b s ds n : lints L s (Done (ds, n)) -> 0 < n -> work b (Busy (LintDocument s)) b (Telling s ds n) []
| w_lint b s ds : lints L s (Done (ds, 0)) -> work b (Busy (LintDocument s)) b (Publishing s ds) []
| w_lint_failed b s : lints L s Failed -> work b (Busy (LintDocument s)) b Idle []
| w_lint_panic b s : lints L s Panicked -> work b (Busy (LintDocument s)) b (Dead (LintDocument s)) []
| w_swap s ds n : work false (Telling s ds n) true (Saying s ds n) []
| w_already s ds n : work true (Telling s ds n) true (Publishing s ds) []
| w_say b s ds n : work b (Saying s ds n) b (Publishing s ds) [ShowHidden n]
| w_publish b s ds : work b (Publishing s ds) b Idle [Publish (sn_uri s) ds (Some (dc_version (sn_doc s)))]
| w_acts b s id r l : acts L s r (Done l) -> work b (Busy (HandleCodeAction s id r)) b (Answering id l) []
| w_acts_failed b s id r : acts L s r Failed -> work b (Busy (HandleCodeAction s id r)) b (Answering id []) []
| w_acts_panic b s id r : acts L s r Panicked -> work b (Busy (HandleCodeAction s id r)) b (Dead (HandleCodeAction s id r)) []
| w_answer b id l : work b (Answering id l) b Idle [Answer id l].

(** What can be observed: a message is taken by the main thread, a message is sent. *)
Inductive obs := Received (m : message) | Sent (x : sent D A).

(** The process is there: [process::exit] and a panic of the main thread end all threads. *)
Definition running (s : server D A) : Prop := match thread s with Exited _ | Crashed => False | _ => True end.

(** The steps the server makes by itself. *)
Inductive internal : server D A -> list obs -> server D A -> Prop :=
| i_enqueue s t : thread s = Sending t -> length (queue s) < capacity ->
    internal s [] (Server (docs s) (config_shown s) (told s) (queue s ++ [t]) (pool s) Waiting)
| i_take s a b t q : running s -> pool s = a ++ Idle :: b -> queue s = t :: q ->
    internal s [] (Server (docs s) (config_shown s) (told s) q (a ++ Busy t :: b) (thread s))
| i_work s a w b tb w' out : running s -> pool s = a ++ w :: b -> work (told s) w tb w' out ->
    internal s (map Sent out) (Server (docs s) (config_shown s) tb (queue s) (a ++ w' :: b) (thread s)).

(** One step of any thread; [main_loop], server.rs:129-185. *)
Inductive step : server D A -> list obs -> server D A -> Prop :=
| s_receive s m cfg s' out : thread s = Waiting -> receive cfg s m = (s', out) ->
    step s (Received m :: map Sent out) s'
| s_internal s o s' : internal s o s' -> step s o s'.

(** The server after the handshake with [n] workers, server.rs:60-128. *)
Definition start (n : nat) : server D A := Server empty_session false false [] (repeat Idle n) Waiting.

(** The executions, with what was observed. *)
Inductive reaches (n : nat) : list obs -> server D A -> Prop :=
| r_start : reaches n [] (start n)
| r_step tr s o s' : reaches n tr s -> step s o s' -> reaches n (tr ++ o) s'.
End Threads.
Arguments Received {D A} m.
Arguments Sent {D A} x.
Arguments obs : clear implicits.
