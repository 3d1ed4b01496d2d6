(** * What it means for R code to be executed

    An abstract machine for the R statements that the [unreachable_code] rule
    looks at.  It mentions neither graphs nor reports: only programs (the
    [stmt] of Model/Cfg.v, which is nothing but an abstract syntax tree with
    source ranges).  It deliberately allows more executions than R has: an
    ordinary statement may complete, fail, or leave through [break], [next] or
    a return hidden inside it. *)
From Verif Require Import Model.Text Model.Base Model.Cfg.
Import ListNotations.

(** How a statement ends: normally, through [break], through [next], or by
    leaving the function (a return or an error). *)
Inductive outcome := Normal | Brk | Nxt | Leave.

(** R's three-valued logic. *)
Inductive tri := T | F | NA.
Definition or3 (a b : tri) : tri :=
  match a, b with T, _ | _, T => T | F, F => F | _, _ => NA end.
Definition and3 (a b : tri) : tri :=
  match a, b with F, _ | _, F => F | T, T => T | _, _ => NA end.

(** Values a condition may take. *)
Inductive ceval : cond -> tri -> Prop :=
| ev_true : ceval CTrue T
| ev_false : ceval CFalse F
| ev_paren c v : ceval c v -> ceval (CParen c) v
| ev_or a b v w : ceval a v -> ceval b w -> ceval (COr a b) (or3 v w)
| ev_and a b v w : ceval a v -> ceval b w -> ceval (CAnd a b) (and3 v w)
| ev_other v : ceval COther v.

(** What a call of a function spelled [callee] in the source may do.  The only
    thing assumed ([respects], below) is that functions declared to stop the
    execution, and return/break/next, do not complete normally. *)
Definition call_sem := text -> outcome -> Prop.

(** [f] is the name called by the text [callee], an optional [pkg::] (or
    [pkg:::]) qualifier aside. *)
Definition unqualified (callee f : text) : Prop :=
  (forall pre post, f <> pre ++ lit "::" ++ post) /\
  (callee = f \/ exists ns, callee = ns ++ lit "::" ++ f).

Definition respects (stopping : list text) (cs : call_sem) : Prop :=
  forall callee f,
    unqualified callee f ->
    In f ([lit "return"; lit "break"; lit "next"] ++ stopping) ->
    ~ cs callee Normal.

(** What is left to do when the current statement ends. *)
Inductive frame :=
| FSeq (l : list stmt)     (* run these next *)
| FLoop (s : stmt).        (* we are in the body of the loop [s] *)

Inductive state :=
| Run (s : stmt) (k : list frame)        (* about to execute [s] *)
| Ended (o : outcome) (k : list frame).  (* the current statement ended with [o] *)

Inductive step (cs : call_sem) : state -> state -> Prop :=
(* opaque statements: anything may happen *)
| st_simple r o k : step cs (Run (Simple r) k) (Ended o k)
| st_call r f o k : cs f o -> step cs (Run (Call r f) k) (Ended o k)
| st_break r k : step cs (Run (Break r) k) (Ended Brk k)
| st_next r k : step cs (Run (Next r) k) (Ended Nxt k)
(* the bare word [return] is a variable lookup: its value is the function
   [return], and execution goes on *)
| st_return r k : step cs (Run (Return r) k) (Ended Normal k)
| st_block r l k : step cs (Run (Block r l) k) (Ended Normal (FSeq l :: k))
(* conditions: T and F choose, NA is an error, and any condition may fail or leave *)
| st_if_true r c t e k : ceval c T -> step cs (Run (If r c t e) k) (Run t k)
| st_if_false r c t e k : ceval c F -> step cs (Run (If r c t (Some e)) k) (Run e k)
| st_if_none r c t k : ceval c F -> step cs (Run (If r c t None) k) (Ended Normal k)
| st_if_leave r c t e o k : o <> Normal -> step cs (Run (If r c t e) k) (Ended o k)
| st_for_body r b k : step cs (Run (For r b) k) (Run b (FLoop (For r b) :: k))
| st_for_end r b o k : step cs (Run (For r b) k) (Ended o k)
| st_while_body r c b k :
    ceval c T -> step cs (Run (While r c b) k) (Run b (FLoop (While r c b) :: k))
| st_while_end r c b k : ceval c F -> step cs (Run (While r c b) k) (Ended Normal k)
| st_while_leave r c b o k : o <> Normal -> step cs (Run (While r c b) k) (Ended o k)
| st_repeat r b k : step cs (Run (Repeat r b) k) (Run b (FLoop (Repeat r b) :: k))
(* sequencing *)
| st_seq s l k : step cs (Ended Normal (FSeq (s :: l) :: k)) (Run s (FSeq l :: k))
| st_seq_end k : step cs (Ended Normal (FSeq [] :: k)) (Ended Normal k)
| st_seq_leave o l k : o <> Normal -> step cs (Ended o (FSeq l :: k)) (Ended o k)
(* loops *)
| st_loop_again o s k : o = Normal \/ o = Nxt -> step cs (Ended o (FLoop s :: k)) (Run s k)
| st_loop_break s k : step cs (Ended Brk (FLoop s :: k)) (Ended Normal k)
| st_loop_leave s k : step cs (Ended Leave (FLoop s :: k)) (Ended Leave k).

Inductive steps (cs : call_sem) : state -> state -> Prop :=
| steps_refl st : steps cs st st
| steps_step a b c : steps cs a b -> step cs b c -> steps cs a c.

(** [n] starts executing in some (finite prefix of an) execution of the body. *)
Definition executed (cs : call_sem) (body n : stmt) : Prop :=
  exists k, steps cs (Run body []) (Run n k).
Definition executed_top (cs : call_sem) (l : list stmt) (n : stmt) : Prop :=
  exists k, steps cs (Ended Normal [FSeq l]) (Run n k).

(** ** Source ranges of a parsed program *)

(** The statements directly below one, in source order. *)
Definition children (s : stmt) : list stmt :=
  match s with
  | Block _ l => l
  | If _ _ t (Some e) => [t; e]
  | If _ _ t None => [t]
  | For _ b | While _ _ b | Repeat _ b => [b]
  | _ => []
  end.

(** Siblings do not overlap and appear in order, within [lo, hi]. *)
Fixpoint ordered (lo : nat) (l : list stmt) (hi : nat) : Prop :=
  match l with
  | [] => lo <= hi
  | s :: l => lo <= r_start (rng s) /\ r_start (rng s) < r_end (rng s) /\
              ordered (r_end (rng s)) l hi
  end.

Inductive descendant : stmt -> stmt -> Prop :=
| desc_self s : descendant s s
| desc_child s c n : In c (children s) -> descendant c n -> descendant s n.

(** Every node is non-empty and its children lie inside it, in order; a
    compound statement starts with its keyword or brace, so before its first
    child. *)
Definition well_ranged (s : stmt) : Prop :=
  forall n, descendant s n ->
    r_start (rng n) < r_end (rng n) /\
    ordered (S (r_start (rng n))) (children n) (r_end (rng n)).

Definition well_ranged_top (l : list stmt) : Prop :=
  (exists lo hi, ordered lo l hi) /\ Forall well_ranged l.

(** No statement of the program is the bare word [return]. *)
Definition no_bare_return (s : stmt) : Prop :=
  forall r, ~ descendant s (Return r).

(** The statement begins inside the range. *)
Definition begins_in (n : stmt) (r : range) : Prop :=
  r_start r <= r_start (rng n) < r_end r.

(** ** What must be reported *)

(** A statement after which execution never continues with the next one:
    a call to [return] or to a stopping function, and inside a loop also
    [break] and [next]. *)
Inductive diverges (stopping : list text) (in_loop : bool) : stmt -> Prop :=
| div_call r callee f :
    unqualified callee f -> (forall f', f <> 58%N :: f') ->
    In f (lit "return" :: stopping) -> f <> lit "break" -> f <> lit "next" ->
    diverges stopping in_loop (Call r callee)
| div_break r : in_loop = true -> diverges stopping in_loop (Break r)
| div_next r : in_loop = true -> diverges stopping in_loop (Next r).

(** [sequence b s b' l]: [l] is the list of statements of a pair of braces that
    is the body of [s] itself, or of a branch or a loop in [s]; [b], [b'] tell
    whether [s], resp. [l], is inside a loop of the function.  Braces that stand
    alone as a statement are not followed. *)
Inductive sequence : bool -> stmt -> bool -> list stmt -> Prop :=
| seq_here b r l : sequence b (Block r l) b l
| seq_in b r l s b' l' : In s l -> inner b s b' l' -> sequence b (Block r l) b' l'
| seq_stmt b s b' l' : inner b s b' l' -> sequence b s b' l'
with inner : bool -> stmt -> bool -> list stmt -> Prop :=
| inner_then b r c t e b' l : sequence b t b' l -> inner b (If r c t e) b' l
| inner_else b r c t e b' l : sequence b e b' l -> inner b (If r c t (Some e)) b' l
| inner_for b r x b' l : sequence true x b' l -> inner b (For r x) b' l
| inner_while b r c x b' l : sequence true x b' l -> inner b (While r c x) b' l
| inner_repeat b r x b' l : sequence true x b' l -> inner b (Repeat r x) b' l.

(** ** What the messages mention (C41) *)
(** The statement that the message of a report is about: a return, a break, a next, a call of a
    stopping function, an if. *)
Inductive cause (stopping : list text) : reason -> stmt -> Prop :=
| cause_return r callee : unqualified callee (lit "return") -> cause stopping AfterReturn (Call r callee)
| cause_bare_return r : cause stopping AfterReturn (Return r)
| cause_break r : cause stopping AfterBreak (Break r)
| cause_break_call r callee : unqualified callee (lit "break") -> cause stopping AfterBreak (Call r callee)
| cause_next r : cause stopping AfterNext (Next r)
| cause_next_call r callee : unqualified callee (lit "next") -> cause stopping AfterNext (Call r callee)
| cause_stop r callee f : unqualified callee f -> In f stopping -> cause stopping AfterStop (Call r callee)
| cause_if r c t e : cause stopping AfterBranchTerminating (If r c t e).
(** The messages that are about a statement. *)
Definition about_statement (w : reason) : Prop :=
  match w with DeadBranch | NoPathFromEntry => False | _ => True end.

(** The condition can be true and can be false. *)
Definition undecided (c : cond) : Prop := ceval c T /\ ceval c F.
Definition no_constant_if (s : stmt) : Prop :=
  forall r c t e, descendant s (If r c t e) -> undecided c.

(** [d] is what the message [w] mentions: a return, a call of a stopping function or, in a loop, a
    break or a next. *)
Definition leaves_here (stopping : list text) (in_loop : bool) (w : reason) (d : stmt) : Prop :=
  cause stopping w d /\ w <> AfterBranchTerminating /\ (w = AfterBreak \/ w = AfterNext -> in_loop = true).

(** Execution never goes on after the statement: it is such a statement, or an if/else with one in
    each branch. *)
Inductive blocked (stopping : list text) (in_loop : bool) : stmt -> Prop :=
| bl_here w d : leaves_here stopping in_loop w d -> blocked stopping in_loop d
| bl_braces r l s : In s l -> blocked stopping in_loop s -> blocked stopping in_loop (Block r l)
| bl_if r c t e : blocked stopping in_loop t -> blocked stopping in_loop e ->
    blocked stopping in_loop (If r c t (Some e)).

(** [n] directly follows [d]. *)
Definition adjacent (l : list stmt) (d n : stmt) : Prop := exists pre post, l = pre ++ d :: n :: post.

(** ** An if that always leaves *)
(** A statement after which execution goes on (not control flow). *)
Definition carries_on (stopping : list text) (s : stmt) : Prop :=
  match s with Simple _ => True | Call _ _ => forall w, ~ cause stopping w s | _ => False end.
(** A return, a call of a stopping function, or an if/else (whose condition is not constant) with such
    a statement at the end of both branches; [b]: braces around it are allowed. *)
Inductive always_leaves (stopping : list text) : bool -> stmt -> Prop :=
| al_return b r : always_leaves stopping b (Return r)
| al_call b r callee : diverges stopping false (Call r callee) -> always_leaves stopping b (Call r callee)
| al_if b r c t e : undecided c -> always_leaves stopping true t -> always_leaves stopping true e ->
    always_leaves stopping b (If r c t (Some e))
| al_braces r pre s : Forall (carries_on stopping) pre -> always_leaves stopping false s ->
    always_leaves stopping true (Block r (pre ++ [s])).
